(** LibFlatArray's soa_array. Definitions only.

    Sources: soa_array.hpp, macros.hpp and detail/macros.hpp, all below
    /repo/lib/libflatarray/include/libflatarray.

    [my_data] is a list of values, all members are equally large (their sizes
    only scale the offsets); array members count as several members. Integers
    are unbounded. What members' constructors yield isn't modelled ([junk]).
    Sources of copies are other arrays. Not modelled: swap, iterators, code for
    GPUs, destructors. *)
From Verif Require Import Base RegionSpec RegionOpsModel GridModel SoAModel.

(** An operation succeeds, throws std::out_of_range (before anything is
    changed) or accesses memory beyond [my_data]. *)
Inductive result (A : Type) := Done (a : A) | Thrown | Beyond.
Arguments Done {A} a. Arguments Thrown {A}. Arguments Beyond {A}.
Definition done {A B} (f : A -> B) (o : option A) : result B := match o with Some a => Done (f a) | None => Beyond end.

Section FlatArray.
Context {V : Type} (members : Z) (junk : Z -> V).

(** A cell: the values of its members *)
Definition cell := Z -> V.

(** [SIZE], [elements], [my_data] (soa_array.hpp:57, 271-272) *)
Record array := mkArr { ar_size : Z; ar_count : Z; ar_data : list V }.

(** [access_member] (macros.hpp:327-338) *)
Definition slot (size m i : Z) : Z := size * m + i.

(** [operator[]], [at] and the accessors' [operator>>] (soa_array.hpp:118-158,
    macros.hpp:244-252): member [m] of element [i] *)
Definition ar_get (a : array) (i m : Z) : option V := vec_get (ar_data a) (slot (ar_size a) m i).

(** The accessors' [operator=] and [operator<<] (macros.hpp:226-242) *)
Definition put (size i : Z) (c : cell) (data : list V) : option (list V) :=
  each (fun m data => vec_set data (slot size m i) (c m)) (zrange 0 members) data.

(** Constructor (soa_array.hpp:60-69): the number of elements isn't checked. *)
Definition ar_new (size n : Z) (c : cell) : result array :=
  done (mkArr size n) (each (fun i => put size i c) (zrange 0 n) (map junk (zrange 0 (members * size)))).

(** [a[i] = c] *)
Definition ar_set (a : array) (i : Z) (c : cell) : result array :=
  done (mkArr (ar_size a) (ar_count a)) (put (ar_size a) i c (ar_data a)).

(** [operator<<], [push_back] (soa_array.hpp:160-173, 246-251) *)
Definition ar_push (a : array) (c : cell) : result array :=
  if ar_size a <=? ar_count a then Thrown
  else done (mkArr (ar_size a) (ar_count a + 1)) (put (ar_size a) (ar_count a) c (ar_data a)).

(** [pop_back] (soa_array.hpp:233-244), [clear] (198-203) *)
Definition ar_pop (a : array) : result array :=
  if ar_count a =? 0 then Thrown else Done (mkArr (ar_size a) (ar_count a - 1) (ar_data a)).
Definition ar_clear (a : array) : result array := Done (mkArr (ar_size a) 0 (ar_data a)).

(** All members of [num] elements, one member after the other
    (detail/macros.hpp:183-192, 250-256) *)
Definition transfer (src : array) (from num : Z) (size to : Z) (data : list V) : option (list V) :=
  each (fun m => each (fun i data => obind (ar_get src (from + i) m) (vec_set data (slot size m (to + i)))) (zrange 0 num)) (zrange 0 members) data.

(** [load] (soa_array.hpp:175-196, macros.hpp:261-273) from an accessor of
    [src] whose index is [from] *)
Definition ar_load (a src : array) (from num offset : Z) : result array :=
  let n := Z.max (ar_count a) (num + offset) in
  if ar_size a <? n then Thrown
  else done (mkArr (ar_size a) n) (transfer src from num (ar_size a) offset (ar_data a)).

(** [copy_in] and [operator=] (soa_array.hpp:100-116, 283-295) *)
Definition ar_assign (a src : array) : result array :=
  if ar_size a <? ar_count src then Thrown
  else done (mkArr (ar_size a) (ar_count src)) (transfer src 0 (ar_count src) (ar_size a) 0 (ar_data a)).

(** Construction from an array of another size (soa_array.hpp:71-88) *)
Definition ar_convert (size : Z) (src : array) : result array :=
  ar_assign (mkArr size 0 (map junk (zrange 0 (members * size)))) src.

Inductive aop := ASet (i : Z) (c : cell) | APush (c : cell) | APop | AClear | ALoad (src : array) (from num offset : Z) | AAssign (src : array).
Definition ar_op (o : aop) (a : array) : result array :=
  match o with
  | ASet i c => ar_set a i c
  | APush c => ar_push a c
  | APop => ar_pop a
  | AClear => ar_clear a
  | ALoad src from num offset => ar_load a src from num offset
  | AAssign src => ar_assign a src
  end.

(** Users who catch exceptions and carry on; which operations have thrown *)
Fixpoint ar_run (os : list aop) (a : array) : option (array * list bool) :=
  match os with
  | [] => Some (a, [])
  | o :: os' =>
      match ar_op o a with
      | Done a' => option_map (fun r => (fst r, false :: snd r)) (ar_run os' a')
      | Thrown => option_map (fun r => (fst r, true :: snd r)) (ar_run os' a)
      | Beyond => None
      end
  end.
End FlatArray.
Arguments cell V : clear implicits. Arguments array V : clear implicits. Arguments aop V : clear implicits.
