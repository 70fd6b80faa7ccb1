(** MPI datatypes of classes. Definitions only.

    Source: communication/typemaps.h and communication/typemaps.cpp below
    /repo/src/libgeodecomp. Classes are laid out in memory according to the
    usual rules (members in order of their declaration, aligned; the size is a
    multiple of the alignment). MPI datatypes are type maps, i.e. lists of
    displacements and basic types, as in the MPI standard. *)
From Verif Require Import Base.

(** Basic types have a size and an alignment (2^e). Classes have members
    (declared type, number of elements) and a list of those which are passed to
    the code generator, in the order of [rawSpecs] in typemaps.cpp. *)
Inductive ctype := Prim (size : Z) (e : nat) | Class (reg : list nat) (ms : list (ctype * nat)).

Definition round_up (x a : Z) : Z := (x + a - 1) / a * a.

(** C++'s layout *)
Fixpoint align_exp (ty : ctype) : nat :=
  match ty with Prim _ e => e | Class _ ms => list_max (map (fun m => match m with (t, _) => align_exp t end) ms) end.

Fixpoint place (pos : Z) (l : list (Z * nat * nat)) : list Z * Z :=
  match l with
  | [] => ([], pos)
  | (size, e, num) :: l' =>
      let off := round_up pos (2 ^ Z.of_nat e) in
      let (offs, last) := place (off + size * Z.of_nat num) l' in (off :: offs, last)
  end.

Fixpoint size_of (ty : ctype) : Z :=
  match ty with
  | Prim size _ => size
  | Class _ ms =>
      let l := map (fun m => match m with (t, num) => (size_of t, align_exp t, num) end) ms in
      round_up (snd (place 0 l)) (2 ^ Z.of_nat (list_max (map (fun m => match m with (t, _) => align_exp t end) ms)))
  end.

Definition member_offsets (ms : list (ctype * nat)) : list Z := fst (place 0 (map (fun m => match m with (t, num) => (size_of t, align_exp t, num) end) ms)).

(** MPI's type maps: (displacement, size, alignment) *)
Notation typemap := (list (Z * Z * nat)).
Definition m_disp (x : Z * Z * nat) : Z := fst (fst x).
Definition m_end (x : Z * Z * nat) : Z := fst (fst x) + snd (fst x).

Definition tm_lb (t : typemap) : Z := match t with [] => 0 | x :: t' => fold_left Z.min (map m_disp t') (m_disp x) end.
Definition tm_ub (t : typemap) : Z := match t with [] => 0 | x :: t' => fold_left Z.max (map m_end t') (m_end x) end.
Definition tm_align (t : typemap) : nat := list_max (map snd t).
Definition tm_extent (t : typemap) : Z := round_up (tm_ub t - tm_lb t) (2 ^ Z.of_nat (tm_align t)).

Definition shift (d : Z) (t : typemap) : typemap := map (fun x => (m_disp x + d, snd (fst x), snd x)) t.

(** MPI_Type_create_struct *)
Definition repeated (d : Z) (num : nat) (t : typemap) : typemap := flat_map (fun i => shift (d + Z.of_nat i * tm_extent t) t) (seq 0 num).
Definition create_struct (specs : list (Z * typemap * nat)) : typemap := flat_map (fun s => repeated (fst (fst s)) (snd s) (snd (fst s))) specs.

(** [std::sort(rawSpecs, rawSpecs + count, addressLower)] (typemaps.cpp:48-51, 66) *)
Fixpoint ins (s : Z * typemap * nat) (l : list (Z * typemap * nat)) : list (Z * typemap * nat) :=
  match l with [] => [s] | x :: l' => if fst (fst x) <? fst (fst s) then x :: ins s l' else s :: l end.
Definition sort_specs (l : list (Z * typemap * nat)) : list (Z * typemap * nat) := fold_right ins [] l.

(** [transform absolute addresses into offsets]: the first member's becomes 0
    (typemaps.cpp:68-81) *)
Definition relative (l : list (Z * typemap * nat)) : list (Z * typemap * nat) :=
  match l with [] => [] | x :: _ => map (fun s => (fst (fst s) - fst (fst x), snd (fst s), snd s)) l end.

(** [generateMap...] (typemaps.cpp:54-89 and the other ones) *)
Definition generate (raw : list (Z * typemap * nat)) : typemap := create_struct (relative (sort_specs raw)).

Section Maps.
Variable base : Z.                       (* the address of [fakeObject] *)

(** [Typemaps::lookup] (typemaps.h:94-100, 139-347) *)
Fixpoint lookup (ty : ctype) : typemap :=
  match ty with
  | Prim size e => [(0, size, e)]
  | Class reg ms =>
      let offs := fst (place 0 (map (fun m => match m with (t, num) => (size_of t, align_exp t, num) end) ms)) in
      let specs := combine (map (Z.add base) offs) (map (fun m => match m with (t, num) => (lookup t, num) end) ms) in
      generate (flat_map (fun k => match nth_error specs k with Some (a, (t, num)) => [(a, t, num)] | None => [] end) reg)
  end.
End Maps.

(** Sending [num] objects from address [a] on one node to address [b] on
    another one: byte by byte, in the order of the type map. *)
Definition bytes_of (t : typemap) : list Z := flat_map (fun x => map (fun i => m_disp x + Z.of_nat i) (seq 0 (Z.to_nat (snd (fst x))))) t.
Definition positions (t : typemap) (num : nat) : list Z := flat_map (fun i => map (Z.add (Z.of_nat i * tm_extent t)) (bytes_of t)) (seq 0 num).
Definition transfer {B} (t : typemap) (num : nat) (src : Z -> B) (a : Z) (dst : Z -> B) (b : Z) : Z -> B :=
  fold_left (fun mem p => fun x => if x =? b + p then src (a + p) else mem x) (positions t num) dst.

(** The library's classes: types and members as in the headers, the order of
    [rawSpecs] as in typemaps.cpp. *)
Definition c_bool := Prim 1 0.           (* typemaps.h:139-142 *)
Definition c_int := Prim 4 2.            (* typemaps.h:159-162 *)
Definition c_unsigned := Prim 4 2.       (* typemaps.h:199-202 *)
Definition c_float := Prim 4 2.          (* typemaps.h:154-157 *)
Definition c_double := Prim 8 3.         (* typemaps.h:149-152 *)
Definition c_size := Prim 8 3.           (* typemaps.h:209-212, typemaps.cpp:984-986 *)

(** geometry/coord.h:318, 601, 912; typemaps.cpp:64, 101, 138 *)
Definition c_coord (dim : nat) := Class [0]%nat [(c_int, dim)].
(** geometry/coordbox.h:31-32; typemaps.cpp:175-176, 213-214, 251-252 *)
Definition c_coord_box (dim : nat) := Class [1; 0]%nat [(c_coord dim, 1%nat); (c_coord dim, 1%nat)].
(** storage/fixedarray.h:188-189; typemaps.cpp:328-329, 366-367 *)
Definition c_fixed_array (size : nat) := Class [1; 0]%nat [(c_double, size); (c_size, 1%nat)].
(** geometry/floatcoord.h:252, 521, 819; typemaps.cpp:404, 441, 478 *)
Definition c_float_coord (dim : nat) := Class [0]%nat [(c_double, dim)].
(** geometry/streak.h:82-83; typemaps.cpp:554-555, 592-593, 630-631 *)
Definition c_streak (dim : nat) := Class [1; 0]%nat [(c_coord dim, 1%nat); (c_int, 1%nat)].
(** misc/testcell.h:152-157; typemaps.cpp:707-712, 749-754, 791-796 *)
Definition c_test_cell (dim : nat) := Class [2; 1; 3; 4; 0; 5]%nat
  [(c_coord dim, 1%nat); (c_coord dim, 1%nat); (c_unsigned, 1%nat); (c_bool, 1%nat); (c_bool, 1%nat); (c_float, 1%nat)].
(** misc/unstructuredtestcell.h:229-233; typemaps.cpp:872-876 *)
Definition c_unstructured_test_cell := Class [1; 4; 0; 3; 2]%nat
  [(c_int, 1%nat); (c_unsigned, 1%nat); (c_bool, 1%nat); (c_bool, 1%nat); (c_fixed_array 100, 1%nat)].
(** misc/chronometer.h:338; typemaps.cpp:950 *)
Definition c_chronometer (intervals : nat) := Class [0]%nat [(c_fixed_array intervals, 1%nat)].
(** CoordBoxMPIDatatypeHelper and the like; typemaps.cpp:289-291, 515-517,
    668-670, 833-835, 913 *)
Definition c_helper (c : nat -> ctype) := Class [0; 1; 2]%nat [(c 1%nat, 1%nat); (c 2%nat, 1%nat); (c 3%nat, 1%nat)].
