(** Containers of bounded size: ContainerCell and FixedArray. Definitions only.

    Sources: storage/containercell.h, storage/fixedarray.h, both below
    /repo/src/libgeodecomp. Sizes are unbounded integers, keys are integers.
    [None] is undefined behaviour (access outside of an array), an exception
    is the outcome [Threw] together with the state it leaves behind. *)
From Verif Require Import Base RegionModel RegionOpsModel GridModel.

Inductive result (S : Type) := Done (s : S) | Threw (s : S).
Arguments Done {S} s. Arguments Threw {S} s.

Definition result_state {S} (r : result S) : S := match r with Done s => s | Threw s => s end.

(** [for (i = i0; n times; --i) a[i] = a[i - 1]] *)
Fixpoint shift_up {A} (l : list A) (i : Z) (n : nat) : option (list A) :=
  match n with
  | O => Some l
  | S n' => obind (vec_get l (i - 1)) (fun v => obind (vec_set l i v) (fun l' => shift_up l' (i - 1) n'))
  end.

(** [for (i = i0; n times; ++i) a[i] = a[i + 1]] *)
Fixpoint shift_down {A} (l : list A) (i : Z) (n : nat) : option (list A) :=
  match n with
  | O => Some l
  | S n' => obind (vec_get l (i + 1)) (fun v => obind (vec_set l i v) (fun l' => shift_down l' (i + 1) n'))
  end.

(** ** ContainerCell *)

(** Members (containercell.h:208-210). *)
Record ccell (A : Type) := mkCC { cc_ids : list Z; cc_cells : list A; cc_num : Z }.
Arguments mkCC {A} cc_ids cc_cells cc_num. Arguments cc_ids {A} c. Arguments cc_cells {A} c. Arguments cc_num {A} c.

(** A cell handed over by reference: it may be one of the container's own. *)
Inductive cref (A : Type) := Val (v : A) | Own (i : Z).
Arguments Val {A} v. Arguments Own {A} i.

Definition deref {A} (cells : list A) (r : cref A) : option A :=
  match r with Val v => Some v | Own i => vec_get cells i end.

Section Container.
Context {A : Type} (SIZE : Z).

(** [std::upper_bound(ids, ids + numElements, id) - ids]; on sorted IDs this
    is the number of leading IDs not exceeding [id]. *)
Definition cc_upper (c : ccell A) (id : Z) : Z :=
  Z.of_nat (count_while (fun k => k <=? id) (firstn (Z.to_nat (cc_num c)) (cc_ids c))).

(** [insert] (containercell.h:62-89). The loop at lines 81-84 moves both
    arrays at once, here one after the other. *)
Definition cc_insert (c : ccell A) (id : Z) (cell : cref A) : option (result (ccell A)) :=
  let offset := cc_upper c id in
  let fresh :=
    if cc_num c =? SIZE then Some (Threw c)
    else if offset =? cc_num c then
      obind (deref (cc_cells c) cell) (fun v =>
      obind (vec_set (cc_cells c) (cc_num c) v) (fun cells =>
      obind (vec_set (cc_ids c) (cc_num c) id) (fun ids => Some (Done (mkCC ids cells (cc_num c + 1))))))
    else
      obind (shift_up (cc_cells c) (cc_num c) (Z.to_nat (cc_num c - offset))) (fun cells =>
      obind (shift_up (cc_ids c) (cc_num c) (Z.to_nat (cc_num c - offset))) (fun ids =>
      obind (deref cells cell) (fun v =>
      obind (vec_set cells offset v) (fun cells' =>
      obind (vec_set ids offset id) (fun ids' => Some (Done (mkCC ids' cells' (cc_num c + 1)))))))) in
  if 0 <? offset then
    obind (vec_get (cc_ids c) (offset - 1)) (fun k =>
    if k =? id then
      obind (deref (cc_cells c) cell) (fun v => option_map (fun cells => Done (mkCC (cc_ids c) cells (cc_num c))) (vec_set (cc_cells c) (offset - 1) v))
    else fresh)
  else fresh.

(** [operator[]] (containercell.h:107-122): the position of the cell, if any. *)
Definition cc_find (c : ccell A) (id : Z) : option (option Z) :=
  let offset := cc_upper c id in
  if offset =? 0 then Some None
  else obind (vec_get (cc_ids c) (offset - 1)) (fun k => if k =? id then Some (Some (offset - 1)) else Some None).

(** The cell found. *)
Definition cc_lookup (c : ccell A) (id : Z) : option (option A) :=
  obind (cc_find c id) (fun p => match p with None => Some None | Some i => option_map Some (vec_get (cc_cells c) i) end).

(** [remove] (containercell.h:91-105) *)
Definition cc_remove (c : ccell A) (id : Z) : option (ccell A * bool) :=
  obind (cc_find c id) (fun p =>
  match p with
  | None => Some (c, false)
  | Some o =>
      obind (shift_down (cc_cells c) o (Z.to_nat (cc_num c - 1 - o))) (fun cells =>
      obind (shift_down (cc_ids c) o (Z.to_nat (cc_num c - 1 - o))) (fun ids => Some (mkCC ids cells (cc_num c - 1), true)))
  end).

(** [clear] (containercell.h:129-132) *)
Definition cc_clear (c : ccell A) : ccell A := mkCC (cc_ids c) (cc_cells c) 0.

(** The cells between begin() and end() (containercell.h:134-152), with the
    IDs at the same positions (getIDs(), 201-204). *)
Definition cc_items (c : ccell A) : option (list (Z * A)) :=
  obind (vec_read (cc_ids c) 0 (Z.to_nat (cc_num c))) (fun ids => option_map (combine ids) (vec_read (cc_cells c) 0 (Z.to_nat (cc_num c)))).

(** A container after construction (containercell.h:58-60), with arbitrary
    contents of the arrays. *)
Definition cc_new (c : ccell A) : Prop := length (cc_ids c) = Z.to_nat SIZE /\ length (cc_cells c) = Z.to_nat SIZE /\ cc_num c = 0.
End Container.

(** Operations and what they report. *)
Inductive ccop (A : Type) := CInsert (id : Z) (v : A) | CRemove (id : Z) | CClear.
Arguments CInsert {A} id v. Arguments CRemove {A} id. Arguments CClear {A}.

Definition cc_op {A} (SIZE : Z) (c : ccell A) (o : ccop A) : option (ccell A * bool) :=
  match o with
  | CInsert id v => option_map (fun r => match r with Done s => (s, true) | Threw s => (s, false) end) (cc_insert SIZE c id (Val v))
  | CRemove id => cc_remove c id
  | CClear => Some (cc_clear c, true)
  end.

Fixpoint cc_ops {A} (SIZE : Z) (c : ccell A) (l : list (ccop A)) : option (ccell A * list bool) :=
  match l with
  | [] => Some (c, [])
  | o :: l' => obind (cc_op SIZE c o) (fun '(c', b) => option_map (fun '(d, bs) => (d, b :: bs)) (cc_ops SIZE c' l'))
  end.

(** ** FixedArray *)

(** Members (fixedarray.h:188-189). *)
Record farray (A : Type) := mkFA { fa_store : list A; fa_num : Z }.
Arguments mkFA {A} fa_store fa_num. Arguments fa_store {A} f. Arguments fa_num {A} f.

Section Fixed.
Context {A : Type} (SIZE : Z).

(** [operator[]] (fixedarray.h:42-50) *)
Definition fa_get (a : farray A) (i : Z) : option A := vec_get (fa_store a) i.

(** [push_back] (fixedarray.h:77-83) *)
Definition fa_push (a : farray A) (v : A) : option (result (farray A)) :=
  if SIZE <=? fa_num a then Some (Threw a)
  else option_map (fun s => Done (mkFA s (fa_num a + 1))) (vec_set (fa_store a) (fa_num a) v).

(** [for (i = 0; i < b.elements; ++i) a << b[i]] for different arrays
    (fixedarray.h:99-105, 116-118). *)
Fixpoint fa_append (a b : farray A) (i : Z) (n : nat) : option (result (farray A)) :=
  match n with
  | O => Some (Done a)
  | S n' =>
      obind (fa_get b i) (fun v => obind (fa_push a v) (fun r =>
      match r with Threw a' => Some (Threw a') | Done a' => fa_append a' b (i + 1) n' end))
  end.

(** The same loop for a single array: its size is looked up anew before each
    pass. *)
Fixpoint fa_append_self (a : farray A) (i : Z) (fuel : nat) : option (result (farray A)) :=
  if i <? fa_num a then
    match fuel with
    | O => None
    | S f =>
        obind (fa_get a i) (fun v => obind (fa_push a v) (fun r =>
        match r with Threw a' => Some (Threw a') | Done a' => fa_append_self a' (i + 1) f end))
    end
  else Some (Done a).

(** [operator+=] (fixedarray.h:110-121); [None] for [b] means [*this]. *)
Definition fa_plus_assign (a : farray A) (b : option (farray A)) : option (result (farray A)) :=
  let n := match b with Some b' => fa_num b' | None => fa_num a end in
  if SIZE <? fa_num a + n then Some (Threw a)
  else match b with
       | Some b' => fa_append a b' 0 (Z.to_nat (fa_num b'))
       | None => fa_append_self a 0 (Z.to_nat (SIZE + 1))
       end.

(** [operator+] (fixedarray.h:91-108); [ret] is the new array, whose contents
    aren't initialized. *)
Definition fa_plus (ret : list A) (a b : farray A) : option (result (farray A)) :=
  if SIZE <? fa_num a + fa_num b then Some (Threw a)
  else obind (fa_append (mkFA ret 0) a 0 (Z.to_nat (fa_num a))) (fun r =>
       match r with Threw x => Some (Threw x) | Done x => fa_append x b 0 (Z.to_nat (fa_num b)) end).

(** [remove], [erase] (fixedarray.h:149-165) by index; the loop ends at the
    last element. *)
Definition fa_remove (a : farray A) (i : Z) : option (farray A) :=
  if (i <? 0) || (fa_num a <=? i) then None
  else option_map (fun s => mkFA s (fa_num a - 1)) (shift_down (fa_store a) i (Z.to_nat (fa_num a - 1 - i))).

(** [clear] (fixedarray.h:144-147), [resize] (176-180). A negative number
    would become a huge one, here it stays negative. *)
Definition fa_clear (a : farray A) : farray A := mkFA (fa_store a) 0.

Definition fa_resize (a : farray A) (n : Z) : result (farray A) :=
  if SIZE <? n then Threw a else Done (mkFA (fa_store a) n).

(** The elements between begin() and end() (fixedarray.h:52-70). *)
Definition fa_items (a : farray A) : option (list A) := vec_read (fa_store a) 0 (Z.to_nat (fa_num a)).

(** [operator==] (fixedarray.h:123-137) *)
Fixpoint fa_agree (ceq : A -> A -> bool) (a b : farray A) (i : Z) (n : nat) : option bool :=
  match n with
  | O => Some true
  | S n' => obind (fa_get a i) (fun x => obind (fa_get b i) (fun y => if ceq x y then fa_agree ceq a b (i + 1) n' else Some false))
  end.

Definition fa_eqb (ceq : A -> A -> bool) (a b : farray A) : option bool :=
  if fa_num a =? fa_num b then fa_agree ceq a b 0 (Z.to_nat (fa_num a)) else Some false.

(** The constructor (fixedarray.h:36-40): fills uninitialized memory. *)
Fixpoint fa_fill (s : list A) (i : Z) (n : nat) (v : A) : option (list A) :=
  match n with O => Some s | S n' => obind (vec_set s i v) (fun s' => fa_fill s' (i + 1) n' v) end.

Definition fa_make (mem : list A) (n : Z) (v : A) : option (farray A) := option_map (fun s => mkFA s n) (fa_fill mem 0 (Z.to_nat n) v).
End Fixed.

(** Operations and whether they succeed. *)
Inductive faop (A : Type) := FPush (v : A) | FConcat (b : farray A) | FRemove (i : Z) | FClear | FResize (n : Z).
Arguments FPush {A} v. Arguments FConcat {A} b. Arguments FRemove {A} i. Arguments FClear {A}. Arguments FResize {A} n.

Definition fa_op {A} (SIZE : Z) (a : farray A) (o : faop A) : option (result (farray A)) :=
  match o with
  | FPush v => fa_push SIZE a v
  | FConcat b => fa_plus_assign SIZE a (Some b)
  | FRemove i => option_map Done (fa_remove a i)
  | FClear => Some (Done (fa_clear a))
  | FResize n => Some (fa_resize SIZE a n)
  end.

Fixpoint fa_ops {A} (SIZE : Z) (a : farray A) (l : list (faop A)) : option (farray A * list bool) :=
  match l with
  | [] => Some (a, [])
  | o :: l' => obind (fa_op SIZE a o) (fun r =>
      option_map (fun '(d, bs) => (d, (match r with Done _ => true | Threw _ => false end) :: bs)) (fa_ops SIZE (result_state r) l'))
  end.
