(** MPI datatypes describe the classes they are made for. *)
From Coq Require Import Permutation.
From Verif Require Import Base TypemapModel TypemapSpec TypemapFacts.

(** C221: if all members are registered, then sending arrays of objects by
    means of the generated datatype copies all members of all objects, and
    leaves everything else alone. MPI advances by the size of the class from
    one object to the next. *)
Theorem C221_datatype : forall base ty, registered ty -> transfers base ty /\ tm_extent (lookup base ty) = size_of ty.
Proof.
  intros base ty Hr. pose proof (registered_good base ty Hr) as G. split; [|apply G]. intros B num src dst a b dst'. split.
  - intros i o Hi Ho. unfold dst'. rewrite (proj1 (transfer_at _ _ _ _ _ _ _)); [f_equal; lia|]. apply (in_positions base ty num _ G). exists i, o. repeat split; auto. lia.
  - intros x Hx. unfold dst'. apply (proj2 (transfer_at _ _ _ _ _ _ _)). intros Hi. apply (in_positions base ty num _ G) in Hi. destruct Hi as (i & o & Hi & Ho & E). apply (Hx i o Hi Ho). lia.
Qed.
Print Assumptions C221_datatype.

(** C222: the library's own classes are such classes. *)
Theorem C222_library : forall base dim intervals, (0 < dim)%nat -> (0 < intervals)%nat ->
  Forall (transfers base) [c_coord dim; c_coord_box dim; c_fixed_array intervals; c_float_coord dim; c_streak dim; c_test_cell dim; c_unstructured_test_cell; c_chronometer intervals;
    c_helper c_coord_box; c_helper c_float_coord; c_helper c_streak; c_helper c_test_cell].
Proof.
  intros base dim intervals Hd Hi.
  assert (P1 : forall n, (0 < n)%nat -> registered (c_coord n)).
  { intros n Hn. constructor; [discriminate|apply Permutation_refl|]. repeat constructor; cbn; try lia. now exists 1. }
  assert (P2 : forall n, (0 < n)%nat -> registered (c_float_coord n)).
  { intros n Hn. constructor; [discriminate|apply Permutation_refl|]. repeat constructor; cbn; try lia. now exists 1. }
  assert (P3 : forall n, (0 < n)%nat -> registered (c_fixed_array n)).
  { intros n Hn. constructor; [discriminate|apply perm_swap|]. repeat constructor; cbn; try lia; now exists 1. }
  assert (P4 : forall n, (0 < n)%nat -> registered (c_coord_box n)).
  { intros n Hn. constructor; [discriminate|apply perm_swap|]. repeat (constructor; [split; [now apply P1|cbn; lia]|]). constructor. }
  assert (P5 : forall n, (0 < n)%nat -> registered (c_streak n)).
  { intros n Hn. constructor; [discriminate|apply perm_swap|]. constructor; [split; [now apply P1|cbn; lia]|]. repeat constructor; cbn; try lia. now exists 1. }
  assert (P6 : forall n, (0 < n)%nat -> registered (c_test_cell n)).
  { intros n Hn. constructor; [discriminate| |].
    - apply NoDup_Permutation_bis; [repeat constructor; cbn; lia|cbn; lia|]. intros k Hk. cbn in *. lia.
    - do 2 (constructor; [split; [now apply P1|cbn; lia]|]). repeat constructor; cbn; try lia; now exists 1. }
  assert (P7 : registered c_unstructured_test_cell).
  { constructor; [discriminate| |].
    - apply NoDup_Permutation_bis; [repeat constructor; cbn; lia|cbn; lia|]. intros k Hk. cbn in *. lia.
    - do 4 (constructor; [split; [constructor; [lia|now exists 1]|cbn; lia]|]). constructor; [split; [apply P3; lia|cbn; lia]|constructor]. }
  assert (P8 : registered (c_chronometer intervals)).
  { constructor; [discriminate|apply Permutation_refl|]. constructor; [split; [now apply P3|cbn; lia]|constructor]. }
  assert (P9 : forall c, (forall n, (0 < n)%nat -> registered (c n)) -> registered (c_helper c)).
  { intros c Hc. constructor; [discriminate|apply Permutation_refl|]. repeat (constructor; [split; [apply Hc; lia|cbn; lia]|]). constructor. }
  repeat (constructor; [apply C221_datatype; auto|]). constructor.
Qed.
Print Assumptions C222_library.

(** C223 is false: a class with virtual functions starts with a pointer to a
    table, which isn't a member. The displacements are relative to the first
    member instead of the object, hence that pointer is overwritten, and the
    last member (here: the only one) isn't copied. *)
Theorem C223_virtual_refuted : exists ms off (src dst : Z -> Z),
  nth_error ms 1 = Some (c_int, 1%nat) /\ nth_error (member_offsets ms) 1 = Some off /\
  let dst' := transfer (lookup 0 (Class [1%nat] ms)) 1 src 0 dst 0 in
  dst' off <> src off /\ dst' 0 <> dst 0.
Proof. exists [(c_size, 1%nat); (c_int, 1%nat)], 8, (fun x => 100 + x), (fun x => x). repeat split; vm_compute; discriminate. Qed.
Print Assumptions C223_virtual_refuted.

(** C223 is false: if the last member isn't registered, then MPI doesn't know
    the size of the class, and arrays aren't copied properly. *)
Theorem C223_unregistered_refuted : exists ms (src dst : Z -> Z), member_offsets ms = [0; 8] /\ size_of (Class [0%nat] ms) = 16 /\
  let dst' := transfer (lookup 0 (Class [0%nat] ms)) 2 src 0 dst 0 in
  dst' 16 <> src 16 /\ dst' 8 <> dst 8.
Proof. exists [(c_double, 1%nat); (c_double, 1%nat)], (fun x => 100 + x), (fun x => x). repeat split; vm_compute; discriminate. Qed.
Print Assumptions C223_unregistered_refuted.

(** ** Examples
    TestCell<1> has two bytes of padding, a class which ends with a bool has
    some at its end. *)
Example C221_ex_layout : size_of (c_test_cell 1) = 20 /\ map m_disp (lookup 4096 (c_test_cell 1)) = [0; 4; 8; 12; 13; 16] /\
  size_of (Class [1; 0]%nat [(c_double, 1%nat); (c_bool, 1%nat)]) = 16 /\ tm_extent (lookup 4096 (Class [1; 0]%nat [(c_double, 1%nat); (c_bool, 1%nat)])) = 16.
Proof. vm_compute. repeat split. Qed.

Example C221_ex_transfer : map (transfer (lookup 4096 (c_streak 1)) 2 (fun x => 100 + x) 0 (fun x => x) 50) [49; 50; 57; 58; 65; 66] = [49; 100; 107; 108; 115; 66].
Proof. vm_compute. reflexivity. Qed.

Example C221_ex_registered : registered (Class [1; 0]%nat [(c_double, 1%nat); (c_bool, 3%nat)]).
Proof. constructor; [discriminate|apply perm_swap|]. repeat constructor; cbn; try lia; now exists 1. Qed.
