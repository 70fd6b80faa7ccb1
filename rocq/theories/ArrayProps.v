(** Properties of ContainerCell and FixedArray. *)
From Coq Require Import Permutation Sorted.
From Verif Require Import Base RegionOpsModel GridModel ArrayModel ArraySpec ArrayFacts.

(** ** C41 *)

(** Whatever is done with a container, it is never accessed beyond its
    bounds, reports success and failure as a map of bounded size does, finds
    what this map holds and lists its contents by ascending key. *)
Theorem C41_container_cell : forall A SIZE (c : ccell A) os, 0 <= SIZE -> cc_new SIZE c ->
  exists c' items, cc_ops SIZE c os = Some (c', snd (map_ops SIZE [] os)) /\
    (forall k, cc_lookup c' k = Some (map_find (fst (map_ops SIZE [] os)) k)) /\
    cc_items c' = Some items /\ Permutation items (fst (map_ops SIZE [] os)) /\ StronglySorted (fun a b => fst a < fst b) items /\
    cc_num c' = Z.of_nat (length items) /\ cc_num c' <= SIZE.
Proof.
  intros A SIZE c os HS Hc. destruct (crep_ops SIZE os HS c [] [] (crep_new SIZE c Hc) (Permutation_refl _)) as (c' & l & E & Hr & Hp).
  exists c', l. split; [exact E|]. split. { intros k. rewrite (crep_lookup SIZE c' l k Hr). f_equal. apply find_perm; [apply Hr|exact Hp]. }
  split; [now apply (crep_items SIZE)|]. split; [exact Hp|]. split; [apply Hr|]. destruct Hr as (_ & Hn & r1 & r2 & Hi & _ & L1 & _). split; [exact Hn|].
  rewrite Hi, app_length, map_length in L1. lia.
Qed.
Print Assumptions C41_container_cell.

(** Failing to insert leaves every bit of the container as it was. *)
Theorem C41_full_container : forall A SIZE (c : ccell A) os k v c' bs, 0 <= SIZE -> cc_new SIZE c ->
  cc_ops SIZE c os = Some (c', bs) -> cc_num c' = SIZE -> cc_lookup c' k = Some None -> cc_insert SIZE c' k (Val v) = Some (Threw c').
Proof.
  intros A SIZE c os k v c' bs HS Hc E Hf Hl. destruct (crep_ops SIZE os HS c [] [] (crep_new SIZE c Hc) (Permutation_refl _)) as (c1 & l & E1 & Hr & _).
  rewrite E1 in E. injection E as <- _. unfold cc_lookup in Hl. destruct (crep_find SIZE c1 l k Hr) as [(a & w & b & _ & Ef & _)|(a & b & _ & _ & Eu & _ & _ & Hk)].
  - rewrite Ef in Hl. cbn in Hl. destruct (vec_get _ _); discriminate.
  - unfold cc_insert. rewrite Eu, Hf, Z.eqb_refl. destruct (Z.ltb_spec 0 (Z.of_nat (length a))) as [H0|]; [|reflexivity]. destruct (Hk H0) as (k' & -> & Hk'). cbn [obind].
    destruct (Z.eqb_spec k' k); [lia|reflexivity].
Qed.
Print Assumptions C41_full_container.

Definition cc_ex : ccell Z := mkCC [77; 77; 77] [88; 88; 88] 0.

Example C41_example : cc_new 3 cc_ex /\
  cc_ops 3 cc_ex [CInsert 5 50; CInsert 2 20; CInsert 5 51; CInsert 3 30; CInsert 9 90; CRemove 2; CRemove 2; CInsert 9 91] =
    Some (mkCC [3; 5; 9] [30; 51; 91] 3, [true; true; true; true; false; true; false; true]) /\
  cc_lookup (mkCC [3; 5; 9] [30; 51; 91] 3) 5 = Some (Some 51) /\ cc_lookup (mkCC [3; 5; 9] [30; 51; 91] 3) 2 = Some None /\
  cc_insert 3 (mkCC [3; 5; 9] [30; 51; 91] 3) 4 (Val 40) = Some (Threw (mkCC [3; 5; 9] [30; 51; 91] 3)).
Proof. repeat split. Qed.

(** ** C80 *)

(** A container may be handed a reference to one of its own cells, e.g.
    [c.insert(1, *c\[5\])]. Cells are moved before the reference is read, so
    a different cell arrives. *)
Theorem C80_insert_own_cell_refuted : exists SIZE (c : ccell Z) os k i v c1 c2 w, cc_new SIZE c /\ cc_ops SIZE c os = Some (c1, map (fun _ => true) os) /\ 0 <= i < cc_num c1 /\
  vec_get (cc_cells c1) i = Some v /\ cc_insert SIZE c1 k (Own i) = Some (Done c2) /\ cc_lookup c2 k = Some (Some w) /\ w <> v.
Proof.
  exists 3, cc_ex, [CInsert 2 20; CInsert 5 50], 1, 1, 50, (mkCC [2; 5; 77] [20; 50; 88] 2), (mkCC [1; 2; 5] [20; 20; 50] 3), 20.
  repeat split; try reflexivity; cbn; lia.
Qed.
Print Assumptions C80_insert_own_cell_refuted.

(** ** C42 *)

(** Whatever is done with an array, it is never accessed beyond its bounds,
    succeeds and fails as a list of bounded length does and holds the same
    elements as this list; an operation which fails changes nothing. *)
Theorem C42_fixed_array : forall A SIZE (a : farray A) l os, holds_list SIZE a l -> seqs_ok SIZE l os ->
  exists a', fa_ops SIZE a os = Some (a', snd (seq_ops SIZE l os)) /\ holds_list SIZE a' (fst (seq_ops SIZE l os)) /\
    fa_items a' = Some (fst (seq_ops SIZE l os)) /\ fa_num a' = Z.of_nat (length (fst (seq_ops SIZE l os))).
Proof.
  intros A SIZE a l os Ha Hok. destruct (holds_ops SIZE os a l Ha Hok) as (a' & E & H). exists a'. split; [exact E|]. split; [exact H|]. split; [now apply (holds_items SIZE)|apply H].
Qed.
Print Assumptions C42_fixed_array.

(** Arrays start out with copies of a value. *)
Theorem C42_make : forall A SIZE mem n (v : A), 0 <= n <= SIZE -> length mem = Z.to_nat SIZE ->
  exists a, fa_make mem n v = Some a /\ holds_list SIZE a (repeat v (Z.to_nat n)).
Proof. intros A. exact holds_make. Qed.
Print Assumptions C42_make.

(** [a + b] is a new array with both contents, or an exception. *)
Theorem C42_plus : forall A SIZE ret (a b : farray A) l m, length ret = Z.to_nat SIZE -> holds_list SIZE a l -> holds_list SIZE b m ->
  (Z.of_nat (length l + length m) <= SIZE -> exists x, fa_plus SIZE ret a b = Some (Done x) /\ holds_list SIZE x (l ++ m)) /\
  (SIZE < Z.of_nat (length l + length m) -> exists x, fa_plus SIZE ret a b = Some (Threw x)).
Proof.
  intros A SIZE ret a b l m HR Ha Hb. destruct (holds_plus SIZE ret a b l m HR Ha Hb) as (r & E & H). rewrite app_length in H.
  split; intros Hs; destruct H as [(Hl & x & -> & Hx)|(Hl & ->)]; try lia; eauto.
Qed.
Print Assumptions C42_plus.

(** [a == b] compares contents. *)
Theorem C42_equality : forall A SIZE (ceq : A -> A -> bool) (a b : farray A) l m, (forall x y, ceq x y = true <-> x = y) -> holds_list SIZE a l -> holds_list SIZE b m ->
  exists v, fa_eqb ceq a b = Some v /\ (v = true <-> l = m).
Proof. intros A SIZE ceq a b l m H. now apply holds_eqb. Qed.
Print Assumptions C42_equality.

Definition fa_ex : farray Z := mkFA [1; 2; 3; 7; 7] 3.

Example C42_example : holds_list 5 fa_ex [1; 2; 3] /\ seqs_ok 5 [1; 2; 3] [FPush 4; FConcat fa_ex; FRemove 1; FConcat (mkFA [8; 9; 0; 0; 0] 2); FPush 6; FResize 4; FResize 6] /\
  fa_ops 5 fa_ex [FPush 4; FConcat fa_ex; FRemove 1; FConcat (mkFA [8; 9; 0; 0; 0] 2); FPush 6; FResize 4; FResize 6] =
    Some (mkFA [1; 3; 4; 8; 9] 4, [true; false; true; true; false; true; false]) /\
  fa_items (mkFA [1; 3; 4; 8; 9] 4) = Some [1; 3; 4; 8] /\ fa_eqb Z.eqb fa_ex (mkFA [1; 2; 3; 0; 0] 3) = Some true /\
  fa_plus 5 [0; 0; 0; 0; 0] (mkFA [1; 2; 0; 0; 0] 2) fa_ex = Some (Done (mkFA [1; 2; 1; 2; 3] 5)).
Proof.
  split; [repeat split; cbn; lia|]. split; [|repeat split]. cbn [seqs_ok seq_ok]. split; [exact I|]. split; [exists [1; 2; 3]; repeat split; cbn; lia|].
  split; [vm_compute; intuition congruence|]. split; [exists [8; 9]; repeat split; cbn; lia|]. split; [exact I|]. split; [vm_compute; intuition congruence|]. split; [vm_compute; intuition congruence|exact I].
Qed.

(** ** C79 *)

(** [a += a]: the loop tests against the size which it is changing, so it
    runs until the array is full and throws, although there was room. *)
Theorem C79_self_concat_refuted : exists SIZE (a a' : farray Z) l, holds_list SIZE a l /\ Z.of_nat (length (l ++ l)) <= SIZE /\
  fa_plus_assign SIZE a None = Some (Threw a') /\ holds_list SIZE a' (l ++ l ++ l) /\ l <> [].
Proof.
  exists 3, (mkFA [1; 7; 7] 1), (mkFA [1; 1; 1] 3), [1]. repeat split; try reflexivity; try (cbn; lia). discriminate.
Qed.
Print Assumptions C79_self_concat_refuted.

(** It does so for every array which isn't empty. *)
Theorem C79_self_concat_throws : forall A SIZE (a : farray A) l, holds_list SIZE a l -> l <> [] ->
  exists a', fa_plus_assign SIZE a None = Some (Threw a').
Proof.
  intros A SIZE a l Ha Hne. assert (Hn : fa_num a = Z.of_nat (length l)) by apply Ha. assert (Hsz : fa_num a <= SIZE) by apply Ha.
  unfold fa_plus_assign. destruct (SIZE <? fa_num a + fa_num a); [eauto|].
  assert (G : forall f (x : farray A) m i, holds_list SIZE x m -> 0 <= i < Z.of_nat (length m) -> SIZE + 1 - Z.of_nat (length m) <= Z.of_nat f -> exists a', fa_append_self SIZE x i f = Some (Threw a')).
  { induction f as [|f IH]; intros x m i Hx Hi Hf.
    - destruct Hx as (Hxn & Hxs & _). lia.
    - cbn [fa_append_self]. assert (Hxn : fa_num x = Z.of_nat (length m)) by apply Hx. destruct (Z.ltb_spec i (fa_num x)); [|lia].
      destruct (nth_split' m i Hi) as (p & y & b & Em & Hp). apply holds_split in Hx as Hx'. destruct Hx' as (r & Ex & _).
      unfold fa_get. rewrite Ex, Em, <- app_assoc. cbn [app]. rewrite (vec_get_mid p y) by exact Hp. cbn [obind].
      destruct (holds_push SIZE x m y Hx) as (r1 & -> & [(_ & x1 & -> & H1)|(_ & ->)]); cbn [obind]; [|eauto].
      apply (IH x1 (m ++ [y]) (i + 1) H1); rewrite app_length; cbn [length]; lia. }
  apply (G _ a l 0 Ha); [|lia]. destruct l; [congruence|cbn; lia].
Qed.
Print Assumptions C79_self_concat_throws.
