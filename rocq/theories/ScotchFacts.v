(** Facts on the graphs and regions of the SCOTCH partitions. *)
From Verif Require Import Base RegionSpec RegionModel RegionRep RegionIterModel RegionStreaks CoordModel CoordSpec RegionOpsModel RegionOps CoordFacts
  RegionHistory RegionHist RegionReach PartitionSpec PartitionFacts StripingFacts RegionObjModel PatchModel GridModel GridFacts UpdateModel AdjacencyModel ScotchModel ScotchSpec.
From Coq Require Import Lia ZifyBool ZifyNat.

(** ** Compressed rows *)

Lemma csr_spec edges : forall n i index vt et, csr_loop edges n i index = (vt, et) ->
  length vt = S n /\ nth 0 vt 0 = index /\ nth n vt 0 = index + Z.of_nat (length et) /\
  et = flat_map (fun k => edges (i + Z.of_nat k)) (seq 0 n) /\
  forall k, (k < n)%nat ->
    index <= nth k vt 0 /\ nth (S k) vt 0 = nth k vt 0 + Z.of_nat (length (edges (i + Z.of_nat k))) /\ nth (S k) vt 0 <= index + Z.of_nat (length et) /\
    firstn (length (edges (i + Z.of_nat k))) (skipn (Z.to_nat (nth k vt 0 - index)) et) = edges (i + Z.of_nat k).
Proof.
  induction n as [|n IH]; intros i index vt et H; cbn [csr_loop] in H.
  - injection H as <- <-. cbn. repeat split; lia.
  - destruct (csr_loop edges n (i + 1) (index + Z.of_nat (length (edges i)))) as [vt' et'] eqn:E. injection H as <- <-.
    destruct (IH _ _ _ _ E) as (L & V0 & Vn & Et & K). clear IH E. repeat split.
    + cbn [length]. lia.
    + cbn [nth]. rewrite Vn, app_length. lia.
    + cbn [seq flat_map]. replace (i + Z.of_nat 0) with i by lia. f_equal. rewrite Et, <- seq_shift, flat_map_concat_map, flat_map_concat_map, map_map. f_equal. apply map_ext. intros a. f_equal. lia.
    + destruct k as [|k]; cbn [nth]; [lia|]. destruct (K k ltac:(lia)) as (K1 & _). lia.
    + destruct k as [|k]; cbn [nth]; [replace (i + Z.of_nat 0) with i by lia; exact V0|]. destruct (K k ltac:(lia)) as (_ & K2 & _). replace (i + Z.of_nat (S k)) with (i + 1 + Z.of_nat k) by lia. exact K2.
    + cbn [nth]. rewrite app_length. destruct k as [|k]; [rewrite V0; lia|]. destruct (K k ltac:(lia)) as (_ & _ & K3 & _). lia.
    + destruct k as [|k]; cbn [nth].
      * replace (i + Z.of_nat 0) with i by lia. rewrite Z.sub_diag. cbn [Z.to_nat skipn]. rewrite firstn_app, Nat.sub_diag, firstn_all, firstn_O, app_nil_r. reflexivity.
      * destruct (K k ltac:(lia)) as (K1 & _ & _ & K4). replace (i + Z.of_nat (S k)) with (i + 1 + Z.of_nat k) by lia. rewrite skipn_app.
        rewrite skipn_all2 by lia. cbn [app]. rewrite <- K4 at 2. f_equal. f_equal. lia.
Qed.

Lemma csr_describes edges E (n : nat) : (forall i, 0 <= i < Z.of_nat n -> NoDup (edges i) /\ forall j, In j (edges i) <-> E i j) ->
  forall vt et, csr_loop edges n 0 0 = (vt, et) -> describes (mkGraph vt et (Z.of_nat (length et))) (Z.of_nat n) E.
Proof.
  intros He vt et H. destruct (csr_spec edges n 0 0 vt et H) as (L & V0 & Vn & Et & K). unfold describes. cbn [gr_vert gr_num gr_edge]. repeat apply conj.
  - lia.
  - exact V0.
  - rewrite Nat2Z.id, Vn. lia.
  - reflexivity.
  - intros i Hi. destruct (K (Z.to_nat i) ltac:(lia)) as (K1 & K2 & K3 & K4). replace (Z.to_nat (i + 1)) with (S (Z.to_nat i)) by lia.
    replace (0 + Z.of_nat (Z.to_nat i)) with i in * by lia. rewrite Z.sub_0_r in K4.
    assert (S : slice et (nth (Z.to_nat i) vt 0) (nth (S (Z.to_nat i)) vt 0) = edges i). { unfold slice. etransitivity; [|exact K4]. f_equal. lia. }
    rewrite S. split; [lia|]. split; [lia|]. apply He. lia.
Qed.

(** ** Counting edges *)

Fixpoint count (p : Z -> bool) (n : nat) : Z := match n with O => 0 | S n' => count p n' + if p (Z.of_nat n') then 1 else 0 end.

Lemma count_ext p q n : (forall j, 0 <= j < Z.of_nat n -> p j = q j) -> count p n = count q n.
Proof. induction n as [|n IH]; intros H; cbn [count]; [reflexivity|]. rewrite IH by (intros; apply H; lia). now rewrite H by lia. Qed.

Lemma count_add p a b : count p (a + b) = count p a + count (fun j => p (Z.of_nat a + j)) b.
Proof. induction b as [|b IH]; [rewrite Nat.add_0_r; cbn; lia|]. rewrite Nat.add_succ_r. cbn [count]. rewrite IH, Nat2Z.inj_add. lia. Qed.

Lemma count_lt a n : 0 <= a -> count (fun j => j <? a) n = Z.min (Z.of_nat n) a.
Proof. intros Ha. induction n as [|n IH]; cbn [count]; [lia|]. rewrite IH. destruct (Z.ltb_spec (Z.of_nat n) a); lia. Qed.

Lemma count_ge a n : 0 <= a -> count (fun j => a <=? j) n = Z.of_nat n - Z.min (Z.of_nat n) a.
Proof. intros Ha. induction n as [|n IH]; cbn [count]; [lia|]. rewrite IH. destruct (Z.leb_spec a (Z.of_nat n)); lia. Qed.

Lemma count_mod p m q : (0 < m)%nat -> count (fun j => p (j mod Z.of_nat m)) (q * m) = Z.of_nat q * count p m.
Proof.
  intros Hm. induction q as [|q IH]; [reflexivity|]. cbn [Nat.mul]. rewrite Nat.add_comm, count_add, IH.
  rewrite (count_ext (fun j => p ((Z.of_nat (q * m) + j) mod Z.of_nat m)) p m). 2: { intros j Hj. f_equal. rewrite Nat2Z.inj_mul, Z.add_comm, Z.mod_add by lia. now apply Z.mod_small. }
  lia.
Qed.

Lemma count_mod_Z p m n q : 0 < m -> n = q * m -> 0 <= q -> count (fun j => p (j mod m)) (Z.to_nat n) = q * count p (Z.to_nat m).
Proof.
  intros Hm -> Hq. pose proof (count_mod p (Z.to_nat m) (Z.to_nat q) ltac:(lia)) as H. rewrite !Z2Nat.id in H by lia. rewrite <- H. f_equal. rewrite Z2Nat.inj_mul by lia. reflexivity.
Qed.

Definition len_if (b : bool) : Z := if b then 1 else 0.

Lemma edges_length dims i : Z.of_nat (length (edges_of dims i)) =
  len_if (1 <=? i mod axis 0 dims) * 0 + len_if (negb (i mod axis 0 dims =? 0)) + len_if (negb (i mod axis 0 dims =? axis 0 dims - 1)) +
  len_if (negb (i mod (axis 0 dims * axis 1 dims) <? axis 0 dims)) + len_if (negb (axis 0 dims * (axis 1 dims - 1) <=? i mod (axis 0 dims * axis 1 dims))) +
  len_if ((length dims =? 3)%nat && (axis 0 dims * axis 1 dims <=? i)) + len_if ((length dims =? 3)%nat && (i <? axis 0 dims * axis 1 dims * (axis 2 dims - 1))).
Proof.
  unfold edges_of, len_if. rewrite !app_length, !Nat2Z.inj_add.
  destruct (i mod axis 0 dims =? 0), (i mod axis 0 dims =? axis 0 dims - 1), (i mod (axis 0 dims * axis 1 dims) <? axis 0 dims),
    (axis 0 dims * (axis 1 dims - 1) <=? i mod (axis 0 dims * axis 1 dims)), ((length dims =? 3)%nat && (axis 0 dims * axis 1 dims <=? i)),
    ((length dims =? 3)%nat && (i <? axis 0 dims * axis 1 dims * (axis 2 dims - 1))); cbn [negb length]; lia.
Qed.

Lemma flat_length dims n : Z.of_nat (length (flat_map (fun k => edges_of dims (0 + Z.of_nat k)) (seq 0 n))) =
  let X := axis 0 dims in let Y := axis 1 dims in let Z_ := axis 2 dims in let three := (length dims =? 3)%nat in
  count (fun i => negb (i mod X =? 0)) n + count (fun i => negb (i mod X =? X - 1)) n +
  count (fun i => negb (i mod (X * Y) <? X)) n + count (fun i => negb (X * (Y - 1) <=? i mod (X * Y))) n +
  count (fun i => three && (X * Y <=? i)) n + count (fun i => three && (i <? X * Y * (Z_ - 1))) n.
Proof.
  cbn [Z.add]. cbv zeta. induction n as [|n IH]; [reflexivity|]. rewrite seq_S, flat_map_app, app_length, Nat2Z.inj_add, IH. cbn [Nat.add flat_map]. rewrite app_nil_r, edges_length. unfold len_if. cbn [count]. lia.
Qed.

Lemma count_false n : count (fun _ => false) n = 0.
Proof. induction n; cbn [count]; lia. Qed.

(** ** Grids of two dimensions are grids of three dimensions *)

Definition edges3 (X Y W i : Z) : list Z :=
  (if i mod X =? 0 then [] else [i - 1]) ++
  (if i mod X =? X - 1 then [] else [i + 1]) ++
  (if i mod (X * Y) <? X then [] else [i - X]) ++
  (if X * (Y - 1) <=? i mod (X * Y) then [] else [i + X]) ++
  (if X * Y <=? i then [i - X * Y] else []) ++
  (if i <? X * Y * (W - 1) then [i + X * Y] else []).

Lemma edges_3d X Y W i : edges_of [W; Y; X] i = edges3 X Y W i.
Proof. reflexivity. Qed.

Lemma edges_2d X Y i : 0 <= i < Y * X -> edges_of [Y; X] i = edges3 X Y 1 i.
Proof.
  intros Hi. unfold edges_of, edges3. cbn [axis rev nth app length Nat.eqb andb].
  replace (X * Y <=? i) with false by (symmetry; apply Z.leb_gt; lia). replace (i <? X * Y * (1 - 1)) with false by (symmetry; apply Z.ltb_ge; lia). reflexivity.
Qed.

(** Decomposition of a cell's number *)
Lemma split_no X Y i : 0 < X -> 0 < Y -> exists z y x, i = (z * Y + y) * X + x /\ 0 <= x < X /\ 0 <= y < Y.
Proof.
  intros HX HY. exists (i / X / Y), ((i / X) mod Y), (i mod X). pose proof (Z.div_mod i X ltac:(lia)) as H1. pose proof (Z.div_mod (i / X) Y ltac:(lia)) as H2.
  pose proof (Z.mod_pos_bound i X HX). pose proof (Z.mod_pos_bound (i / X) Y HY). split; [|lia]. nia.
Qed.

Lemma no_mod_x X Y z y x : 0 <= x < X -> ((z * Y + y) * X + x) mod X = x.
Proof. intros H. rewrite Z.add_comm, Z.mod_add by lia. now apply Z.mod_small. Qed.

Lemma row_bound X Y y x : 0 <= x < X -> 0 <= y < Y -> 0 <= y * X + x < X * Y.
Proof. nia. Qed.

Lemma no_mod_xy X Y z y x : 0 <= x < X -> 0 <= y < Y -> ((z * Y + y) * X + x) mod (X * Y) = y * X + x.
Proof.
  intros Hx Hy. replace ((z * Y + y) * X + x) with (y * X + x + z * (X * Y)) by ring. pose proof (row_bound X Y y x Hx Hy). rewrite Z.mod_add by lia. now apply Z.mod_small.
Qed.

Lemma no_div_x X Y z y x : 0 <= x < X -> ((z * Y + y) * X + x) / X = z * Y + y.
Proof. intros H. rewrite Z.add_comm, Z.div_add, Z.div_small by lia. lia. Qed.

Lemma no_div_xy X Y z y x : 0 <= x < X -> 0 <= y < Y -> ((z * Y + y) * X + x) / (X * Y) = z.
Proof.
  intros Hx Hy. replace ((z * Y + y) * X + x) with (y * X + x + z * (X * Y)) by ring. pose proof (row_bound X Y y x Hx Hy). rewrite Z.div_add, Z.div_small by lia. lia.
Qed.

Lemma edges3_no X Y W z y x : 0 <= x < X -> 0 <= y < Y -> 0 <= z < W ->
  let i := (z * Y + y) * X + x in
  edges3 X Y W i =
  (if x =? 0 then [] else [i - 1]) ++ (if x =? X - 1 then [] else [i + 1]) ++
  (if y =? 0 then [] else [i - X]) ++ (if y =? Y - 1 then [] else [i + X]) ++
  (if z =? 0 then [] else [i - X * Y]) ++ (if z =? W - 1 then [] else [i + X * Y]).
Proof.
  intros Hx Hy Hz i. unfold edges3. unfold i at 1 3 5 7. rewrite !no_mod_x, !no_mod_xy by assumption. pose proof (row_bound X Y y x Hx Hy) as Hr.
  assert (E1 : (y * X + x <? X) = (y =? 0)) by (destruct (Z.ltb_spec (y * X + x) X), (Z.eqb_spec y 0); try reflexivity; nia).
  assert (E2 : (X * (Y - 1) <=? y * X + x) = (y =? Y - 1)) by (destruct (Z.leb_spec (X * (Y - 1)) (y * X + x)), (Z.eqb_spec y (Y - 1)); try reflexivity; nia).
  assert (Ei : i = z * (X * Y) + (y * X + x)) by (unfold i; ring).
  assert (E3 : (X * Y <=? i) = negb (z =? 0)).
  { destruct (Z.leb_spec (X * Y) i), (Z.eqb_spec z 0); try reflexivity; exfalso; set (A := X * Y) in *; set (r := y * X + x) in *; clearbody A r; clearbody i; [subst z; lia|nia]. }
  assert (E4 : (i <? X * Y * (W - 1)) = negb (z =? W - 1)).
  { destruct (Z.ltb_spec i (X * Y * (W - 1))), (Z.eqb_spec z (W - 1)); try reflexivity; exfalso; set (A := X * Y) in *; set (r := y * X + x) in *; clearbody A r; clearbody i; [subst z; nia|nia]. }
  rewrite E1, E2, E3, E4. destruct (z =? 0), (z =? W - 1); reflexivity.
Qed.

Lemma edges3_NoDup X Y W z y x : 0 <= x < X -> 0 <= y < Y -> 0 <= z < W -> NoDup (edges3 X Y W ((z * Y + y) * X + x)).
Proof.
  intros Hx Hy Hz. rewrite edges3_no by assumption. set (i := (z * Y + y) * X + x). clearbody i.
  assert (P : 1 <= X * Y) by nia. assert (P2 : 2 <= Y -> 2 * X <= X * Y) by nia. assert (P3 : X <= X * Y) by nia. set (A := X * Y) in *. clearbody A.
  destruct (Z.eqb_spec x 0), (Z.eqb_spec x (X - 1)), (Z.eqb_spec y 0), (Z.eqb_spec y (Y - 1)), (Z.eqb_spec z 0), (Z.eqb_spec z (W - 1)); cbn [app];
    repeat (apply NoDup_cons; [cbn [In]; lia|]); apply NoDup_nil.
Qed.

Lemma edges3_in X Y W z y x j : 0 <= x < X -> 0 <= y < Y -> 0 <= z < W ->
  In j (edges3 X Y W ((z * Y + y) * X + x)) <->
  exists z' y' x', 0 <= x' < X /\ 0 <= y' < Y /\ 0 <= z' < W /\ j = (z' * Y + y') * X + x' /\ Z.abs (z - z') + (Z.abs (y - y') + (Z.abs (x - x') + 0)) = 1.
Proof.
  intros Hx Hy Hz. rewrite edges3_no by assumption. rewrite !in_app_iff. split.
  - intros H. destruct H as [H|[H|[H|[H|[H|H]]]]];
      match goal with _ : In j (if ?b then _ else _) |- _ => destruct b eqn:E end; cbn [In] in H; try tauto; (destruct H as [H|[]]); subst j.
    + exists z, y, (x - 1). repeat split; lia.
    + exists z, y, (x + 1). repeat split; lia.
    + exists z, (y - 1), x. repeat split; try lia; ring.
    + exists z, (y + 1), x. repeat split; try lia; ring.
    + exists (z - 1), y, x. repeat split; try lia; ring.
    + exists (z + 1), y, x. repeat split; try lia; ring.
  - intros (z' & y' & x' & Hx' & Hy' & Hz' & -> & D).
    assert (C : (z' = z /\ y' = y /\ (x' = x - 1 \/ x' = x + 1)) \/ (z' = z /\ x' = x /\ (y' = y - 1 \/ y' = y + 1)) \/ (y' = y /\ x' = x /\ (z' = z - 1 \/ z' = z + 1))) by lia.
    destruct C as [(-> & -> & [-> | ->])|[(-> & -> & [-> | ->])|(-> & -> & [-> | ->])]].
    + left. replace (x =? 0) with false by lia. left. ring.
    + right; left. replace (x =? X - 1) with false by lia. left. ring.
    + do 2 right; left. replace (y =? 0) with false by lia. left. ring.
    + do 3 right; left. replace (y =? Y - 1) with false by lia. left. ring.
    + do 4 right; left. replace (z =? 0) with false by lia. left. ring.
    + do 5 right. replace (z =? W - 1) with false by lia. left. ring.
Qed.

Definition dims_fine (dims : coord) : Prop := (length dims = 2%nat \/ length dims = 3%nat) /\ Forall (fun n => 1 <= n) dims.

Lemma dims_cases dims : dims_fine dims -> (exists Y X, dims = [Y; X] /\ 1 <= Y /\ 1 <= X) \/ (exists W Y X, dims = [W; Y; X] /\ 1 <= W /\ 1 <= Y /\ 1 <= X).
Proof.
  intros ([H|H] & F).
  - left. destruct dims as [|Y [|X [|]]]; try discriminate. inversion F as [|? ? ? F']; inversion F'; subst. exists Y, X. auto.
  - right. destruct dims as [|W [|Y [|X [|]]]]; try discriminate. inversion F as [|? ? ? F']; inversion F' as [|? ? ? F'']; inversion F''; subst. exists W, Y, X. auto.
Qed.

Lemma no_inj X Y z y x z' y' x' : 0 <= x < X -> 0 <= y < Y -> 0 <= x' < X -> 0 <= y' < Y ->
  (z * Y + y) * X + x = (z' * Y + y') * X + x' -> z = z' /\ y = y' /\ x = x'.
Proof.
  intros Hx Hy Hx' Hy' E. pose proof (no_mod_x X Y z y x Hx) as A. rewrite E, no_mod_x in A by assumption.
  pose proof (no_div_xy X Y z y x Hx Hy) as B. rewrite E, no_div_xy in B by assumption.
  pose proof (no_div_x X Y z y x Hx) as D. rewrite E, no_div_x in D by assumption. subst. lia.
Qed.

(** Cells and their coordinates *)
Definition cell_at (dims : coord) (i : Z) : coord := start_coord (map (fun _ => 0) dims) dims i.

Lemma cell_at_spec dims i : dims_fine dims -> 0 <= i < prod dims -> in_grid dims (cell_at dims i) /\ cell_no 0 dims (cell_at dims i) = i.
Proof.
  intros Hd Hi. destruct (dims_cases dims Hd) as [(Y & X & -> & HY & HX)|(W & Y & X & -> & HW & HY & HX)]; cbn [prod] in Hi; rewrite Z.mul_1_r in Hi.
  - unfold cell_at, start_coord, in_grid. cbn [map axis rev nth app length Nat.eqb inside cell_no].
    pose proof (Z.mod_pos_bound i X ltac:(lia)). pose proof (Z.div_mod i X ltac:(lia)) as D. set (q := i / X) in *. set (r := i mod X) in *. clearbody q r.
    assert (0 <= q < Y) by nia. repeat split; lia.
  - unfold cell_at, start_coord, in_grid. cbn [map axis rev nth app length Nat.eqb inside cell_no].
    destruct (split_no X Y i ltac:(lia) ltac:(lia)) as (z & y & x & Ei & Hx & Hy). subst i. rewrite no_mod_xy, no_div_xy by assumption.
    pose proof (no_mod_x X 0 0 y x Hx) as M. pose proof (no_div_x X 0 0 y x Hx) as D. cbn [Z.mul Z.add] in M, D. rewrite M, D.
    assert (0 <= z < W). { pose proof (row_bound X Y y x Hx Hy). assert (E2 : (z * Y + y) * X + x = z * (X * Y) + (y * X + x)) by ring. rewrite E2 in Hi. replace (W * (Y * X)) with (W * (X * Y)) in Hi by ring. set (A := X * Y) in *. set (r := y * X + x) in *. clearbody A r. nia. }
    repeat split; lia.
Qed.

Lemma cell_no_bound dims c : dims_fine dims -> in_grid dims c -> 0 <= cell_no 0 dims c < prod dims.
Proof.
  intros Hd. destruct (dims_cases dims Hd) as [(Y & X & -> & HY & HX)|(W & Y & X & -> & HW & HY & HX)]; unfold in_grid; cbn [map].
  - destruct c as [|y [|x [|]]]; cbn [inside]; try tauto. intros H. cbn [cell_no prod]. pose proof (row_bound X Y y x ltac:(lia) ltac:(lia)). lia.
  - destruct c as [|z [|y [|x [|]]]]; cbn [inside]; try tauto. intros H. cbn [cell_no prod]. pose proof (row_bound X Y y x ltac:(lia) ltac:(lia)) as R.
    replace (((0 * W + z) * Y + y) * X + x) with (z * (X * Y) + (y * X + x)) by ring. replace (W * (Y * (X * 1))) with (W * (X * Y)) by ring. set (A := X * Y) in *. set (r := y * X + x) in *. clearbody A r. nia.
Qed.

Lemma cell_no_inj dims c c' : dims_fine dims -> in_grid dims c -> in_grid dims c' -> cell_no 0 dims c = cell_no 0 dims c' -> c = c'.
Proof.
  intros Hd. destruct (dims_cases dims Hd) as [(Y & X & -> & HY & HX)|(W & Y & X & -> & HW & HY & HX)]; unfold in_grid; cbn [map].
  - destruct c as [|y [|x [|]]]; cbn [inside]; try tauto. destruct c' as [|y' [|x' [|]]]; cbn [inside]; try tauto. intros H H' E. cbn [cell_no] in E.
    destruct (no_inj X Y 0 y x 0 y' x') as (_ & -> & ->); [lia..|]. reflexivity.
  - destruct c as [|z [|y [|x [|]]]]; cbn [inside]; try tauto. destruct c' as [|z' [|y' [|x' [|]]]]; cbn [inside]; try tauto. intros H H' E. cbn [cell_no] in E.
    destruct (no_inj X Y z y x z' y' x') as (-> & -> & ->); [lia..|]. reflexivity.
Qed.

Lemma edges_of_spec dims i : dims_fine dims -> 0 <= i < prod dims -> NoDup (edges_of dims i) /\ forall j, In j (edges_of dims i) <-> face_neighbors dims i j.
Proof.
  intros Hd Hi. destruct (cell_at_spec dims i Hd Hi) as (G & N). set (c := cell_at dims i) in *. clearbody c.
  assert (F : forall j, face_neighbors dims i j <-> exists c', in_grid dims c' /\ cell_no 0 dims c' = j /\ distance c c' = 1).
  { intros j. split.
    - intros (c1 & c' & G1 & G' & N1 & N' & D). exists c'. replace c with c1; [auto|]. apply (cell_no_inj dims); congruence.
    - intros (c' & G' & N' & D). exists c, c'. auto. }
  destruct (dims_cases dims Hd) as [(Y & X & -> & HY & HX)|(W & Y & X & -> & HW & HY & HX)]; cbn [prod] in Hi; rewrite Z.mul_1_r in Hi; unfold in_grid in *; cbn [map] in *.
  - rewrite edges_2d by exact Hi. destruct c as [|y [|x [|]]]; cbn [inside] in G; try tauto. cbn [cell_no] in N.
    replace i with ((0 * Y + y) * X + x) by lia. split; [apply edges3_NoDup; lia|]. intros j. replace ((0 * Y + y) * X + x) with i at 2 by lia. rewrite F, edges3_in by lia. split.
    + intros (z' & y' & x' & Hx' & Hy' & Hz' & -> & D). assert (z' = 0) by lia. subst z'. exists [y'; x']. cbn [inside cell_no distance]. repeat split; lia.
    + intros (c' & G' & <- & D). destruct c' as [|y2 [|x2 [|]]]; cbn [inside] in G'; try tauto. cbn [cell_no distance] in *. exists 0, y2, x2. repeat split; lia.
  - rewrite edges_3d. destruct c as [|z [|y [|x [|]]]]; cbn [inside] in G; try tauto. cbn [cell_no] in N.
    replace i with ((z * Y + y) * X + x) by lia. split; [apply edges3_NoDup; lia|]. intros j. replace ((z * Y + y) * X + x) with i at 2 by lia. rewrite F, edges3_in by lia. split.
    + intros (z' & y' & x' & Hx' & Hy' & Hz' & -> & D). exists [z'; y'; x']. cbn [inside cell_no distance]. repeat split; lia.
    + intros (c' & G' & <- & D). destruct c' as [|z2 [|y2 [|x2 [|]]]]; cbn [inside] in G'; try tauto. cbn [cell_no distance] in *. exists z2, y2, x2. repeat split; lia.
Qed.

Lemma edges_total dims : dims_fine dims -> Z.of_nat (length (flat_map (fun k => edges_of dims (0 + Z.of_nat k)) (seq 0 (Z.to_nat (prod dims))))) = edge_number dims.
Proof.
  intros Hd. rewrite flat_length. cbv zeta. unfold edge_number.
  assert (K : forall X Y W n, 1 <= X -> 1 <= Y -> 1 <= W -> n = W * (Y * X) ->
    count (fun i => negb (i mod X =? 0)) (Z.to_nat n) = W * Y * (X - 1) /\
    count (fun i => negb (i mod X =? X - 1)) (Z.to_nat n) = W * Y * (X - 1) /\
    count (fun i => negb (i mod (X * Y) <? X)) (Z.to_nat n) = W * (X * Y - X) /\
    count (fun i => negb (X * (Y - 1) <=? i mod (X * Y))) (Z.to_nat n) = W * (X * (Y - 1))).
  { intros X Y W n HX HY HW ->. assert (P : X <= X * Y) by nia. repeat split.
    - rewrite (count_mod_Z (fun j => negb (j =? 0)) X (W * (Y * X)) (W * Y)); [|lia|ring|nia]. f_equal.
      rewrite (count_ext _ (fun j => 1 <=? j)) by (intros; lia). rewrite count_ge; lia.
    - rewrite (count_mod_Z (fun j => negb (j =? X - 1)) X (W * (Y * X)) (W * Y)); [|lia|ring|nia]. f_equal.
      rewrite (count_ext _ (fun j => j <? X - 1)) by (intros; lia). rewrite count_lt; lia.
    - rewrite (count_mod_Z (fun j => negb (j <? X)) (X * Y) (W * (Y * X)) W); [|lia|ring|lia]. f_equal.
      rewrite (count_ext _ (fun j => X <=? j)) by (intros; lia). rewrite count_ge; lia.
    - rewrite (count_mod_Z (fun j => negb (X * (Y - 1) <=? j)) (X * Y) (W * (Y * X)) W); [|lia|ring|lia]. f_equal.
      rewrite (count_ext _ (fun j => j <? X * (Y - 1))) by (intros; lia). rewrite count_lt; nia. }
  destruct (dims_cases dims Hd) as [(Y & X & -> & HY & HX)|(W & Y & X & -> & HW & HY & HX)]; cbn [axis rev nth app length Nat.eqb andb prod].
  - destruct (K X Y 1 (Y * (X * 1)) HX HY ltac:(lia) ltac:(ring)) as (-> & -> & -> & ->). rewrite !count_false. ring.
  - destruct (K X Y W (W * (Y * (X * 1))) HX HY HW ltac:(ring)) as (-> & -> & -> & ->). assert (P : 1 <= X * Y) by nia. rewrite count_ge, count_lt by nia.
    rewrite Z2Nat.id by nia. rewrite Z.min_r by nia. rewrite Z.min_r by nia. ring.
Qed.

Lemma grid_graph_spec dims : dims_fine dims -> exists g, grid_graph dims = Some g /\ describes g (prod dims) (face_neighbors dims).
Proof.
  intros Hd. unfold grid_graph. destruct (csr_loop (edges_of dims) (Z.to_nat (prod dims)) 0 0) as [vt et] eqn:E.
  assert (P : 0 <= prod dims). { destruct (dims_cases dims Hd) as [(Y & X & -> & HY & HX)|(W & Y & X & -> & HW & HY & HX)]; cbn [prod]; nia. }
  destruct (csr_spec _ _ _ _ _ _ E) as (_ & _ & _ & Et & _). pose proof (edges_total dims Hd) as T. rewrite <- Et in T. rewrite T, Z.leb_refl. eexists. split; [reflexivity|].
  rewrite <- T. rewrite <- (Z2Nat.id (prod dims)) at 1 by exact P. apply csr_describes with (edges := edges_of dims); [|exact E]. intros i Hi. apply edges_of_spec; [exact Hd|lia].
Qed.
