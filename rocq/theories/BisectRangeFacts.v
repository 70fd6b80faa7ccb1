(** Recursive bisection with a rounding that is sane for the sizes at hand. *)
From Verif Require Import Base ListFacts RegionSpec RegionModel RegionRep RegionIterModel RegionFlat
  CoordModel CoordSpec RegionOpsModel RegionOps CoordFacts RegionHistory RegionHist RegionReach PartitionSpec PartitionModel
  PartitionFacts StripingFacts CheckerFacts BisectionFacts BisectionProps BisectDoubleSpec.

Definition guarded (W N : Z) (rnd : Z -> Z -> Z -> Z) (num den n : Z) : Z :=
  if (den <=? W) && (n <=? N) then rnd num den n else round_exact num den n.

Lemma guarded_sane W N rnd : sane_upto W N rnd -> sane_rounding (guarded W N rnd).
Proof.
  intros H num den n H1 H2 H3. unfold guarded. destruct ((den <=? W) && (n <=? N)) eqn:E; [apply H; lia|now apply round_exact_sane].
Qed.

Lemma guarded_in W N rnd num den n : den <= W -> n <= N -> guarded W N rnd num den n = rnd num den n.
Proof. intros H1 H2. unfold guarded. replace ((den <=? W) && (n <=? N)) with true by lia. reflexivity. Qed.

Lemma set_nth_Forall (P : Z -> Prop) i v : forall l, Forall P l -> P v -> Forall P (set_nth i v l).
Proof.
  induction i as [|i IH]; intros [|x l] H Hv; cbn; auto; inversion H; subst; constructor; auto.
Qed.

Section Range.
Variables (W N : Z) (rnd : Z -> Z -> Z -> Z) (dimw : coord) (offs : list Z).
Hypothesis Hs : sane_upto W N rnd.
Hypothesis Hinc : increasing offs.
Hypothesis Hoffs : forall i j a b, nth_error offs i = Some a -> nth_error offs j = Some b -> b - a <= W.

Lemma search_guarded : forall fuel lo hi node b, (lo < hi)%nat -> (hi < length offs)%nat -> b_dim b <> [] ->
  Forall (fun n => 0 <= n <= N) (b_dim b) ->
  search_cuboid (guarded W N rnd) fuel dimw offs lo hi node b = search_cuboid rnd fuel dimw offs lo hi node b.
Proof.
  induction fuel as [|fuel IH]; intros lo hi node b Hlh Hhi Hne Hb; [reflexivity|].
  cbn [search_cuboid]. destruct (Nat.eqb_spec (hi - lo) 1) as [|E]; [reflexivity|].
  destruct (approx_middle_spec offs lo hi Hinc ltac:(lia) Hhi) as (m & Hm & Hlm). rewrite Hm. cbn [obind].
  destruct (nth_error offs lo) as [vl|] eqn:El; [|reflexivity]. cbn [obind].
  destruct (nth_error offs m) as [vm|] eqn:Em; [|reflexivity]. cbn [obind].
  destruct (nth_error offs hi) as [vh|] eqn:Eh; [|reflexivity]. cbn [obind].
  destruct (nth_error offs node) as [vn|] eqn:En; [|reflexivity]. cbn [obind].
  assert (vl < vm) by (apply (Hinc lo m); auto; lia). assert (vm < vh) by (apply (Hinc m hi); auto; lia).
  pose proof (Hoffs lo hi vl vh El Eh) as HW.
  assert (E0 : vh - vl =? 0 = false) by lia. rewrite E0.
  unfold split_box. set (ax := split_axis dimw (b_dim b)).
  assert (Hax : (ax < length (b_dim b))%nat) by (apply split_axis_bound; exact Hne).
  assert (HN : 0 <= nth ax (b_dim b) 0 <= N) by (rewrite Forall_forall in Hb; apply Hb; now apply nth_In).
  rewrite guarded_in by lia. pose proof (Hs (vm - vl) (vh - vl) (nth ax (b_dim b) 0) ltac:(lia) ltac:(lia) HN) as HR.
  set (off := rnd _ _ _) in *. clearbody off. destruct (vn <? vm).
  - apply IH; try lia; cbn [b_dim].
    + intros F. apply (f_equal (@length Z)) in F. rewrite set_nth_length in F. cbn in F. lia.
    + apply set_nth_Forall; [exact Hb|lia].
  - apply IH; try lia; cbn [b_dim].
    + intros F. apply (f_equal (@length Z)) in F. rewrite set_nth_length in F. cbn in F. lia.
    + apply set_nth_Forall; [exact Hb|lia].
Qed.
End Range.

Lemma zsum_prefix w : Forall (fun x => 0 < x) w -> forall k, 0 <= zsum (firstn k w) <= zsum w.
Proof.
  induction 1 as [|x w Hx _ IH]; intros [|k]; cbn [firstn zsum fold_right] in *; try lia; pose proof (IH O) as I0; cbn in I0; try specialize (IH k); lia.
Qed.

Lemma bisection_guarded W N rnd origin dims dimw weights node :
  sane_upto W N rnd -> Forall (fun n => 0 < n <= N) dims -> dims <> [] -> weights <> [] -> Forall (fun x => 0 < x) weights -> zsum weights <= W ->
  bisection_box (guarded W N rnd) origin dims dimw weights node = bisection_box rnd origin dims dimw weights node.
Proof.
  intros Hs Hd Hne Hw Hp HW. unfold bisection_box. destruct (prod dims =? 0); [reflexivity|].
  apply search_guarded; auto.
  - now apply increasing_offsets.
  - intros i j a b Ha Hb. assert (Hi : (i < length (start_offsets 0 weights))%nat) by (apply nth_error_Some; congruence).
    assert (Hj : (j < length (start_offsets 0 weights))%nat) by (apply nth_error_Some; congruence). rewrite offsets_length in Hi, Hj.
    rewrite offsets_nth in Ha, Hb by lia. injection Ha as <-. injection Hb as <-.
    pose proof (zsum_prefix weights Hp i). pose proof (zsum_prefix weights Hp j). lia.
  - destruct weights; [congruence|cbn; lia].
  - rewrite offsets_length. lia.
  - cbn [b_dim]. eapply Forall_impl; [|exact Hd]. cbn. lia.
Qed.
