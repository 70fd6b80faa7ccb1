(** Facts on StripingPartition and UnstructuredStripingPartition. *)
From Verif Require Import Base ListFacts RegionSpec RegionModel RegionRep RegionIterModel RegionStreaks
  CoordModel CoordSpec RegionOpsModel RegionOps CoordFacts RegionHistory RegionHist RegionReach PartitionSpec PartitionModel
  PartitionFacts.
From Coq Require Import Sorted.

Lemma zadd_comm a : forall b, zadd a b = zadd b a.
Proof. induction a as [|x a IH]; intros [|y b]; cbn; auto. rewrite IH. f_equal. lia. Qed.

Lemma zadd_inj o : forall a b, length a = length o -> length b = length o -> zadd o a = zadd o b -> a = b.
Proof.
  induction o as [|x o IH]; intros [|y a] [|z b] Ha Hb E; try discriminate; auto. cbn in E.
  injection E as E1 E2. f_equal; [lia|]. apply IH; auto.
Qed.

Lemma from_index_inj n dim k k' : allpos dim -> 0 <= k -> 0 <= k' -> from_index (n :: dim) k = from_index (n :: dim) k' -> k = k'.
Proof.
  intros Hd Hk Hk' E. cbn [from_index] in E. injection E as E1 E2. pose proof (prod_pos dim Hd) as HP.
  apply (f_equal (fun c => to_index c dim)) in E2. rewrite !to_from in E2 by (auto; apply Z.mod_pos_bound; auto).
  rewrite (Z.div_mod k (prod dim)), (Z.div_mod k' (prod dim)) by lia. congruence.
Qed.

Lemma index_to_coord_top n dim k : (length dim <= 2)%nat -> allpos dim -> 0 <= k ->
  index_to_coord (n :: dim) k = Some (from_index (n :: dim) k).
Proof.
  intros Hl Hp Hk. assert (E : index_to_coord (n :: dim) k = index_to_coord (k + 1 :: dim) k) by (destruct dim as [|? [|? [|]]]; reflexivity).
  rewrite E. change (from_index (n :: dim) k) with (from_index (k + 1 :: dim) k). apply index_to_coord_from.
  - cbn. lia.
  - constructor; auto. lia.
  - pose proof (prod_pos dim Hp). cbn [prod]. nia.
Qed.

Lemma box_run_range n dim o org : allpos dim -> length org = length dim -> 0 <= n ->
  forall j a fuel, 0 <= a -> a + Z.of_nat j <= n * prod dim -> (j <= fuel)%nat ->
  box_run fuel (zadd (o :: org) (from_index (n :: dim) a)) (zadd (o :: org) (from_index (n :: dim) (a + Z.of_nat j)))
     (o :: org) (zadd (o :: org) (n :: dim)) =
  Some (slice (box_list (mkBox (o :: org) (n :: dim))) a (a + Z.of_nat j)).
Proof.
  intros Hd Hl Hn. induction j as [|j IH]; intros a fuel Ha Hj Hf.
  - rewrite Z.add_0_r. unfold slice. rewrite Z.sub_diag. cbn [Z.to_nat firstn].
    destruct fuel; cbn [box_run]; rewrite coord_eqb_refl; reflexivity.
  - destruct fuel as [|fuel]; [lia|]. cbn [box_run].
    destruct (coord_eqb _ _) eqn:E.
    { apply coord_eqb_spec in E. apply zadd_inj in E; [|rewrite from_index_length; cbn; lia..].
      apply from_index_inj in E; auto; lia. }
    rewrite next_spec by (auto; lia). replace (a + Z.of_nat (S j)) with (a + 1 + Z.of_nat j) by lia.
    rewrite IH by lia. f_equal.
    unfold slice. replace (Z.to_nat (a + 1 + Z.of_nat j - a)) with (S j) by lia.
    replace (Z.to_nat (a + 1 + Z.of_nat j - (a + 1))) with j by lia.
    replace (Z.to_nat (a + 1)) with (S (Z.to_nat a)) by lia.
    set (T := box_list _).
    assert (Hnth : nth_error T (Z.to_nat a) = Some (zadd (o :: org) (from_index (n :: dim) a))).
    { unfold T, box_list. cbn [b_origin b_dim prod].
      erewrite map_nth_error; [|rewrite nth_error_nth' with (d := O); [rewrite seq_nth by lia; reflexivity|rewrite seq_length; lia]].
      cbn [Nat.add]. rewrite Z2Nat.id by lia. reflexivity. }
    clearbody T. clear -Hnth. revert Hnth. generalize (Z.to_nat a). intros i. revert i.
    induction T as [|t T IH]; intros [|i] H; cbn [nth_error skipn] in *; try discriminate.
    + injection H as ->. reflexivity.
    + rewrite <- IH by auto. reflexivity.
Qed.

Lemma sorted_lt_NoDup l : StronglySorted coord_lt l -> NoDup l.
Proof.
  assert (Hi : forall c, ~ coord_lt c c) by (induction c as [|x c IH]; cbn; [tauto|]; intros [H|[_ H]]; [lia|tauto]).
  induction 1 as [|c l _ IH Hf]; constructor; auto. intros Hin. rewrite Forall_forall in Hf. apply (Hi c). auto.
Qed.

Lemma striping_slices d n dim o org offset w fuel :
  allpos dim -> 0 <= n -> length org = length dim -> (length dim = d)%nat -> (d <= 2)%nat -> (n = 0 -> Forall (fun k => k = 1) dim) ->
  Forall (fun x => 0 <= x) w -> 0 <= offset -> offset + zsum w <= n * prod dim -> zsum w <= Z.of_nat fuel ->
  forall k, (k < length w)%nat ->
  striping_region fuel (o :: org) (n :: dim) offset w k =
  Some (reg_of_coords (S d) (slice (box_list (mkBox (o :: org) (n :: dim))) (offset + zsum (firstn k w)) (offset + zsum (firstn (S k) w)))).
Proof.
  intros Hd Hn Hl Hld Hd2 Hn0 Hw Ho Hs Hf k Hk. unfold striping_region.
  assert (Edims : striping_dims (n :: dim) = n :: dim).
  { unfold striping_dims. cbn [prod]. destruct (Z.eqb_spec (n * prod dim) 0) as [E|]; auto.
    pose proof (prod_pos dim Hd). assert (n = 0) by nia. subst n. f_equal. specialize (Hn0 eq_refl). clear -Hn0.
    induction Hn0; cbn; congruence. }
  rewrite Edims, node_range_spec by auto. cbn [obind]. unfold striping_at.
  pose proof (zsum_nonneg _ (Forall_firstn' _ _ Hw k)) as H1.
  pose proof (zsum_firstn_mono w Hw k (S k) ltac:(lia)) as H2.
  pose proof (zsum_firstn_mono w Hw (S k) (length w) Hk) as H3. rewrite firstn_all in H3.
  rewrite !index_to_coord_top by (auto; lia). cbn [obind]. rewrite !(zadd_comm _ (o :: org)).
  set (a := offset + zsum (firstn k w)) in *. set (b := offset + zsum (firstn (S k) w)) in *.
  replace b with (a + Z.of_nat (Z.to_nat (b - a))) by lia.
  rewrite box_run_range by (auto; try lia; unfold a, b in *; lia). cbn [obind]. cbn [length]. now rewrite Hld.
Qed.
