(** Property C12: StripingPartition and UnstructuredStripingPartition. *)
From Verif Require Import Base ListFacts RegionSpec RegionModel RegionRep RegionIterModel
  CoordModel CoordSpec RegionOpsModel RegionOps CoordFacts RegionHistory RegionHist RegionReach PartitionSpec PartitionModel
  PartitionFacts StripingFacts.
From Coq Require Import Sorted FinFun.

Lemma striping_dims_idem dims : striping_dims (striping_dims dims) = striping_dims dims.
Proof.
  destruct (Z.eqb_spec (prod dims) 0) as [E|E].
  - assert (E1 : striping_dims dims = match dims with [] => [] | _ :: ds => 0 :: map (fun _ => 1) ds end).
    { unfold striping_dims. rewrite E. reflexivity. }
    rewrite E1. destruct dims as [|n dim]; auto. unfold striping_dims. cbn [prod]. rewrite Z.mul_0_l. cbn [Z.eqb].
    now rewrite map_map.
  - assert (E1 : striping_dims dims = dims).
    { unfold striping_dims. destruct (Z.eqb_spec (prod dims) 0); auto. lia. }
    now rewrite E1.
Qed.

Lemma striping_region_dims fuel origin dims offset w k :
  striping_region fuel origin (striping_dims dims) offset w k = striping_region fuel origin dims offset w k.
Proof. unfold striping_region. now rewrite striping_dims_idem. Qed.

Lemma prod_zero_ex dim : Forall (fun k => 0 <= k) dim -> prod dim = 0 -> In 0 dim.
Proof.
  induction 1 as [|n dim Hn Hd IH]; cbn [prod]; [lia|]. intros E. apply Zmult_integral in E. destruct E; [left|right]; auto.
Qed.

Lemma inside_zero origin : forall dims c, In 0 dims -> ~ inside origin dims c.
Proof.
  induction origin as [|o origin IH]; intros [|n dims] [|x c] Hin H; cbn in *; try tauto.
  destruct Hin as [->|Hin]; [lia|]. eapply IH; eauto. apply H.
Qed.

(** The enumeration underlying the stripes. *)
Lemma striping_enum d origin dims offset w fuel :
  length origin = S d -> length dims = S d -> (d <= 2)%nat -> Forall (fun n => 0 <= n) dims ->
  Forall (fun x => 0 <= x) w -> 0 <= offset -> offset + zsum w <= prod dims -> zsum w <= Z.of_nat fuel ->
  exists T, StronglySorted coord_lt T /\ Forall (fun c => length c = S d) T /\ Z.of_nat (length T) = prod dims /\
    (forall c, In c T <-> in_box (mkBox origin dims) c) /\
    forall k, (k < length w)%nat ->
      striping_region fuel origin dims offset w k =
      Some (reg_of_coords (S d) (slice T (offset + zsum (firstn k w)) (offset + zsum (firstn (S k) w)))).
Proof.
  intros Ho Hd Hd2 Hp Hw Hof Hs Hf.
  destruct origin as [|o org]; [discriminate|]. destruct dims as [|n dim]; [discriminate|]. cbn in Ho, Hd.
  set (D := striping_dims (n :: dim)).
  assert (HD : exists m ms, D = m :: ms /\ 0 <= m /\ allpos ms /\ (m = 0 -> Forall (fun k => k = 1) ms) /\
     length ms = d /\ prod D = prod (n :: dim) /\ forall c, inside (o :: org) D c <-> inside (o :: org) (n :: dim) c).
  { unfold D, striping_dims. destruct (Z.eqb_spec (prod (n :: dim)) 0) as [E|E].
    - exists 0, (map (fun _ => 1) dim). split; auto. split; [lia|].
      split; [apply Forall_map, Forall_forall; lia|]. split; [intros _; apply Forall_map, Forall_forall; auto|].
      rewrite map_length. split; [lia|]. split; [rewrite E; reflexivity|]. intros c.
      split; intros H; exfalso; [eapply (inside_zero (o :: org) (0 :: map (fun _ => 1) dim) c); eauto; now left|].
      apply prod_zero_ex in E; auto. eapply inside_zero; eauto.
    - exists n, dim. split; auto. apply Forall_cons_iff' in Hp. destruct Hp as [H1 H2]. split; [lia|].
      assert (Hdp : allpos dim).
      { cbn [prod] in E. assert (prod dim <> 0) by nia. clear -H2 H. induction H2 as [|x l Hx Hl IH]; [constructor|]. cbn [prod] in H. assert (x <> 0) by (intros ->; lia).
        constructor; [lia|apply IH; intros E'; rewrite E' in H; lia]. }
      split; auto. split; [intros ->; cbn in E; lia|]. split; [lia|]. split; auto. tauto. }
  destruct HD as (m & ms & ED & Hm & Hms & Hm0 & Hlms & EP & HI).
  assert (Hreg : box_regular (S d) (mkBox (o :: org) D)).
  { unfold box_regular. cbn [b_origin b_dim]. rewrite ED. cbn [length]. repeat split; auto; lia. }
  exists (box_list (mkBox (o :: org) D)).
  assert (Hin : forall c, In c (box_list (mkBox (o :: org) D)) <-> in_box (mkBox (o :: org) (n :: dim)) c).
  { intros c. rewrite (box_list_in _ _ Hreg). unfold in_box. cbn [b_origin b_dim]. apply HI. }
  split; [eapply box_list_sorted; eauto|]. split.
  { apply Forall_forall. intros c Hc. apply Hin in Hc. apply inside_length in Hc. cbn in Hc. lia. }
  split; [rewrite box_list_length; cbn [b_dim]; rewrite EP; pose proof (zsum_nonneg _ Hw); lia|].
  split; [exact Hin|]. intros k Hk. rewrite <- striping_region_dims. fold D. rewrite ED.
  apply striping_slices; auto; try lia. rewrite <- EP, ED in Hs. exact Hs.
Qed.

(** For 1D, 2D and 3D boxes, non-negative weights and an offset such that the
    cells suffice: every node gets a Region, the Regions are pairwise disjoint,
    node [k] gets exactly [weights[k]] coordinates, all of them inside of the
    box; the stripes follow each other in row-major order; and if the weights
    add up to the volume each coordinate of the box belongs to exactly one
    node. *)
Theorem C12_striping : forall d origin dims offset weights fuel,
  length origin = S d -> length dims = S d -> (d <= 2)%nat -> Forall (fun n => 0 <= n) dims ->
  Forall (fun x => 0 <= x) weights -> 0 <= offset -> offset + zsum weights <= prod dims ->
  zsum weights <= Z.of_nat fuel ->
  let get := striping_region fuel origin dims offset weights in
  let n := length weights in
  all_defined d n get /\ disjoint d n get /\
  (forall k w, nth_error weights k = Some w -> cell_count d get k (Z.to_nat w)) /\
  (forall k c, (k < n)%nat -> cells d get k c -> in_box (mkBox origin dims) c) /\
  (forall k k' c c', (k < k')%nat -> (k' < n)%nat -> cells d get k c -> cells d get k' c' -> coord_lt c c') /\
  (offset = 0 -> zsum weights = prod dims -> exact_cover d n get (in_box (mkBox origin dims))).
Proof.
  intros d origin dims offset weights fuel Ho Hd Hd2 Hp Hw Hof Hs Hf get n.
  destruct (striping_enum d origin dims offset weights fuel Ho Hd Hd2 Hp Hw Hof Hs Hf) as (T & HT & Hlen & HlT & Hin & Hget).
  destruct (slices_partition d T offset weights get (sorted_lt_NoDup T HT) Hlen Hw Hof Hget) as (H1 & H2 & H3 & H4 & H5).
  split; [exact H1|]. split; [exact H2|]. split; [intros k w Hk; apply H3; auto; lia|].
  split; [intros k c Hk Hc; apply Hin; eauto|]. split.
  - intros k k' c c'. apply (slices_ordered d T coord_lt offset weights get HT Hlen Hw Hof Hget).
  - intros E0 Es. destruct (H5 E0 ltac:(lia)) as (A & B & C). split; [exact A|]. split; [exact B|].
    intros c. rewrite <- Hin. apply C.
Qed.
Print Assumptions C12_striping.

Example C12_example :
  striping_region 100 [5; 2] [3; 4] 0 [5; 0; 7] 0 <> None /\
  (exists r, striping_region 100 [5; 2] [3; 4] 0 [5; 0; 7] 2 = Some r /\ reg_count r [6; 2] = Some false /\ reg_count r [6; 3] = Some true).
Proof. split; [vm_compute; discriminate|]. eexists. split; [vm_compute; reflexivity|]. split; reflexivity. Qed.

(** UnstructuredStripingPartition assigns consecutive ranges of ids. *)
Theorem C12_unstructured_striping : forall origin offset weights,
  Forall (fun x => 0 <= x) weights ->
  let get := unstructured_striping_region origin offset weights in
  let n := length weights in
  all_defined 0 n get /\ disjoint 0 n get /\
  (forall k w, nth_error weights k = Some w -> cell_count 0 get k (Z.to_nat w)) /\
  (forall k k' c c', (k < k')%nat -> (k' < n)%nat -> cells 0 get k c -> cells 0 get k' c' -> coord_lt c c') /\
  exact_cover 0 n get (in_box (mkBox [origin + offset] [zsum weights])).
Proof.
  intros origin offset weights Hw get n.
  set (a := fun k => origin + offset + zsum (firstn k weights)).
  assert (Hget : forall k, (k < n)%nat -> get k = Some (reg_insert (reg_empty 1) (mkStreak [] (a k) (a (S k))))).
  { intros k Hk. unfold get, unstructured_striping_region. rewrite node_range_spec by exact Hk. reflexivity. }
  assert (Hc : forall k c, (k < n)%nat -> (cells 0 get k c <-> exists x, c = [x] /\ a k <= x < a (S k))).
  { intros k c Hk. unfold cells. rewrite (Hget k Hk).
    destruct (insert_valid 0 (reg_empty 1) (mkStreak [] (a k) (a (S k))) (rvalid_empty 0) eq_refl) as [_ Hm].
    split.
    - intros (r & [= <-] & Hl & H). apply Hm in H; auto. destruct H as [H|H]; [exfalso; eapply (rin_empty 0 c); eauto|].
      exact H.
    - intros (x & -> & Hx). eexists. split; [reflexivity|]. split; auto. apply Hm; auto. right. exists x. auto. }
  assert (Hmono : forall i j, (i <= j)%nat -> a i <= a j).
  { intros i j H. pose proof (zsum_firstn_mono weights Hw i j H). unfold a. lia. }
  assert (Hall : all_defined 0 n get).
  { intros k Hk. rewrite (Hget k Hk). eexists. split; [reflexivity|].
    eapply reach_rop with (op := InsStreak (mkStreak [] (a k) (a (S k)))) (fuel := O); [constructor|..]; reflexivity. }
  assert (Hlt : forall k k' c c', (k < k')%nat -> (k' < n)%nat -> cells 0 get k c -> cells 0 get k' c' -> coord_lt c c').
  { intros k k' c c' Hk Hk' H1 H2. apply Hc in H1, H2; try lia. destruct H1 as (x & -> & Hx), H2 as (y & -> & Hy).
    left. pose proof (Hmono (S k) k' Hk). lia. }
  assert (Hdis : disjoint 0 n get).
  { intros k k' c Hk Hk' H1 H2. assert (Hi : ~ coord_lt c c).
    { apply Hc in H1; auto. destruct H1 as (x & -> & _). cbn. lia. }
    destruct (Nat.lt_trichotomy k k') as [L|[L|L]]; auto; exfalso; apply Hi; eauto. }
  split; [exact Hall|]. split; [exact Hdis|]. split; [|split; [exact Hlt|]].
  - intros k w Hk. assert (Hkn : (k < n)%nat) by (apply nth_error_Some; congruence).
    assert (Ea : a (S k) = a k + w) by (unfold a; rewrite (zsum_firstn_S _ _ _ Hk); lia).
    assert (0 <= w) by (rewrite Forall_forall in Hw; apply Hw; eapply nth_error_In; eauto).
    exists (map (fun i => [a k + Z.of_nat i]) (seq 0 (Z.to_nat w))). split; [|split].
    + apply Injective_map_NoDup; [|apply seq_NoDup]. intros i j [= E]. lia.
    + now rewrite map_length, seq_length.
    + intros c. rewrite in_map_iff, (Hc k c Hkn). split.
      * intros (i & <- & Hi). apply in_seq in Hi. exists (a k + Z.of_nat i). split; auto. lia.
      * intros (x & -> & Hx). exists (Z.to_nat (x - a k)). split; [f_equal; lia|]. apply in_seq. lia.
  - split; [exact Hall|]. split; [exact Hdis|]. intros c. split.
    + intros H. unfold in_box in H. cbn [b_origin b_dim] in H. destruct c as [|x [|]]; cbn in H; try tauto.
      assert (Hex : forall m, (m <= n)%nat -> x < a m -> exists k, (k < m)%nat /\ a k <= x < a (S k)).
      { induction m as [|m IH]; intros Hm Hx; [unfold a in Hx; cbn in Hx; lia|].
        destruct (Z_lt_le_dec x (a m)) as [L|L]; [|exists m; split; [lia|lia]].
        destruct (IH ltac:(lia) L) as (k & Hk & Hki). exists k. split; [lia|auto]. }
      destruct (Hex n (le_n _)) as (k & Hk & Hx); [unfold a, n; rewrite firstn_all; lia|].
      exists k. split; auto. apply Hc; auto. exists x. auto.
    + intros (k & Hk & H). apply Hc in H; auto. destruct H as (x & -> & Hx). unfold in_box. cbn.
      pose proof (Hmono O k ltac:(lia)). pose proof (Hmono (S k) n Hk).
      unfold a in H, H0, Hx. unfold n in H0. rewrite firstn_all in H0. cbn [firstn zsum] in H. split; auto. lia.
Qed.
Print Assumptions C12_unstructured_striping.

Example C12_unstructured_example : exists r, unstructured_striping_region 10 3 [4; 0; 6] 2 = Some r /\
  reg_count r [16] = Some false /\ reg_count r [17] = Some true /\ reg_count r [22] = Some true /\ reg_count r [23] = Some false.
Proof. eexists. split; [vm_compute; reflexivity|]. repeat split; reflexivity. Qed.
