(** C13, C14: ZCurvePartition and HilbertPartition. *)
From Verif Require Import Base ListFacts RegionSpec RegionModel RegionRep RegionIterModel
  CoordModel CoordSpec RegionOpsModel RegionOps CoordFacts RegionHistory RegionHist RegionReach PartitionSpec PartitionModel
  PartitionFacts StripingFacts CheckerFacts BisectionFacts SfcModel SfcFacts ZcurveFacts HilbertFacts.

(** What it means that the iterators which [at] yields for the positions
    0, 1, ... traverse the box: there is an enumeration [T] of the box without
    repetitions such that the iterator at position [k] refers to the k-th
    coordinate, and incrementing it yields the iterator at position [k + 1];
    the position after the last one is the end. *)
Definition traverses (box : coord -> Prop) (volume : Z) (at_ : Z -> option sfc_iter)
    (next : sfc_iter -> option sfc_iter) (end_ : sfc_iter) : Prop :=
  exists T : list coord, NoDup T /\ (forall c, In c T <-> box c) /\ Z.of_nat (length T) = volume /\
  (forall k, 0 <= k < volume -> exists it, at_ k = Some it /\
     nth_error T (Z.to_nat k) = Some (sfc_deref it) /\ sfc_eqb it end_ = false /\ next it = at_ (k + 1)) /\
  at_ volume = Some end_.

Section General.
Variable d : nat.
Variable cv : curve.
Variable good : square -> Prop.
Hypothesis ok : curve_ok (S d) cv good.
Hypothesis cache_ok : forall sq, good sq -> has_trivial (sq_dim sq) = false -> cv_cached cv (sq_dim sq) = true ->
  map (zadd (sq_org sq)) (cv_cache cv (sq_dim sq) (sq_form sq)) = travel cv sq.

Lemma sfc_traverses origin dims form fuel : good (mkSq origin dims form) -> prod dims <= Z.of_nat fuel ->
  traverses (in_box (mkBox origin dims)) (prod dims) (sfc_at cv fuel origin dims form) (sfc_next cv fuel origin) (SfcEnd origin).
Proof.
  intros Hg Hf. set (sq := mkSq origin dims form) in *. exists (travel cv sq).
  split; [exact (travel_nodup _ _ _ ok sq Hg)|]. split; [exact (travel_in _ _ _ ok sq Hg)|].
  split; [exact (travel_length _ _ _ ok sq Hg)|]. split.
  - intros k Hk. destruct (at_spec _ _ _ ok cache_ok origin dims form fuel k Hg Hf Hk) as (it & E & Hn & (c & sl & st & ->) & Hx).
    eexists. split; [exact E|]. split; [exact Hn|]. split; [reflexivity|exact Hx].
  - apply (at_end cv good cache_ok). fold sq. unfold vol. cbn [sq sq_dim]. lia.
Qed.

Lemma sfc_cover origin dims offset weights fuel get : good (mkSq origin dims 0) -> length dims = S d -> prod dims <= Z.of_nat fuel ->
  Forall (fun x => 0 <= x) weights -> 0 <= offset -> offset + zsum weights <= prod dims ->
  (forall k, get k = sfc_region cv fuel origin dims offset weights k) ->
  let n := length weights in
  all_defined d n get /\ disjoint d n get /\
  (forall k w, nth_error weights k = Some w -> cell_count d get k (Z.to_nat w)) /\
  (forall k c, (k < n)%nat -> cells d get k c -> in_box (mkBox origin dims) c) /\
  (offset = 0 -> zsum weights = prod dims -> exact_cover d n get (in_box (mkBox origin dims))).
Proof.
  intros Hg Hd Hf Hw Ho Hs Hgt n. set (sq := mkSq origin dims 0) in *.
  assert (Hin := travel_in _ _ _ ok sq Hg).
  assert (Hlen : Forall (fun c => length c = S d) (travel cv sq)).
  { apply Forall_forall. intros c Hc. apply Hin in Hc. unfold in_sq in Hc. cbn [sq sq_org sq_dim] in Hc.
    rewrite <- Hd. clear -Hc. revert dims c Hc. induction origin as [|o os IH]; intros [|m ms] [|x xs]; cbn; try tauto.
    intros [_ H]. f_equal. eauto. }
  assert (HlT := travel_length _ _ _ ok sq Hg). unfold vol in HlT. cbn [sq sq_dim] in HlT.
  destruct (slices_partition d (travel cv sq) offset weights get (travel_nodup _ _ _ ok sq Hg) Hlen Hw Ho) as (H1 & H2 & H3 & H4 & H5).
  { intros k Hk. rewrite Hgt. rewrite (sfc_slices _ _ _ ok cache_ok origin dims offset weights fuel Hg Hf Hw Ho Hs k Hk). now rewrite Hd. }
  split; [exact H1|]. split; [exact H2|]. fold sq in HlT. split; [intros k w Hk; apply H3; auto; lia|].
  split; [intros k c Hk Hc; apply Hin; eauto|].
  intros E0 Es. destruct (H5 E0 ltac:(lia)) as (A & B & C). split; [exact A|]. split; [exact B|].
  intros c. change (in_sq sq c <-> exists k, (k < n)%nat /\ cells d get k c). rewrite <- (Hin c). apply C.
Qed.
End General.

(** ** C13 *)

(** The iterators of ZCurvePartition traverse the box, in any dimension and
    for any extents, also empty ones. *)
Theorem C13_zcurve_traversal : forall d origin dims fuel,
  length origin = S d -> length dims = S d -> Forall (fun n => 0 <= n) dims -> prod dims <= Z.of_nat fuel ->
  traverses (in_box (mkBox origin dims)) (prod dims)
    (sfc_at (zcurve (S d)) fuel origin dims 0) (sfc_next (zcurve (S d)) fuel origin) (SfcEnd origin).
Proof.
  intros d origin dims fuel Ho Hd Hp Hf. eapply (sfc_traverses d (zcurve (S d)) (good_z (S d))); auto.
  - apply zcurve_ok. lia.
  - intros sq _ _ H. discriminate H.
  - unfold good_z. auto.
Qed.
Print Assumptions C13_zcurve_traversal.

(** The regions of ZCurvePartition are disjoint, have the sizes demanded, lie
    in the box, and decompose it if the weights add up to its volume. *)
Theorem C13_zcurve : forall d origin dims offset weights fuel,
  length origin = S d -> length dims = S d -> Forall (fun n => 0 <= n) dims ->
  Forall (fun x => 0 <= x) weights -> 0 <= offset -> offset + zsum weights <= prod dims ->
  prod dims <= Z.of_nat fuel ->
  let get := zcurve_region fuel origin dims offset weights in
  let n := length weights in
  all_defined d n get /\ disjoint d n get /\
  (forall k w, nth_error weights k = Some w -> cell_count d get k (Z.to_nat w)) /\
  (forall k c, (k < n)%nat -> cells d get k c -> in_box (mkBox origin dims) c) /\
  (offset = 0 -> zsum weights = prod dims -> exact_cover d n get (in_box (mkBox origin dims))).
Proof.
  intros d origin dims offset weights fuel Ho Hd Hp Hw Hof Hs Hf get n.
  eapply (sfc_cover d (zcurve (S d)) (good_z (S d))); eauto.
  - apply zcurve_ok. lia.
  - intros sq _ _ H. discriminate H.
  - unfold good_z. auto.
  - intros k. unfold get, zcurve_region. now rewrite Hd.
Qed.
Print Assumptions C13_zcurve.

Example C13_example_2d :
  let get := zcurve_region 100 [5; 2] [3; 5] 0 [4; 0; 11] in
  exists r, get 0%nat = Some r /\ reg_count r [5; 2] = Some true /\ reg_count r [6; 2] = Some false /\ reg_count r [5; 5] = Some true.
Proof. eexists. split; [vm_compute; reflexivity|]. auto. Qed.

Example C13_example_3d :
  let get := zcurve_region 100 [0; 5; 2] [2; 3; 5] 0 [4; 0; 26] in
  exists r, get 2%nat = Some r /\ reg_count r [1; 7; 6] = Some true /\ reg_count r [0; 5; 2] = Some false.
Proof. eexists. split; [vm_compute; reflexivity|]. auto. Qed.

(** ** C14 *)

(** Static initialisation of the caches completes, and thereafter the
    iterators of HilbertPartition traverse the box. *)
Theorem C14_hilbert_traversal : forall origin dims fuel,
  length origin = 2%nat -> length dims = 2%nat -> Forall (fun n => 0 <= n) dims -> prod dims <= Z.of_nat fuel -> 256 <= Z.of_nat fuel ->
  exists cache, hilbert_fill fuel = Some cache /\
  let cv := hilbert_with 17 17 cache in
  traverses (in_box (mkBox origin dims)) (prod dims)
    (sfc_at cv fuel origin dims 0) (sfc_next cv fuel origin) (SfcEnd origin).
Proof.
  intros origin dims fuel Ho Hd Hp Hf Hf2. destruct (hilbert_fill_ok fuel Hf2) as (cache & E & Hc).
  exists cache. split; auto. eapply (sfc_traverses 1 (hilbert_with 17 17 cache) good_h); auto.
  - apply hilbert_ok.
  - apply with_cache_ok; [lia|]. exact Hc.
  - destruct origin as [|oy [|ox [|]]]; try discriminate. destruct dims as [|dy [|dx [|]]]; try discriminate.
    rewrite !Forall_cons_iff' in Hp. do 5 eexists. split; [reflexivity|]. repeat split; try tauto. lia.
Qed.
Print Assumptions C14_hilbert_traversal.

Theorem C14_hilbert : forall origin dims offset weights fuel,
  length origin = 2%nat -> length dims = 2%nat -> Forall (fun n => 0 <= n) dims ->
  Forall (fun x => 0 <= x) weights -> 0 <= offset -> offset + zsum weights <= prod dims ->
  prod dims <= Z.of_nat fuel -> 256 <= Z.of_nat fuel ->
  let get := hilbert_region fuel origin dims offset weights in
  let n := length weights in
  all_defined 1 n get /\ disjoint 1 n get /\
  (forall k w, nth_error weights k = Some w -> cell_count 1 get k (Z.to_nat w)) /\
  (forall k c, (k < n)%nat -> cells 1 get k c -> in_box (mkBox origin dims) c) /\
  (offset = 0 -> zsum weights = prod dims -> exact_cover 1 n get (in_box (mkBox origin dims))).
Proof.
  intros origin dims offset weights fuel Ho Hd Hp Hw Hof Hs Hf Hf2 get n.
  destruct (hilbert_fill_ok fuel Hf2) as (cache & E & Hc).
  eapply (sfc_cover 1 (hilbert_with 17 17 cache) good_h); eauto.
  - apply hilbert_ok.
  - apply with_cache_ok; [lia|]. exact Hc.
  - destruct origin as [|oy [|ox [|]]]; try discriminate. destruct dims as [|dy [|dx [|]]]; try discriminate.
    rewrite !Forall_cons_iff' in Hp. do 5 eexists. split; [reflexivity|]. repeat split; try tauto. lia.
  - intros k. unfold get, hilbert_region. now rewrite E.
Qed.
Print Assumptions C14_hilbert.

(** 17 x 3 exceeds the cached dimensions, its quadrants do not. *)
Example C14_example :
  let get := hilbert_region 260 [5; 2] [3; 17] 0 [20; 0; 31] in
  exists r, get 0%nat = Some r /\ reg_count r [5; 2] = Some true /\ reg_count r [6; 18] = Some false.
Proof. eexists. split; [vm_compute; reflexivity|]. auto. Qed.
