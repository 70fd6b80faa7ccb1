(** Property C04: size, bounding box and emptiness of Region objects. *)
From Verif Require Import Base ListFacts RegionSpec RegionModel RegionRep RegionIterModel RegionStreaks
  CoordModel CoordSpec RegionOpsModel RegionOps CoordFacts RegionHistory RegionHist RegionReach
  RegionExpand RegionObjModel RegionGeometry.
From Coq Require Import Sorted.

(** Objects a program can hold: any interleaving of mutations, set
    operations, expansion, [clear] and queries ([size], [boundingBox], which
    refresh the cache). *)
Inductive object (d : nat) : region -> Prop :=
| obj_new : object d (rg_new (S d))
| obj_rop r op fuel r' : object d r -> rop_ok (S d) op -> (rop_fuel op <= fuel)%nat ->
    rg_rop fuel r op = Some r' -> object d r'
| obj_clear r : object d r -> object d (rg_clear r)
| obj_query r r' : object d r -> rg_refresh r = Some r' -> object d r'
| obj_union a b r : object d a -> object d b -> rg_union a b = Some r -> object d r
| obj_union_assign a b r : object d a -> object d b -> rg_union_assign a b = Some r -> object d r
| obj_isect a b r : object d a -> object d b -> rg_isect a b = Some r -> object d r
| obj_diff a b r : object d a -> object d b -> rg_diff a b = Some r -> object d r
| obj_expand a radii r : object d a -> length radii = S d -> Forall (fun k => 0 <= k) radii ->
    rg_expand a radii = Some r -> object d r.

Lemma object_ok d r : object d r -> rg_ok d r.
Proof.
  induction 1 as [|r op fuel r' _ IH Hop Hf E|r _ IH|r r' _ IH E|a b r _ IHa _ IHb E|a b r _ IHa _ IHb E
    |a b r _ IHa _ IHb E|a b r _ IHa _ IHb E|a radii r _ IH Hl Hp E].
  - apply rg_new_ok.
  - destruct (rg_rop_ok d r op fuel IH Hop Hf) as (r2 & E2 & H & _). congruence.
  - unfold rg_clear. rewrite (valid_length d _ (proj1 IH)). apply rg_new_ok.
  - destruct (rg_refresh_ok d r IH) as (r2 & E2 & H & _). congruence.
  - destruct (rg_union_ok d a b IHa IHb) as (r2 & E2 & H & _). congruence.
  - destruct (rg_union_assign_ok d a b IHa IHb) as (r2 & E2 & H & _). congruence.
  - destruct (rg_isect_ok d a b IHa IHb) as (r2 & E2 & H & _). congruence.
  - destruct (rg_diff_ok d a b IHa IHb) as (r2 & E2 & H & _). congruence.
  - destruct (rg_expand_ok d a radii IH Hl Hp) as (r2 & E2 & H & _). congruence.
Qed.

Lemma coord_lt_irrefl c : ~ coord_lt c c.
Proof. induction c as [|x c IH]; cbn; [tauto|]. intros [H|[_ H]]; [lia|tauto]. Qed.

Lemma sorted_NoDup l : StronglySorted coord_lt l -> NoDup l.
Proof.
  induction 1 as [|c l _ IH Hf]; constructor; auto. intros Hin. rewrite Forall_forall in Hf.
  apply (coord_lt_irrefl c). auto.
Qed.

(** Whatever happened to the object before, [size()] is the number of
    distinct contained coordinates, [boundingBox()] is the smallest box
    which contains all of them (the null box if there are none) and
    [empty()] is true iff there are none. The query does not change the
    contents. *)
Theorem C04_geometry : forall d r, object d r ->
  exists r' cs, rg_refresh r = Some r' /\ rg_idx r' = rg_idx r /\
    NoDup cs /\ (forall c, In c cs <-> length c = S d /\ reg_count (rg_idx r) c = Some true) /\
    rg_size r' = Z.of_nat (length cs) /\
    smallest_box (S d) (fun c => In c cs) (rg_box r') /\
    (cs = [] -> rg_box r' = mkBox (repeat 0 (S d)) (repeat 0 (S d))) /\
    (reg_is_empty (rg_idx r) = true <-> cs = []).
Proof.
  intros d r Ho. pose proof (object_ok d r Ho) as Hok.
  destruct (rg_refresh_ok d r Hok) as (r' & E & _ & Hi & _ & Hg).
  destruct (geometry_valid d _ (proj1 Hok)) as (b & cs & Eg & Hs & Hin & Hbox & Hnull & Hemp).
  rewrite Hg in Eg. injection Eg as <- Hsize.
  exists r', cs. split; [exact E|]. split; [exact Hi|]. split; [now apply sorted_NoDup|].
  split; [exact Hin|]. split; [exact Hsize|]. split; [|split; [exact Hnull|exact Hemp]].
  destruct Hbox as (H1 & H2 & H3 & H4). split; auto. split; auto. split.
  - intros c Hc. apply H3. now apply Hin.
  - intros b' L1 L2 Hb'. apply H4; auto. intros c Hc. apply Hb'. now apply Hin.
Qed.
Print Assumptions C04_geometry.

(** The objects hold what the operations on the coordinate sets say: the
    region inside is one the other properties speak about. *)
Theorem C04_object_contents : forall d r, object d r -> reachable d (rg_idx r).
Proof.
  intros d r H. induction H as [|r op fuel r' Ho IH Hop Hf E|r Ho IH|r r' Ho IH E|a b r Ha IHa Hb IHb E|a b r Ha IHa Hb IHb E
    |a b r Ha IHa Hb IHb E|a b r Ha IHa Hb IHb E|a radii r Ho IH Hl Hp E].
  - apply reach_new.
  - destruct (rg_rop_ok d r op fuel (object_ok d r Ho) Hop Hf) as (r2 & E2 & _ & H). rewrite E in E2. injection E2 as <-.
    eapply reach_rop; eauto.
  - cbn [rg_clear rg_idx rg_new]. rewrite (valid_length d _ (proj1 (object_ok d r Ho))). apply reach_new.
  - destruct (rg_refresh_ok d r (object_ok d r Ho)) as (r2 & E2 & _ & H & _). rewrite E in E2. injection E2 as <-. now rewrite H.
  - destruct (rg_union_ok d a b (object_ok d a Ha) (object_ok d b Hb)) as (r2 & E2 & _ & H). rewrite E in E2. injection E2 as <-.
    eapply reach_union; [exact IHa|exact IHb|exact H].
  - destruct (rg_union_assign_ok d a b (object_ok d a Ha) (object_ok d b Hb)) as (r2 & E2 & _ & H). rewrite E in E2. injection E2 as <-.
    eapply reach_union_assign; [exact IHa|exact IHb|exact H].
  - destruct (rg_isect_ok d a b (object_ok d a Ha) (object_ok d b Hb)) as (r2 & E2 & _ & H). rewrite E in E2. injection E2 as <-.
    eapply reach_isect; [exact IHa|exact IHb|exact H].
  - destruct (rg_diff_ok d a b (object_ok d a Ha) (object_ok d b Hb)) as (r2 & E2 & _ & H). rewrite E in E2. injection E2 as <-.
    eapply reach_diff; [exact IHa|exact IHb|exact H].
  - destruct (rg_expand_ok d a radii (object_ok d a Ho) Hl Hp) as (r2 & E2 & _ & H). rewrite E in E2. injection E2 as <-.
    eapply reach_expand; eauto.
Qed.
Print Assumptions C04_object_contents.

(** A stale cache would be noticed: query, then insert, then query. *)
Example C04_example :
  let a := rg_insert (rg_new 2) (mkStreak [3] 2 6) in
  exists b, rg_refresh a = Some b /\ object 1 b /\ rg_size b = 4 /\ rg_tainted b = false /\
  let c := rg_remove (rg_insert b (mkStreak [5] (-1) 3)) (mkStreak [3] 4 9) in
  object 1 c /\
  option_map (fun r => (rg_size r, rg_box r)) (rg_refresh c) = Some (6, mkBox [3; -1] [3; 5]).
Proof.
  cbv zeta. eexists. split; [vm_compute; reflexivity|]. split.
  { eapply obj_query with (r := rg_insert (rg_new 2) (mkStreak [3] 2 6)); [|vm_compute; reflexivity].
    eapply obj_rop with (op := InsStreak (mkStreak [3] 2 6)) (fuel := O); [apply obj_new|reflexivity|auto|reflexivity]. }
  split; [reflexivity|]. split; [reflexivity|]. split; [|vm_compute; reflexivity].
  eapply obj_rop with (op := RemStreak (mkStreak [3] 4 9)) (fuel := O); [|reflexivity|auto|reflexivity].
  eapply obj_rop with (op := InsStreak (mkStreak [5] (-1) 3)) (fuel := O); [|reflexivity|auto|reflexivity].
  eapply obj_query with (r := rg_insert (rg_new 2) (mkStreak [3] 2 6)); [|vm_compute; reflexivity].
  eapply obj_rop with (op := InsStreak (mkStreak [3] 2 6)) (fuel := O); [apply obj_new|reflexivity|auto|reflexivity].
Qed.
