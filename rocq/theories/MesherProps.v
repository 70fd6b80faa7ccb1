(** C144-C146: cells for unstructured meshes. *)
From Coq Require Import QArith Qround Qabs.
From Coq.Floats Require Import SpecFloat.
From Verif Require Import Base RegionOpsModel CoordModel CoordSpec GridModel ParamModel MeshlessModel MeshlessFacts MesherModel MesherSpec MesherFacts.
From Coq Require Import Lqa Lia.
Open Scope Q_scope.

Lemma made n points neighbors : mesh_ok n points neighbors -> spread n points neighbors ->
  exists m, mesher_make exact n points neighbors = Some m /\ widest n (linked points neighbors) (me_cell m) /\ bounds n (fun p => In p points) (me_min m) (me_max m) /\
    (forall k, (k < n)%nat -> 0 < axis (me_cell m) k) /\ length (me_logical m) = n /\
    forall k, (k < n)%nat -> zaxis (me_logical m) k = (Qfloor ((axis (me_max m) k - axis (me_min m) k) / axis (me_cell m) k) + 1)%Z.
Proof.
  intros Hok Hs. destruct (diameter_spec n points neighbors Hok) as (d & g & lo & hi & E & Eg & Hd & Hb). unfold mesher_make. rewrite E. cbn [obind].
  assert (Hpos : forall k, (k < n)%nat -> 0 < axis d k).
  { intros k Hk. destruct Hd as [_ Hd]. destruct (Hd k Hk) as (_ & H & _). destruct (Hs k Hk) as (p & q & Hl & Hne). specialize (H p q Hl).
    apply Qlt_le_trans with (2 := H). apply Qnot_le_lt. intros H'. apply Hne. apply Qabs_Qle_condition in H'. lra. }
  pose proof Hd as [Ld _]. pose proof Hb as (L1 & L2 & Hb'). assert (Lg : length g = n) by (rewrite Eg; now apply zip_length).
  destruct (div_spec g d n Lg Ld Hpos) as (r & Er & Lr & Hr). rewrite Er. cbn [obind].
  assert (Hnn : Forall (fun x => 0 <= x) r).
  { apply axis_Forall. rewrite Lr. intros k Hk. rewrite (Hr k Hk). apply Qle_shift_div_l; [now apply Hpos|]. rewrite Qmult_0_l. rewrite Eg. unfold f_sub. rewrite (zip_axis _ hi lo n k L2 L1 Hk).
    cbn [a_sub exact]. destruct (Hb' k Hk) as (H & (a & Ha & H1) & _). specialize (H a Ha). lra. }
  rewrite (up_spec r Hnn). cbn [option_map]. eexists. split; [reflexivity|]. cbn [me_cell me_min me_max me_logical]. split; [exact Hd|]. split; [exact Hb|]. split; [exact Hpos|].
  split; [now rewrite map_length|]. intros k Hk. rewrite (zaxis_map (fun x => (Qfloor x + 1)%Z)) by lia. rewrite (Hr k Hk), Eg. unfold f_sub. rewrite (zip_axis _ hi lo n k L2 L1 Hk). reflexivity.
Qed.

Lemma located n m p : length (me_min m) = n -> length (me_cell m) = n -> (forall k, (k < n)%nat -> 0 < axis (me_cell m) k) -> length p = n ->
  exists c, logical_coord exact m p = Some c /\ length c = n /\ forall k, (k < n)%nat -> zaxis c k = Qfloor ((axis p k - axis (me_min m) k) / axis (me_cell m) k).
Proof.
  intros L1 L2 Hpos Lp. unfold logical_coord. destruct (div_spec (f_sub exact p (me_min m)) (me_cell m) n (zip_length _ _ _ n Lp L1) L2 Hpos) as (r & Er & Lr & Hr). rewrite Er. cbn [obind].
  destruct (down_spec r) as (c & Ec & ->). exists (map Qfloor r). split; [exact Ec|]. split; [now rewrite map_length|]. intros k Hk. rewrite zaxis_map by lia. rewrite (Hr k Hk).
  unfold f_sub. rewrite (zip_axis _ p (me_min m) n k Lp L1 Hk). reflexivity.
Qed.

Lemma near_axes c : forall d, length c = length d -> (forall k, (k < length c)%nat -> (zaxis c k - 1 <= zaxis d k <= zaxis c k + 1)%Z) -> near (repeat 1%Z (length c)) d c.
Proof.
  induction c as [|x c IH]; intros [|y d] L H; try discriminate; [exact I|]. cbn [length repeat near]. split; [exact (H O ltac:(cbn; lia))|].
  apply IH; [cbn in L; lia|]. intros k Hk. apply (H (S k)). cbn; lia.
Qed.

Lemma floor_close x y : Qabs (x - y) <= 1 -> (Qfloor x - 1 <= Qfloor y <= Qfloor x + 1)%Z.
Proof.
  intros H. apply Qabs_Qle_condition in H. pose proof (Qfloor_le x). pose proof (Qlt_floor x). pose proof (Qfloor_le y). pose proof (Qlt_floor y).
  assert (inject_Z (Qfloor y) < inject_Z (Qfloor x + 1 + 1)) by (rewrite (inject_Z_plus _ 1); change (inject_Z 1) with 1; lra).
  assert (inject_Z (Qfloor x) < inject_Z (Qfloor y + 1 + 1)) by (rewrite (inject_Z_plus _ 1); change (inject_Z 1) with 1; lra).
  rewrite <- Zlt_Qlt in *. lia.
Qed.

(** The mesher's cells are as small as they can be for neighbors to be found in
    adjacent cells: the points all lie within a grid of the logical dimension,
    none of whose outer columns is empty, and neighbors are at most one cell
    apart along each axis. *)
Theorem C144_mesher : forall n points neighbors, mesh_ok n points neighbors -> spread n points neighbors ->
  exists m, mesher_make exact n points neighbors = Some m /\ length (me_logical m) = n /\ length (me_cell m) = n /\
    (forall p, In p points -> exists c, logical_coord exact m p = Some c /\ in_grid (me_logical m) c) /\
    (forall p q c d, linked points neighbors p q -> logical_coord exact m p = Some c -> logical_coord exact m q = Some d -> near (repeat 1%Z n) d c) /\
    (forall k, (k < n)%nat ->
       (exists p q, linked points neighbors p q /\ axis (me_cell m) k == Qabs (axis p k - axis q k)) /\
       (exists p c, In p points /\ logical_coord exact m p = Some c /\ nth k c 0%Z = 0%Z) /\
       (exists p c, In p points /\ logical_coord exact m p = Some c /\ nth k c 0%Z = (nth k (me_logical m) 0 - 1)%Z)).
Proof.
  intros n points neighbors Hok Hs. destruct (made n points neighbors Hok Hs) as (m & E & [Ld Hd] & (L1 & L2 & Hb) & Hpos & Ll & Hl). exists m. split; [exact E|]. split; [exact Ll|]. split; [exact Ld|].
  assert (Hloc : forall p, In p points -> exists c, logical_coord exact m p = Some c /\ length c = n /\ forall k, (k < n)%nat -> zaxis c k = Qfloor ((axis p k - axis (me_min m) k) / axis (me_cell m) k)).
  { intros p Hp. apply located; auto. destruct Hok as (_ & Hlen & _). rewrite Forall_forall in Hlen. now apply Hlen. }
  split; [|split].
  - intros p Hp. destruct (Hloc p Hp) as (c & Ec & Lc & Hc). exists c. split; [exact Ec|]. apply grid_axes; [lia|]. rewrite Ll. intros k Hk. rewrite (Hc k Hk), (Hl k Hk).
    destruct (Hb k Hk) as (H & _). specialize (H p Hp). specialize (Hpos k Hk). split.
    + apply Z.le_trans with (Qfloor 0); [reflexivity|]. apply Qfloor_resp_le. apply Qle_shift_div_l; [exact Hpos|]. lra.
    + apply Z.lt_succ_r. apply Qfloor_resp_le. apply Qle_shift_div_l; [exact Hpos|].
      setoid_replace ((axis p k - axis (me_min m) k) / axis (me_cell m) k * axis (me_cell m) k) with (axis p k - axis (me_min m) k) by (field; lra). lra.
  - intros p q c d Hlk Ec Ed. pose proof Hlk as (i & ns & j & Ep & _ & _ & Eq). apply nth_error_In in Ep. apply vec_get_In in Eq.
    destruct (Hloc p Ep) as (c' & Ec' & Lc & Hc). rewrite Ec in Ec'. injection Ec' as <-. destruct (Hloc q Eq) as (d' & Ed' & Ldd & Hdd). rewrite Ed in Ed'. injection Ed' as <-.
    rewrite <- Lc. apply near_axes; [lia|]. rewrite Lc. intros k Hk. rewrite (Hc k Hk), (Hdd k Hk). apply floor_close.
    destruct (Hd k Hk) as (_ & H & _). specialize (H p q Hlk). specialize (Hpos k Hk).
    setoid_replace ((axis p k - axis (me_min m) k) / axis (me_cell m) k - (axis q k - axis (me_min m) k) / axis (me_cell m) k) with ((axis p k - axis q k) / axis (me_cell m) k) by (field; lra).
    unfold Qdiv. rewrite Qabs_Qmult. rewrite (Qabs_pos (/ axis (me_cell m) k)) by (apply Qinv_le_0_compat; lra). apply Qle_shift_div_r; [exact Hpos|]. lra.
  - intros k Hk. split; [|split].
    + destruct (Hd k Hk) as (_ & _ & [H|H]); [specialize (Hpos k Hk); lra|exact H].
    + destruct (Hb k Hk) as (_ & (a & Ha & H) & _). destruct (Hloc a Ha) as (c & Ec & _ & Hc). exists a, c. split; [exact Ha|]. split; [exact Ec|]. fold (zaxis c k). rewrite (Hc k Hk).
      rewrite (Qfloor_comp _ 0); [reflexivity|]. specialize (Hpos k Hk). setoid_replace (axis a k - axis (me_min m) k) with 0 by lra. field. lra.
    + destruct (Hb k Hk) as (_ & _ & (b & Hb' & H)). destruct (Hloc b Hb') as (c & Ec & _ & Hc). exists b, c. split; [exact Hb'|]. split; [exact Ec|]. fold (zaxis c k). fold (zaxis (me_logical m) k).
      rewrite (Hc k Hk), (Hl k Hk). rewrite (Qfloor_comp ((axis b k - axis (me_min m) k) / axis (me_cell m) k) ((axis (me_max m) k - axis (me_min m) k) / axis (me_cell m) k)) by (rewrite H; reflexivity). lia.
Qed.
Print Assumptions C144_mesher.

(** Any position belongs to the cell which covers it; lower faces are part of a
    cell, upper ones aren't. *)
Theorem C144_cells : forall n points neighbors m p, mesh_ok n points neighbors -> spread n points neighbors ->
  mesher_make exact n points neighbors = Some m -> length p = n ->
  exists c, logical_coord exact m p = Some c /\ length c = n /\
    forall k, (k < n)%nat -> axis (me_min m) k + inject_Z (nth k c 0%Z) * axis (me_cell m) k <= axis p k < axis (me_min m) k + (inject_Z (nth k c 0%Z) + 1) * axis (me_cell m) k /\
      forall q, In q points -> axis (me_min m) k <= axis q k.
Proof.
  intros n points neighbors m p Hok Hs E Lp. destruct (made n points neighbors Hok Hs) as (m' & E' & [Ld Hd] & (L1 & L2 & Hb) & Hpos & Ll & Hl). rewrite E in E'. injection E' as <-.
  destruct (located n m p L1 Ld Hpos Lp) as (c & Ec & Lc & Hc). exists c. split; [exact Ec|]. split; [exact Lc|]. intros k Hk. split; [|intros q Hq; now apply (Hb k Hk)].
  fold (zaxis c k). rewrite (Hc k Hk). specialize (Hpos k Hk). set (x := (axis p k - axis (me_min m) k) / axis (me_cell m) k). assert (Ex : axis p k == axis (me_min m) k + x * axis (me_cell m) k) by (unfold x; field; lra).
  clearbody x. pose proof (Qfloor_le x) as H1. pose proof (Qlt_floor x) as H2. rewrite inject_Z_plus in H2. change (inject_Z 1) with 1 in H2. rewrite Ex. split.
  - assert (inject_Z (Qfloor x) * axis (me_cell m) k <= x * axis (me_cell m) k) by (apply Qmult_le_compat_r; lra). lra.
  - assert (x * axis (me_cell m) k < (inject_Z (Qfloor x) + 1) * axis (me_cell m) k) by (apply Qmult_lt_compat_r; lra). lra.
Qed.
Print Assumptions C144_cells.

(** Four points, on the corners of two cells. *)
Definition ex_points : list (list Q) := [[0; 1]; [2; 3]; [4; 1]; [3#2; 7#2]].
Definition ex_neighbors : list (list Z) := [[1]; [0; 2; 3]; [1]; []]%Z.
Example ex_mesh : mesh_ok 2 ex_points ex_neighbors /\ spread 2 ex_points ex_neighbors.
Proof.
  split.
  - split; [discriminate|]. split; [repeat constructor|]. split; [cbn; lia|]. intros i p ns j E1 E2 Hj.
    do 4 (destruct i as [|i]; [cbn in E2; injection E2 as <-; cbn in Hj; repeat (destruct Hj as [<-|Hj]; [eexists; reflexivity|]); destruct Hj|]). destruct i; discriminate E2.
  - intros k Hk. exists [0; 1], [2; 3]. split; [exists O, [1]%Z, 1%Z; repeat split; now left|]. destruct k as [|[|k]]; [intros H; vm_compute in H; discriminate|intros H; vm_compute in H; discriminate|lia].
Qed.
Example ex_mesher : option_map (fun m => (me_logical m, map (logical_coord exact m) ex_points)) (mesher_make exact 2 ex_points ex_neighbors) =
  Some ([3; 2]%Z, [Some [0; 0]; Some [1; 1]; Some [2; 0]; Some [0; 1]]%Z).
Proof. vm_compute. reflexivity. Qed.

(** ** C145: doubles *)

(** The distance of two neighbors is rounded, hence it may be larger than the
    cells: their cells aren't adjacent. The points are 0, the number next to 1
    from below, and 2. *)
Definition below_one : spec_float := SFdiv 53 1024 (a_ofZ ieee (2 ^ 53 - 1)) (a_ofZ ieee (2 ^ 53)).

Theorem C145_doubles_refuted : exists points neighbors i ns j p q m c d,
  mesher_make ieee 1 points neighbors = Some m /\ nth_error points i = Some p /\ nth_error neighbors i = Some ns /\ In j ns /\ vec_get points j = Some q /\
  logical_coord ieee m p = Some c /\ logical_coord ieee m q = Some d /\ ~ near [1%Z] d c.
Proof.
  exists [[a_ofZ ieee 0]; [below_one]; [a_ofZ ieee 2]], [[1]; [0; 2]; [1]]%Z, 1%nat, [0; 2]%Z, 2%Z, [below_one], [a_ofZ ieee 2]. eexists. exists [0%Z], [2%Z].
  split; [vm_compute; reflexivity|]. split; [reflexivity|]. split; [reflexivity|]. split; [right; now left|]. split; [reflexivity|]. split; [vm_compute; reflexivity|].
  split; [vm_compute; reflexivity|]. cbn. lia.
Qed.
Print Assumptions C145_doubles_refuted.

(** ** C146: meshes parallel to an axis *)

(** If no neighbors differ along an axis, then the extent of the cells along
    this axis is 0, and the mesher divides by it. *)
Theorem C146_flat_refuted : exists points neighbors, mesh_ok 2 points neighbors /\ (exists p q, linked points neighbors p q /\ p <> q) /\ mesher_make exact 2 points neighbors = None.
Proof.
  exists [[1; 0]; [1; 3]], [[1]; [0]]%Z. split; [|split].
  - split; [discriminate|]. split; [repeat constructor|]. split; [cbn; lia|]. intros i p ns j E1 E2 Hj.
    do 2 (destruct i as [|i]; [cbn in E2; injection E2 as <-; cbn in Hj; destruct Hj as [<-|[]]; eexists; reflexivity|]). destruct i; discriminate E2.
  - exists [1; 0], [1; 3]. split; [exists O, [1]%Z, 1%Z; repeat split; now left|discriminate].
  - vm_compute. reflexivity.
Qed.
Print Assumptions C146_flat_refuted.

(** The same without any points. *)
Theorem C146_empty_refuted : exists n, mesher_make ieee n [] [] = None.
Proof. now exists 2%nat. Qed.
Print Assumptions C146_empty_refuted.
