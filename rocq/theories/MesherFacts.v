(** Lemmas about the UnstructuredGridMesher, in exact arithmetic. *)
From Coq Require Import QArith Qround Qabs.
From Verif Require Import Base RegionOpsModel CoordModel CoordSpec GridModel ParamModel ParamFacts MeshlessModel MeshlessFacts MesherModel MesherSpec.
From Coq Require Import Lqa Lia.
Open Scope Q_scope.

(** ** Rounding *)

Lemma floor_unique q z : inject_Z z <= q -> q < inject_Z (z + 1) -> Qfloor q = z.
Proof.
  intros H1 H2. pose proof (Qfloor_le q) as H3. pose proof (Qlt_floor q) as H4.
  assert (inject_Z z < inject_Z (Qfloor q + 1)) by lra. assert (inject_Z (Qfloor q) < inject_Z (z + 1)) by lra. rewrite <- Zlt_Qlt in *. lia.
Qed.

Lemma exact_le a b : a_le exact a b = true <-> a <= b.
Proof. cbn. apply Qle_bool_iff. Qed.

Lemma exact_floor q : a_floor exact q = Some (Qfloor q).
Proof.
  unfold a_floor. cbn [a_trunc exact obind a_ofZ]. f_equal. unfold qtrunc. destruct (Qle_bool 0 q) eqn:E0.
  - destruct (a_lt exact q (inject_Z (Qfloor q))) eqn:E; [|reflexivity]. apply exact_lt in E. pose proof (Qfloor_le q). lra.
  - pose proof (Qfloor_le (- q)) as H1. pose proof (Qlt_floor (- q)) as H2. rewrite inject_Z_plus in H2. change (inject_Z 1) with 1 in H2.
    symmetry. destruct (a_lt exact q (inject_Z (- Qfloor (- q)))) eqn:E.
    + apply exact_lt in E. rewrite inject_Z_opp in E. apply floor_unique; unfold Z.sub; rewrite ?inject_Z_plus, ?inject_Z_opp; change (inject_Z (-1)) with (-1); change (inject_Z 1) with 1; lra.
    + assert (inject_Z (- Qfloor (- q)) <= q) by (apply Qnot_lt_le; intros H; apply exact_lt in H; congruence). rewrite inject_Z_opp in *.
      apply floor_unique; rewrite ?inject_Z_plus, ?inject_Z_opp; change (inject_Z 1) with 1; lra.
Qed.

Lemma exact_one_half : one_half exact == 1 # 2.
Proof. reflexivity. Qed.

(** Rounding up, even if there's no remainder. *)
Lemma exact_round q : 0 <= q -> a_round exact (q + one_half exact) = Some (Qfloor q + 1)%Z.
Proof.
  intros Hq. unfold a_round. cbn [a_trunc exact obind a_ofZ a_sub]. pose proof exact_one_half as Hh. set (h := one_half exact) in *. clearbody h.
  rewrite qtrunc_nonneg by lra. f_equal. pose proof (Qfloor_le q) as H1. pose proof (Qlt_floor q) as H2. rewrite inject_Z_plus in H2. change (inject_Z 1) with 1 in H2.
  pose proof (Qfloor_le (q + h)) as H3. pose proof (Qlt_floor (q + h)) as H4. rewrite inject_Z_plus in H4. change (inject_Z 1) with 1 in H4.
  set (z := Qfloor (q + h)) in *. set (y := Qfloor q) in *. clearbody y z. change (inject_Z 0) with 0.
  destruct (a_le exact h (q + h - inject_Z z)) eqn:E.
  - apply exact_le in E. f_equal. assert (A1 : inject_Z y < inject_Z (z + 1)) by (rewrite inject_Z_plus; change (inject_Z 1) with 1; lra).
    assert (A2 : inject_Z z < inject_Z (y + 1)) by (rewrite inject_Z_plus; change (inject_Z 1) with 1; lra). rewrite <- Zlt_Qlt in A1, A2. lia.
  - assert (E' : q + h - inject_Z z < h) by (apply Qnot_le_lt; intros H; apply exact_le in H; congruence).
    destruct (a_le exact (q + h - inject_Z z) (0 - h)) eqn:E2; [apply exact_le in E2; lra|].
    assert (A1 : inject_Z y < inject_Z z) by lra. assert (A2 : inject_Z z < inject_Z (y + 1 + 1)) by (rewrite !inject_Z_plus; change (inject_Z 1) with 1; lra).
    rewrite <- Zlt_Qlt in A1, A2. lia.
Qed.

(** ** Components *)

Lemma zip_length {N} (f : N -> N -> N) a : forall b n, length a = n -> length b = n -> length (f_zip f a b) = n.
Proof. induction a as [|x a IH]; intros [|y b] n H1 H2; cbn in *; subst; try discriminate; [reflexivity|]. f_equal. apply IH; auto. Qed.

Lemma zip_axis f a : forall b n k, length a = n -> length b = n -> (k < n)%nat -> axis (f_zip f a b) k = f (axis a k) (axis b k).
Proof.
  unfold axis. induction a as [|x a IH]; intros [|y b] n k H1 H2 Hk; cbn in *; subst; try discriminate; [lia|]. destruct k as [|k]; [reflexivity|].
  apply (IH b (length a)); lia.
Qed.

Lemma max_spec x y : (a_max exact x y == x \/ a_max exact x y == y) /\ x <= a_max exact x y /\ y <= a_max exact x y.
Proof.
  unfold a_max. destruct (a_lt exact x y) eqn:E.
  - apply exact_lt in E. split; [right; reflexivity|]. split; lra.
  - assert (y <= x) by (apply Qnot_lt_le; intros H; apply exact_lt in H; congruence). split; [left; reflexivity|]. split; lra.
Qed.

Lemma min_spec x y : (a_min exact x y == x \/ a_min exact x y == y) /\ a_min exact x y <= x /\ a_min exact x y <= y.
Proof.
  unfold a_min. destruct (a_lt exact y x) eqn:E.
  - apply exact_lt in E. split; [right; reflexivity|]. split; lra.
  - assert (x <= y) by (apply Qnot_lt_le; intros H; apply exact_lt in H; congruence). split; [left; reflexivity|]. split; lra.
Qed.

(** ** The loops *)

Section Mesh.
Variable n : nat.
Variable points : list (list Q).
Variable neighbors : list (list Z).
Hypothesis Hok : mesh_ok n points neighbors.

Lemma point_length p : In p points -> length p = n.
Proof using Hok. destruct Hok as (_ & H & _). rewrite Forall_forall in H. apply H. Qed.

Lemma vec_get_In {A} (l : list A) i x : vec_get l i = Some x -> In x l.
Proof. unfold vec_get. destruct (Z.ltb i 0); [discriminate|]. apply nth_error_In. Qed.

Lemma delta_axis p q k : length p = n -> length q = n -> (k < n)%nat -> axis (f_abs exact (f_sub exact p q)) k == Qabs (axis p k - axis q k).
Proof using.
  intros Hp Hq Hk. unfold f_abs. unfold axis at 1. pose proof (zip_length (a_sub exact) p q n Hp Hq) as L. fold (f_sub exact p q) in L.
  rewrite (nth_indep _ _ (a_abs exact 0)) by (rewrite map_length; lia). rewrite map_nth. rewrite exact_abs. change (nth k (f_sub exact p q) 0) with (axis (f_sub exact p q) k).
  unfold f_sub. rewrite (zip_axis _ p q n k Hp Hq Hk). reflexivity.
Qed.

(** [d] bounds the distances of the pairs in [R] and is attained by one of
    them, or zero. *)
Definition widest (R : list Q -> list Q -> Prop) (d : list Q) : Prop :=
  length d = n /\ forall k, (k < n)%nat -> 0 <= axis d k /\ (forall p q, R p q -> Qabs (axis p k - axis q k) <= axis d k) /\
    (axis d k == 0 \/ exists p q, R p q /\ axis d k == Qabs (axis p k - axis q k)).

Lemma deltas_spec p : In p points -> forall ns R d, (forall j, In j ns -> exists q, vec_get points j = Some q) -> widest R d ->
  exists d', deltas exact points p ns d = Some d' /\ widest (fun a b => R a b \/ (a = p /\ exists j, In j ns /\ vec_get points j = Some b)) d'.
Proof using Hok.
  intros Hp ns. induction ns as [|j ns IH]; intros R d Hns Hd.
  - exists d. split; [reflexivity|]. destruct Hd as [L Hd]. split; [exact L|]. intros k Hk. destruct (Hd k Hk) as (H0 & H1 & H2). split; [exact H0|]. split.
    + intros a b [H|(_ & j & [] & _)]. now apply H1.
    + destruct H2 as [H2|(a & b & Hr & H2)]; [now left|right]. exists a, b. split; [now left|exact H2].
  - cbn [deltas]. destruct (Hns j (or_introl eq_refl)) as (q & Eq). rewrite Eq. cbn [obind].
    assert (Lp : length p = n) by now apply point_length. assert (Lq : length q = n) by (apply point_length; now apply (vec_get_In points j)).
    set (e := f_abs exact (f_sub exact p q)). assert (Le : length e = n) by (unfold e, f_abs; rewrite map_length; now apply zip_length).
    assert (Hd' : widest (fun a b => R a b \/ (a = p /\ b = q)) (f_max exact d e)).
    { destruct Hd as [L Hd]. split; [now apply zip_length|]. intros k Hk. unfold f_max. rewrite (zip_axis _ d e n k L Le Hk). destruct (Hd k Hk) as (H0 & H1 & H2).
      pose proof (delta_axis p q k Lp Lq Hk) as He. fold e in He. destruct (max_spec (axis d k) (axis e k)) as (M1 & M2 & M3). split; [lra|]. split.
      - intros a b [H|[-> ->]]; [specialize (H1 a b H); lra|lra].
      - destruct M1 as [M1|M1].
        + destruct H2 as [H2|(a & b & Hr & H2)]; [left; lra|right; exists a, b; split; [now left|lra]].
        + right. exists p, q. split; [now right|lra]. }
    destruct (IH _ _ (fun j' H => Hns j' (or_intror H)) Hd') as (d' & E & Hw). exists d'. split; [exact E|]. destruct Hw as [L Hw]. split; [exact L|].
    intros k Hk. destruct (Hw k Hk) as (H0 & H1 & H2). split; [exact H0|]. split.
    + intros a b [H|(-> & j' & [<-|Hj] & Ej)]; apply H1; [now left; left|left; right; split; congruence|right; split; [reflexivity|now exists j']].
    + destruct H2 as [H2|(a & b & Hr & H2)]; [now left|right]. exists a, b. split; [|exact H2].
      destruct Hr as [[Hr|[-> ->]]|(-> & j' & Hj & Ej)]; [now left|right; split; [reflexivity|exists j; split; [now left|exact Eq]]|right; split; [reflexivity|exists j'; split; [now right|exact Ej]]].
Qed.

(** Lower and upper bounds of the points in [P], attained. *)
Definition bounds (P : list Q -> Prop) (lo hi : list Q) : Prop :=
  length lo = n /\ length hi = n /\ forall k, (k < n)%nat -> (forall p, P p -> axis lo k <= axis p k <= axis hi k) /\
    (exists p, P p /\ axis lo k == axis p k) /\ (exists p, P p /\ axis hi k == axis p k).

Lemma extents_spec : forall ps nb R P d lo hi, (forall i p, nth_error ps i = Some p -> In p points) -> (length ps <= length nb)%nat ->
  (forall i p ns j, nth_error ps i = Some p -> nth_error nb i = Some ns -> In j ns -> exists q, vec_get points j = Some q) ->
  widest R d -> bounds P lo hi ->
  exists d' lo' hi', extents exact points ps nb (d, lo, hi) = Some (d', lo', hi') /\
    widest (fun a b => R a b \/ exists i ns j, nth_error ps i = Some a /\ nth_error nb i = Some ns /\ In j ns /\ vec_get points j = Some b) d' /\
    bounds (fun p => P p \/ In p ps) lo' hi'.
Proof using Hok.
  induction ps as [|p ps IH]; intros nb R P d lo hi Hps Hl Hnb Hd Hb.
  - exists d, lo, hi. split; [reflexivity|]. split.
    + destruct Hd as [L Hd]. split; [exact L|]. intros k Hk. destruct (Hd k Hk) as (H0 & H1 & H2). split; [exact H0|]. split.
      * intros a b [H|(i & ns & j & E & _)]; [now apply H1|destruct i; discriminate E].
      * destruct H2 as [H2|(a & b & Hr & H2)]; [now left|right]. exists a, b. split; [now left|exact H2].
    + destruct Hb as (L1 & L2 & Hb). split; [exact L1|]. split; [exact L2|]. intros k Hk. destruct (Hb k Hk) as (H1 & (a & Ha & H2) & (b & Hb' & H3)). split; [|split].
      * intros q [Hq|[]]. now apply H1.
      * exists a. auto.
      * exists b. auto.
  - destruct nb as [|ns nb]; [cbn in Hl; lia|]. cbn [extents].
    assert (Hp : In p points) by (apply (Hps O); reflexivity). pose proof (point_length p Hp) as Lp.
    destruct (deltas_spec p Hp ns R d (fun j Hj => Hnb O p ns j eq_refl eq_refl Hj) Hd) as (d1 & E1 & Hd1). rewrite E1. cbn [obind].
    assert (Hb1 : bounds (fun q => P q \/ q = p) (f_min exact lo p) (f_max exact hi p)).
    { destruct Hb as (L1 & L2 & Hb). split; [now apply zip_length|]. split; [now apply zip_length|]. intros k Hk. destruct (Hb k Hk) as (H1 & (a & Ha & H2) & (b & Hb' & H3)).
      unfold f_min, f_max. rewrite (zip_axis _ lo p n k L1 Lp Hk), (zip_axis _ hi p n k L2 Lp Hk).
      destruct (min_spec (axis lo k) (axis p k)) as (M1 & M2 & M3). destruct (max_spec (axis hi k) (axis p k)) as (M4 & M5 & M6). split; [|split].
      - intros q [Hq| ->]; [specialize (H1 q Hq); lra|lra].
      - destruct M1 as [M1|M1]; [exists a; split; [now left|lra]|exists p; split; [now right|lra]].
      - destruct M4 as [M4|M4]; [exists b; split; [now left|lra]|exists p; split; [now right|lra]]. }
    destruct (IH nb _ _ d1 _ _ (fun i q H => Hps (S i) q H) ltac:(cbn in Hl; lia) (fun i q ns' j H1 H2 H3 => Hnb (S i) q ns' j H1 H2 H3) Hd1 Hb1) as (d' & lo' & hi' & E & Hw & Hbb).
    exists d', lo', hi'. split; [exact E|]. split.
    + destruct Hw as [L Hw]. split; [exact L|]. intros k Hk. destruct (Hw k Hk) as (H0 & H1 & H2). split; [exact H0|]. split.
      * intros a b [H|(i & ns' & j & Ea & En & Hj & Ej)]; apply H1; [now left; left|]. destruct i as [|i]; cbn in Ea, En.
        -- injection Ea as <-. injection En as <-. left. right. split; [reflexivity|]. exists j. auto.
        -- right. exists i, ns', j. auto.
      * destruct H2 as [H2|(a & b & Hr & H2)]; [now left|right]. exists a, b. split; [|exact H2]. destruct Hr as [[Hr|(-> & j & Hj & Ej)]|(i & ns' & j & Ea & En & Hj & Ej)].
        -- now left.
        -- right. exists O, ns, j. auto.
        -- right. exists (S i), ns', j. auto.
    + destruct Hbb as (L1 & L2 & Hbb). split; [exact L1|]. split; [exact L2|]. intros k Hk. destruct (Hbb k Hk) as (H1 & (a & Ha & H2) & (b & Hb' & H3)). split; [|split].
      * intros q Hq. apply H1. destruct Hq as [Hq|[->|Hq]]; auto.
      * exists a. split; [|exact H2]. destruct Ha as [[Ha| ->]|Ha]; [now left|right; now left|right; now right].
      * exists b. split; [|exact H3]. destruct Hb' as [[Hx| ->]|Hx]; [now left|right; now left|right; now right].
Qed.

Lemma diameter_spec : exists d g lo hi, diameter exact n points neighbors = Some (d, g, lo, hi) /\ g = f_sub exact hi lo /\
  widest (linked points neighbors) d /\ bounds (fun p => In p points) lo hi.
Proof using Hok.
  unfold diameter. pose proof Hok as (Hne & Hlen & Hl & Hnb). destruct points as [|p0 ps] eqn:Ep; [congruence|]. rewrite <- Ep in *.
  assert (H0 : In p0 points) by (rewrite Ep; now left).
  destruct (extents_spec points neighbors (fun _ _ => False) (fun p => p = p0) (zero_coord exact n) p0 p0) as (d & lo & hi & E & Hd & Hb).
  - intros i p H. now apply nth_error_In in H.
  - exact Hl.
  - exact Hnb.
  - split; [apply repeat_length|]. intros k Hk. unfold zero_coord, axis. change (a_ofZ exact 0) with 0. rewrite nth_repeat. split; [lra|]. split; [intros ? ? []|left; lra].
  - assert (L : length p0 = n) by now apply point_length. split; [exact L|]. split; [exact L|]. intros k Hk. split; [intros p ->; lra|]. split; exists p0; split; reflexivity.
  - rewrite E. cbn [option_map]. exists d, (f_sub exact hi lo), lo, hi. split; [reflexivity|]. split; [reflexivity|]. split.
    + destruct Hd as [L Hd]. split; [exact L|]. intros k Hk. destruct (Hd k Hk) as (H1 & H2 & H3). split; [exact H1|]. split.
      * intros p q H. apply H2. right. exact H.
      * destruct H3 as [H3|(p & q & [[]|Hr] & H3)]; [now left|right; exists p, q; split; [exact Hr|exact H3]].
    + destruct Hb as (L1 & L2 & Hb). split; [exact L1|]. split; [exact L2|]. intros k Hk. destruct (Hb k Hk) as (H1 & (a & Ha & H2) & (b & Hb' & H3)). split; [|split].
      * intros p Hp. apply H1. now right.
      * exists a. split; [|exact H2]. destruct Ha as [->|Ha]; assumption.
      * exists b. split; [|exact H3]. destruct Hb' as [->|Hx]; assumption.
Qed.

End Mesh.

(** ** Coordinates *)

Lemma div_spec a : forall b n, length a = n -> length b = n -> (forall k, (k < n)%nat -> 0 < axis b k) ->
  exists r, f_div exact a b = Some r /\ length r = n /\ forall k, (k < n)%nat -> axis r k = axis a k / axis b k.
Proof.
  induction a as [|x a IH]; intros [|y b] n H1 H2 Hp; cbn [length] in *; subst; try discriminate.
  - exists []. split; [reflexivity|]. split; [reflexivity|]. intros; lia.
  - destruct (IH b (length a) eq_refl ltac:(lia)) as (r & E & L & H). { intros k Hk. apply (Hp (S k)). lia. }
    specialize (Hp O ltac:(lia)) as H0. unfold axis in H0. cbn in H0. cbn [f_div].
    assert (E0 : a_le exact y (a_ofZ exact 0) = false). { destruct (a_le exact y (a_ofZ exact 0)) eqn:E'; [|reflexivity]. apply exact_le in E'. change (a_ofZ exact 0) with 0 in E'. lra. }
    rewrite E0. cbn [andb]. rewrite E. cbn [option_map]. eexists. split; [reflexivity|]. split; [cbn; now rewrite L|]. intros [|k] Hk; [reflexivity|]. apply H. lia.
Qed.

Lemma down_spec r : exists c, rounded_down exact r = Some c /\ c = map Qfloor r.
Proof.
  induction r as [|x r (c & E & ->)]; [now exists []|]. cbn [rounded_down]. rewrite exact_floor. cbn [obind]. rewrite E. eexists. split; reflexivity.
Qed.

Lemma up_spec r : Forall (fun x => 0 <= x) r -> rounded_up exact r = Some (map (fun x => (Qfloor x + 1)%Z) r).
Proof.
  induction 1 as [|x r Hx Hr IH]; [reflexivity|]. cbn [rounded_up]. change (a_add exact x (one_half exact)) with (x + one_half exact). rewrite (exact_round x Hx). cbn [obind].
  rewrite IH. reflexivity.
Qed.

Lemma axis_Forall (P : Q -> Prop) r : (forall k, (k < length r)%nat -> P (axis r k)) -> Forall P r.
Proof.
  induction r as [|x r IH]; intros H; [constructor|]. constructor; [exact (H O ltac:(cbn; lia))|]. apply IH. intros k Hk. apply (H (S k)). cbn; lia.
Qed.

(** Coordinates componentwise. *)
Definition zaxis (c : coord) (k : nat) : Z := nth k c 0%Z.

Lemma zaxis_map (f : Q -> Z) r k : (k < length r)%nat -> zaxis (map f r) k = f (axis r k).
Proof. intros H. unfold zaxis, axis. rewrite (nth_indep _ _ (f 0)) by (now rewrite map_length). apply map_nth. Qed.

Lemma grid_axes dim : forall c, length c = length dim -> (forall k, (k < length dim)%nat -> (0 <= zaxis c k < zaxis dim k)%Z) -> in_grid dim c.
Proof.
  unfold in_grid. induction dim as [|m dim IH]; intros [|x c] L H; try discriminate; [exact I|]. cbn [map inside]. split.
  - specialize (H O ltac:(cbn; lia)). unfold zaxis in H. cbn in H. lia.
  - apply IH; [cbn in L; lia|]. intros k Hk. apply (H (S k)). cbn; lia.
Qed.
