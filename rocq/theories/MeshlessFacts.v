(** Facts on MeshlessAdapter. *)
From Coq Require Import QArith Qround Qabs.
From Verif Require Import Base RegionOpsModel CoordModel CoordSpec CoordFacts CoordProps GridModel GridSpec GridFacts ArrayModel ParamModel ParamFacts MeshlessModel MeshlessSpec.
From Coq Require Import Lia Lqa.
Open Scope Q_scope.

(** ** Cells along one axis *)

Lemma scaled_char B x : 0 < B -> 0 <= x -> let k := qtrunc (x * (inject_Z 1 / B)) in
  (0 <= k)%Z /\ inject_Z k * B <= x /\ x < (inject_Z k + 1) * B.
Proof.
  intros HB Hx k. assert (Hq : 0 <= x * (inject_Z 1 / B)).
  { apply Qmult_le_0_compat; [exact Hx|]. apply Qle_shift_div_l; [exact HB|]. change (inject_Z 1) with 1. lra. }
  assert (Ek : k = Qfloor (x * (inject_Z 1 / B))) by (apply qtrunc_nonneg, Hq).
  assert (Ex : x * (inject_Z 1 / B) * B == x) by (field; lra).
  assert (H1 : inject_Z k <= x * (inject_Z 1 / B)) by (rewrite Ek; apply Qfloor_le).
  assert (H2 : x * (inject_Z 1 / B) < inject_Z (k + 1)) by (rewrite Ek; apply Qlt_floor).
  rewrite inject_Z_plus in H2. change (inject_Z 1) with 1 in *. set (y := x * (1 / B)) in *. split; [|split].
  - rewrite Zle_Qle. apply Qle_trans with (inject_Z (Qfloor 0)); [apply Qle_refl|]. rewrite <- Zle_Qle, Ek. now apply Qfloor_resp_le.
  - rewrite <- Ex. apply Qmult_le_compat_r; lra.
  - rewrite <- Ex at 1. apply Qmult_lt_r; auto.
Qed.

Lemma Zlt_scaled B k l : 0 < B -> inject_Z k * B < inject_Z l * B -> (k < l)%Z.
Proof. intros HB H. rewrite Zlt_Qlt. apply (Qmult_lt_r _ _ B); auto. Qed.

(** Number of cells, and the cell of a position. *)
Definition axis_cells (B D : Q) : Z := Z.max 1 (qtrunc (D * (inject_Z 1 / B))).
Definition axis_cell (B D x : Q) : Z := Z.min (axis_cells B D - 1) (qtrunc (x * (inject_Z 1 / B))).

Lemma axis_cell_range B D x : 0 < B -> 0 <= x -> (0 <= axis_cell B D x < axis_cells B D)%Z.
Proof. intros HB Hx. destruct (scaled_char B x HB Hx) as [H _]. unfold axis_cell. unfold axis_cells at 1 3. unfold axis_cells. lia. Qed.

Lemma axis_near B D x y : 0 < B -> 0 <= x -> 0 <= y -> Qabs (x - y) < B -> (Z.abs (axis_cell B D x - axis_cell B D y) <= 1)%Z.
Proof.
  intros HB Hx Hy H. apply Qabs_Qlt_condition in H. unfold axis_cell.
  destruct (scaled_char B x HB Hx) as (_ & X1 & X2). destruct (scaled_char B y HB Hy) as (_ & Y1 & Y2).
  set (k := qtrunc (x * (inject_Z 1 / B))) in *. set (l := qtrunc (y * (inject_Z 1 / B))) in *.
  assert (k < l + 2)%Z by (apply (Zlt_scaled B); [exact HB|]; rewrite inject_Z_plus; change (inject_Z 2) with 2; lra).
  assert (l < k + 2)%Z by (apply (Zlt_scaled B); [exact HB|]; rewrite inject_Z_plus; change (inject_Z 2) with 2; lra).
  lia.
Qed.

Lemma axis_wrap B D x y : 0 < B -> 0 <= x -> x <= y -> y <= D -> D - (y - x) < B -> axis_cell B D x = 0%Z /\ axis_cell B D y = (axis_cells B D - 1)%Z.
Proof.
  intros HB Hx Hxy Hy H. unfold axis_cell, axis_cells.
  destruct (scaled_char B x HB Hx) as (X0 & X1 & X2). destruct (scaled_char B y HB ltac:(lra)) as (Y0 & Y1 & Y2). destruct (scaled_char B D HB ltac:(lra)) as (D0 & D1 & D2).
  set (k := qtrunc (x * (inject_Z 1 / B))) in *. set (l := qtrunc (y * (inject_Z 1 / B))) in *. set (n := qtrunc (D * (inject_Z 1 / B))) in *.
  assert (k < 1)%Z by (apply (Zlt_scaled B); [exact HB|]; change (inject_Z 1) with 1; lra).
  assert (n < l + 2)%Z by (apply (Zlt_scaled B); [exact HB|]; rewrite inject_Z_plus; change (inject_Z 2) with 2; lra).
  lia.
Qed.

(** The distance along an axis. *)
Definition axis_delta (w : bool) (D x y : Q) : Q :=
  let delta := a_abs exact (x - y) in if w then a_min exact delta (D - delta) else delta.

Lemma exact_lt a b : a_lt exact a b = true <-> a < b.
Proof. cbn [exact a_lt]. rewrite negb_true_iff. rewrite <- not_true_iff_false, Qle_bool_iff. split; [apply Qnot_le_lt|apply Qlt_not_le]. Qed.

Lemma exact_abs x : a_abs exact x == Qabs x.
Proof.
  unfold a_abs. destruct (a_lt exact x (a_ofZ exact 0)) eqn:E.
  - apply exact_lt in E. cbn in *. change (inject_Z 0) with 0 in *. rewrite Qabs_neg by lra. lra.
  - rewrite Qabs_pos; [reflexivity|]. apply Qnot_lt_le. intros H. change 0 with (a_ofZ exact 0) in H. apply exact_lt in H. congruence.
Qed.

Lemma axis_delta_cases (w : bool) D x y : (axis_delta w D x y == Qabs (x - y) /\ (w = true -> Qabs (x - y) <= D - Qabs (x - y))) \/
  (w = true /\ axis_delta w D x y == D - Qabs (x - y) /\ D - Qabs (x - y) < Qabs (x - y)).
Proof.
  unfold axis_delta. pose proof (exact_abs (x - y)) as E. destruct w; [|left; split; [exact E|discriminate]].
  unfold a_min. destruct (a_lt exact (D - a_abs exact (x - y)) (a_abs exact (x - y))) eqn:L.
  - apply exact_lt in L. right. split; [reflexivity|]. rewrite E in *. split; [reflexivity|exact L].
  - left. split; [exact E|]. intros _. rewrite <- E. apply Qnot_lt_le. intros H. apply exact_lt in H. congruence.
Qed.

Lemma axis_delta_nonneg w D x y : 0 <= x <= D -> 0 <= y <= D -> 0 <= axis_delta w D x y.
Proof.
  intros Hx Hy. pose proof (Qabs_nonneg (x - y)) as H0. assert (H1 : Qabs (x - y) <= D) by (apply Qabs_Qle_condition; lra).
  destruct (axis_delta_cases w D x y) as [[E _]|(_ & E & _)]; rewrite E; lra.
Qed.

(** Cells of positions close to each other are neighbours. *)
Lemma axis_neighbor w B D x y : 0 < B -> 0 <= x <= D -> 0 <= y <= D -> axis_delta w D x y < B ->
  exists o, (-1 <= o <= 1)%Z /\ (if w then ((axis_cell B D x + o) mod axis_cells B D = axis_cell B D y)%Z else (axis_cell B D x + o = axis_cell B D y)%Z).
Proof.
  intros HB Hx Hy H. pose proof (axis_cell_range B D x HB ltac:(lra)) as Rx. pose proof (axis_cell_range B D y HB ltac:(lra)) as Ry.
  destruct (axis_delta_cases w D x y) as [[E _]|(Ew & E & L)]; rewrite E in H.
  - pose proof (axis_near B D x y HB ltac:(lra) ltac:(lra) H) as N. exists (axis_cell B D y - axis_cell B D x)%Z. split; [lia|].
    replace (axis_cell B D x + (axis_cell B D y - axis_cell B D x))%Z with (axis_cell B D y) by lia. destruct w; [apply Z.mod_small; lia|reflexivity].
  - subst w. destruct (Qlt_le_dec y x) as [Hlt|Hle].
    + rewrite Qabs_pos in H by lra. destruct (axis_wrap B D y x HB ltac:(lra) ltac:(lra) ltac:(lra) ltac:(lra)) as [E1 E2].
      exists 1%Z. split; [lia|]. rewrite E1, E2. replace (axis_cells B D - 1 + 1)%Z with (axis_cells B D) by lia. apply Z.mod_same. lia.
    + rewrite Qabs_neg in H by lra. destruct (axis_wrap B D x y HB ltac:(lra) ltac:(lra) ltac:(lra) ltac:(lra)) as [E1 E2].
      exists (-1)%Z. split; [lia|]. rewrite E1, E2. symmetry. apply Z.mod_unique with (-1)%Z; lia.
Qed.

(** ** Distances *)

Lemma axis_image w D x y k : 0 <= x <= D -> 0 <= y <= D -> w = true \/ k = 0%Z -> let e := x - y + inject_Z k * D in axis_delta w D x y * axis_delta w D x y <= e * e.
Proof.
  intros Hx Hy Hk e. pose proof (axis_delta_nonneg w D x y Hx Hy) as H0. assert (HD : 0 <= D) by lra.
  assert (Ha : axis_delta w D x y <= Qabs e).
  { assert (Hd : axis_delta w D x y <= Qabs (x - y) /\ (w = true -> axis_delta w D x y <= D - Qabs (x - y))).
    { destruct (axis_delta_cases w D x y) as [[E L]|(_ & E & L)]; rewrite E; split; intros; try lra. now apply L. }
    destruct Hd as [Hd1 Hd2]. destruct (Z.eq_dec k 0) as [->|Hn].
    - apply Qle_trans with (Qabs (x - y)); [exact Hd1|]. unfold e. change (inject_Z 0) with 0.
      assert (E : x - y + 0 * D == x - y) by lra. rewrite E. apply Qle_refl.
    - destruct Hk as [->|Hk]; [|congruence]. specialize (Hd2 eq_refl).
      destruct (Z_lt_le_dec 0 k) as [Hp|Hnp].
      + assert (1 <= inject_Z k) by (change 1 with (inject_Z 1); rewrite <- Zle_Qle; lia).
        assert (D <= inject_Z k * D) by (assert (0 <= (inject_Z k - 1) * D) by (apply Qmult_le_0_compat; lra); lra). apply Qle_trans with e; [|apply Qle_Qabs]. unfold e.
        pose proof (proj1 (Qabs_Qle_condition (x - y) (Qabs (x - y))) (Qle_refl _)). lra.
      + assert (inject_Z k <= -1) by (change (-1) with (inject_Z (-1)); rewrite <- Zle_Qle; lia).
        assert (inject_Z k * D <= - D) by (assert (0 <= (-1 - inject_Z k) * D) by (apply Qmult_le_0_compat; lra); lra). apply Qle_trans with (- e); [|rewrite <- Qabs_opp; apply Qle_Qabs]. unfold e.
        assert (x - y <= Qabs (x - y)) by apply Qle_Qabs. lra. }
  assert (Hs : Qabs e * Qabs e == e * e).
  { rewrite <- Qabs_Qmult. apply Qabs_pos. nra. }
  rewrite <- Hs. nra.
Qed.

Lemma axis_attained w D x y : 0 <= x <= D -> 0 <= y <= D -> exists k, (w = true \/ k = 0%Z) /\ let e := x - y + inject_Z k * D in axis_delta w D x y * axis_delta w D x y == e * e.
Proof.
  intros Hx Hy. assert (Hs : forall e, Qabs e * Qabs e == e * e) by (intros e; rewrite <- Qabs_Qmult; apply Qabs_pos; nra).
  destruct (axis_delta_cases w D x y) as [[E _]|(Ew & E & L)].
  - exists 0%Z. split; [now right|]. cbv zeta. rewrite E, Hs. change (inject_Z 0) with 0. ring.
  - destruct (Qlt_le_dec y x) as [Hlt|Hle].
    + exists (-1)%Z. split; [now left|]. cbv zeta. rewrite E. rewrite Qabs_pos by lra. change (inject_Z (-1)) with (-1). ring.
    + exists 1%Z. split; [now left|]. cbv zeta. rewrite E. rewrite Qabs_neg by lra. change (inject_Z 1) with 1. ring.
Qed.

Lemma distance2_cons w t d dims x p y q : distance2 exact (w :: t) (d :: dims) (x :: p) (y :: q) =
  distance2 exact t dims p q + axis_delta w d x y * axis_delta w d x y.
Proof. reflexivity. Qed.

Lemma distance2_spec t : forall dims p q, length t = length dims -> in_space dims p -> in_space dims q ->
  (forall ks, repeats t ks -> distance2 exact t dims p q <= image_distance2 dims p q ks) /\
  exists ks, repeats t ks /\ distance2 exact t dims p q == image_distance2 dims p q ks.
Proof.
  induction t as [|w t IH]; intros [|d dims] [|x p] [|y q] Hl Hp Hq; try discriminate; try (now destruct Hp); try (now destruct Hq).
  - split; [intros; apply Qle_refl|]. exists []. split; [constructor|reflexivity].
  - destruct Hp as [Hx Hp], Hq as [Hy Hq]. destruct (IH dims p q ltac:(now injection Hl) Hp Hq) as [I1 (ks & I2 & I3)]. rewrite distance2_cons. split.
    + intros [|k ks'] Hr; inversion Hr; subst. cbn [image_distance2]. pose proof (axis_image w d x y k Hx Hy ltac:(assumption)) as H. cbv zeta in H.
      pose proof (I1 ks' ltac:(assumption)). lra.
    + destruct (axis_attained w d x y Hx Hy) as (k & Hk & E). exists (k :: ks). split; [constructor; auto|]. cbn [image_distance2]. rewrite E, I3. ring.
Qed.

Lemma distance2_closer t dims b p q : length t = length dims -> in_space dims p -> in_space dims q ->
  (a_lt exact (distance2 exact t dims p q) (b * b) = true <-> closer t dims b p q).
Proof.
  intros Hl Hp Hq. destruct (distance2_spec t dims p q Hl Hp Hq) as [I1 (ks & I2 & I3)]. rewrite exact_lt. split.
  - intros H. exists ks. split; [exact I2|]. now rewrite <- I3.
  - intros (ks' & Hr & H). eapply Qle_lt_trans; [apply I1; exact Hr|exact H].
Qed.

Lemma distance2_nonneg t : forall dims p q, 0 <= distance2 exact t dims p q.
Proof.
  induction t as [|w t IH]; intros [|d dims] [|x p] [|y q]; try (cbn; apply Qle_refl). rewrite distance2_cons. specialize (IH dims p q).
  assert (forall z : Q, 0 <= z * z) by (intros; nra). specialize (H (axis_delta w d x y)). lra.
Qed.

(** ** Adapters *)

Definition adapter_of (dims : list Q) (b : Q) : adapter Q := mkAdapter dims (map (axis_cells b) dims) (inject_Z 1 / b) (b * b) b.

Lemma disc_exact dims b : disc_dims exact dims (inject_Z 1 / b) = Some (map (axis_cells b) dims).
Proof. induction dims as [|d dims IH]; [reflexivity|]. cbn [disc_dims]. rewrite IH. reflexivity. Qed.

Lemma reset_exact dims b : reset_box exact dims b = Some (if (prod (map (axis_cells b) dims) >? MAX_SIZE)%Z then Threw (adapter_of dims b) else Done (adapter_of dims b)).
Proof. unfold reset_box. cbn [exact a_div a_ofZ a_mul]. rewrite disc_exact. reflexivity. Qed.

Lemma reset_done dims b a : reset_box exact dims b = Some (Done a) -> a = adapter_of dims b.
Proof. rewrite reset_exact. destruct (_ >? _)%Z; intros H; [discriminate|]. now injection H. Qed.

Fixpoint cells (b : Q) (dims p : list Q) : coord :=
  match dims, p with d :: dims', x :: p' => axis_cell b d x :: cells b dims' p' | _, _ => [] end.

Lemma in_space_length dims : forall p, in_space dims p -> length p = length dims.
Proof. induction dims as [|d dims IH]; intros [|x p] H; try (now destruct H). cbn. f_equal. apply IH, H. Qed.

Lemma pos_exact dims b : forall p, length p = length dims -> pos_to_coord exact (adapter_of dims b) p = Some (cells b dims p).
Proof.
  unfold pos_to_coord. cbn [adapter_of ma_disc ma_scale]. induction dims as [|d dims IH]; intros [|x p] H; try discriminate; [reflexivity|].
  cbn [map pos_axes]. cbn [exact a_trunc a_mul obind]. rewrite IH by (now injection H). reflexivity.
Qed.

Lemma cells_in_grid b dims : 0 < b -> forall p, in_space dims p -> in_grid (map (axis_cells b) dims) (cells b dims p).
Proof.
  intros Hb. induction dims as [|d dims IH]; intros [|x p] H; try (now destruct H).
  cbn [map cells]. apply in_grid_cons. split; [apply axis_cell_range; [exact Hb|apply H]|]. apply IH, H.
Qed.

Lemma disc_pos b dims : allpos (map (axis_cells b) dims).
Proof. apply Forall_forall. intros n Hn. apply in_map_iff in Hn. destruct Hn as (d & <- & _). unfold axis_cells. lia. Qed.

Lemma cells_length b dims : forall p, length p = length dims -> length (cells b dims p) = length dims.
Proof. induction dims as [|d dims IH]; intros [|x p] H; try discriminate; [reflexivity|]. cbn. f_equal. apply IH. now injection H. Qed.

Lemma cells_neighbor b t : 0 < b -> forall dims p q, length t = length dims -> in_space dims p -> in_space dims q ->
  distance2 exact t dims p q < b * b ->
  exists off, in_box (search_box (length dims)) off /\ denotes t (map (axis_cells b) dims) (zadd (cells b dims p) off) = Some (cells b dims q).
Proof.
  intros Hb. induction t as [|w t IH]; intros [|d dims] [|x p] [|y q] Hl Hp Hq H; try discriminate; try (now destruct Hp); try (now destruct Hq).
  - exists []. split; [exact Logic.I|reflexivity].
  - destruct Hp as [Hx Hp], Hq as [Hy Hq]. rewrite distance2_cons in H. pose proof (distance2_nonneg t dims p q) as H0.
    pose proof (axis_delta_nonneg w d x y Hx Hy) as H1.
    assert (S2 : 0 <= axis_delta w d x y * axis_delta w d x y) by (apply Qmult_le_0_compat; exact H1).
    destruct (IH dims p q ltac:(now injection Hl) Hp Hq ltac:(lra)) as (off & Ho & E).
    assert (Hd : axis_delta w d x y < b). { apply Qnot_le_lt. intros Hle. assert (b * b <= axis_delta w d x y * axis_delta w d x y) by nra. lra. }
    destruct (axis_neighbor w b d x y Hb Hx Hy Hd) as (o & Ho1 & Eo). exists (o :: off). split.
    + unfold in_box, search_box, diagonal in *. cbn [b_origin b_dim length repeat inside] in *. split; [lia|exact Ho].
    + cbn [map cells zadd denotes]. rewrite E. pose proof (axis_cell_range b d y Hb ltac:(lra)) as Ry. destruct w; [now rewrite Eo|].
      rewrite Eo. destruct (Z.leb_spec 0 (axis_cell b d y)); [|lia]. destruct (Z.ltb_spec (axis_cell b d y) (axis_cells b d)); [reflexivity|lia].
Qed.

Lemma around_close b dims : 0 < b -> forall p off, in_space dims p -> in_box (search_box (length dims)) off ->
  close_by (map (axis_cells b) dims) (zadd (cells b dims p) off).
Proof.
  intros Hb. induction dims as [|d dims IH]; intros [|x p] [|o off] Hp Ho; try (now destruct Hp); try (now destruct Ho).
  destruct Hp as [Hx Hp]. unfold in_box, search_box, diagonal in Ho. cbn [b_origin b_dim length repeat inside] in Ho. destruct Ho as [Ho1 Ho].
  pose proof (axis_cell_range b d x Hb ltac:(lra)) as Rx. cbn [map cells zadd close_by]. split; [lia|]. apply IH; auto.
Qed.

(** ** Grids of vertices *)

Definition here (b : Q) (dims : list Q) (vs : list (list Q * Z)) (pl : place) : list (list Q * Z) :=
  match pl with
  | Some c => filter (fun v => CoordModel.coord_eqb (cells b dims (fst v)) c) vs
  | None => []
  end.

Lemma ceqb_spec (a : coord) : forall b, CoordModel.coord_eqb a b = true <-> a = b.
Proof.
  induction a as [|x a IH]; intros [|y b]; cbn; try (split; congruence).
  rewrite andb_true_iff, Z.eqb_eq, IH. split; [intros [-> ->]; reflexivity|intros E; injection E; auto].
Qed.

Lemma mesh_inserts_rep t dims b : 0 < b -> length t = length dims -> forall vs done g,
  Forall (fun v => in_space dims (fst v)) vs -> rep (map (axis_cells b) dims) g (here b dims done) ->
  exists g', mesh_inserts exact t (adapter_of dims b) g vs = Some g' /\ rep (map (axis_cells b) dims) g' (here b dims (done ++ vs)).
Proof.
  intros Hb Hl. assert (Hl' : length t = length (map (axis_cells b) dims)) by now rewrite map_length.
  induction vs as [|[p id] vs IH]; intros done g Hvs R.
  - exists g. split; [reflexivity|]. now rewrite app_nil_r.
  - inversion Hvs as [|? ? Hp Hvs']; subst. cbn [fst] in Hp. cbn [mesh_inserts fst snd]. unfold mesh_insert. rewrite pos_exact by now apply in_space_length. cbn [obind].
    pose proof (cells_in_grid b dims Hb p Hp) as Hg. pose proof (in_grid_close _ _ (disc_pos b dims) Hg) as Hc.
    rewrite (rep_get t _ Hl' (disc_pos b dims) g _ _ R Hc). cbn [obind]. rewrite (denotes_self t _ _ Hl' (disc_pos b dims) Hg).
    destruct (rep_set t _ Hl' (disc_pos b dims) g _ _ (here b dims done (Some (cells b dims p)) ++ [(p, id)]) R Hc) as (g1 & E1 & R1). rewrite E1. cbn [obind].
    destruct (IH (done ++ [(p, id)]) g1 Hvs') as (g' & E & R').
    + eapply rep_ext; [exact R1|]. intros pl. rewrite (denotes_self t _ _ Hl' (disc_pos b dims) Hg). unfold upd.
      destruct (place_dec (Some (cells b dims p)) pl) as [<-|Hn].
      * cbn [here]. rewrite filter_app. f_equal. cbn [filter fst]. now rewrite (proj2 (ceqb_spec _ _) eq_refl).
      * destruct pl as [c|]; [|reflexivity]. cbn [here]. rewrite filter_app. cbn [filter fst].
        destruct (CoordModel.coord_eqb (cells b dims p) c) eqn:Ec; [apply ceqb_spec in Ec; congruence|]. now rewrite app_nil_r.
    + exists g'. split; [exact E|]. rewrite <- app_assoc in R'. exact R'.
Qed.

Lemma mesh_grid_rep dims b : rep (map (axis_cells b) dims) (mesh_grid (adapter_of dims b)) (here b dims []).
Proof.
  eapply rep_ext; [apply (rep_make (map (fun _ => false) dims) (map (axis_cells b) dims) ltac:(now rewrite !map_length) (disc_pos b dims))|]. intros [c|]; reflexivity.
Qed.

Lemma search_cells_spec t dims b g f p : length t = length dims -> rep (map (axis_cells b) dims) g f -> forall cs, Forall (close_by (map (axis_cells b) dims)) cs ->
  exists found ids, search_cells exact t (adapter_of dims b) g p cs = Some (found, ids) /\
    (forall id, In id ids <-> exists c q, In c cs /\ In (q, id) (f (denotes t (map (axis_cells b) dims) c)) /\ distance2 exact t dims p q < b * b) /\
    (found = true <-> ids <> []).
Proof.
  intros Hl R. assert (Hl' : length t = length (map (axis_cells b) dims)) by now rewrite map_length.
  induction 1 as [|c cs Hc _ IH].
  - exists false, []. split; [reflexivity|]. split; [intros id; split; [intros []|intros (c & q & [] & _)]|split; congruence].
  - destruct IH as (found & ids & E & Hi & Hf). cbn [search_cells]. rewrite (rep_get t _ Hl' (disc_pos b dims) g f c R Hc). cbn [obind]. unfold search_list. cbn [adapter_of ma_dims ma_radius2].
    set (hits := filter _ _). assert (Hh : forall q id, In (q, id) hits <-> In (q, id) (f (denotes t (map (axis_cells b) dims) c)) /\ distance2 exact t dims p q < b * b).
    { intros q id. unfold hits. rewrite filter_In. cbn [fst]. now rewrite exact_lt. }
    cbn beta iota zeta. rewrite E. cbn [option_map fst snd]. eexists _, _. split; [reflexivity|]. split.
    + intros id. rewrite in_app_iff, Hi, in_map_iff. split.
      * intros [([q id'] & Ei & Hq)|(c' & q & Hc' & Hq)]; [|exists c', q; split; [now right|exact Hq]].
        cbn in Ei. subst id'. apply Hh in Hq. exists c, q. split; [now left|exact Hq].
      * intros (c' & q & [<-|Hc'] & Hq); [left; exists (q, id); split; [reflexivity|now apply Hh]|right; eauto].
    + destruct hits as [|v hits]; cbn [length Nat.eqb negb orb map app]; [exact Hf|]. split; [discriminate|reflexivity].
Qed.

Lemma search_box_regular n : n <> O -> box_regular n (search_box n).
Proof.
  intros Hn. unfold box_regular, search_box, diagonal. cbn [b_origin b_dim]. rewrite !repeat_length. split; [reflexivity|]. split; [reflexivity|].
  destruct n as [|n]; [congruence|]. cbn [repeat]. split; [lia|]. apply Forall_forall. intros x Hx. apply repeat_spec in Hx. lia.
Qed.

Lemma mesh_search_spec t dims b vs g p : dims <> [] -> 0 < b -> length t = length dims -> Forall (fun v => in_space dims (fst v)) vs -> in_space dims p ->
  rep (map (axis_cells b) dims) g (here b dims vs) ->
  exists found ids, mesh_search exact t (adapter_of dims b) g p = Some (found, ids) /\
    (forall id, In id ids <-> exists q, In (q, id) vs /\ distance2 exact t dims p q < b * b) /\ (found = true <-> ids <> []).
Proof.
  intros Hne Hb Hl Hvs Hp R. unfold mesh_search. rewrite pos_exact by now apply in_space_length. cbn [obind]. rewrite cells_length by now apply in_space_length.
  assert (Hn : length dims <> O) by (destruct dims; [congruence|discriminate]).
  destruct (length dims) as [|n] eqn:En; [congruence|]. destruct (C10_box_iteration n (search_box (S n)) (search_box_regular (S n) Hn)) as (l & Hr & _ & _ & Hin).
  rewrite (Hr _ (Nat.le_refl _)). cbn [obind]. rewrite <- En in *.
  assert (Hc : Forall (close_by (map (axis_cells b) dims)) (map (zadd (cells b dims p)) l)).
  { apply Forall_forall. intros c Hc. apply in_map_iff in Hc. destruct Hc as (o & <- & Ho). apply around_close; auto. now apply Hin. }
  destruct (search_cells_spec t dims b g _ p ltac:(congruence) R _ Hc) as (found & ids & E & Hi & Hf). exists found, ids. split; [exact E|]. split; [|exact Hf].
  intros id. rewrite Hi. split.
  - intros (c & q & _ & Hq & Hd). exists q. split; [|exact Hd]. unfold here in Hq. destruct (denotes _ _ _); [|destruct Hq]. apply filter_In in Hq. apply Hq.
  - intros (q & Hq & Hd). rewrite Forall_forall in Hvs. destruct (cells_neighbor b t Hb dims p q ltac:(congruence) Hp (Hvs _ Hq) Hd) as (off & Ho & E').
    exists (zadd (cells b dims p) off), q. split; [apply in_map; now apply Hin|]. split; [|exact Hd]. rewrite E'. cbn [here]. apply filter_In. split; [exact Hq|]. now apply ceqb_spec.
Qed.

(** ** Checking box sizes *)

Lemma vec_get_some {C} (l : list C) n : (0 <= n < Z.of_nat (length l))%Z -> exists v, vec_get l n = Some v.
Proof.
  intros H. unfold vec_get. destruct (Z.ltb_spec n 0); [lia|]. destruct (nth_error l (Z.to_nat n)) as [v|] eqn:E; [eauto|]. apply nth_error_None in E. lia.
Qed.

Lemma check_edges_exact t dims b ps p ns : Forall (fun v => in_space dims (fst v)) ps -> in_space dims p -> Forall (fun n => 0 <= n < Z.of_nat (length ps))%Z ns ->
  exists ok, check_edges exact t (adapter_of dims b) ps p ns = Some ok /\
    (ok = true <-> forall n w, In n ns -> vec_get ps n = Some w -> (cell_distance t (map (axis_cells b) dims) (cells b dims p) (cells b dims (fst w)) <= 1)%Z).
Proof.
  intros Hps Hp. induction 1 as [|n ns Hn _ IH].
  - exists true. split; [reflexivity|]. split; [intros _ n w []|reflexivity].
  - destruct IH as (ok & E & Hok). destruct (vec_get_some ps n Hn) as (q & Eq). assert (Hq : in_space dims (fst q)).
    { unfold vec_get in Eq. destruct (n <? 0)%Z; [discriminate|]. apply nth_error_In in Eq. rewrite Forall_forall in Hps. now apply Hps. }
    cbn [check_edges]. rewrite Eq. cbn [obind]. rewrite pos_exact by now apply in_space_length. cbn [obind]. rewrite pos_exact by now apply in_space_length. cbn [obind].
    change (ma_disc (adapter_of dims b)) with (map (axis_cells b) dims).
    rewrite Z.gtb_ltb. destruct (Z.ltb_spec 1 (cell_distance t (map (axis_cells b) dims) (cells b dims p) (cells b dims (fst q)))).
    + exists false. split; [reflexivity|]. split; [discriminate|]. intros H'. specialize (H' n q (or_introl eq_refl) Eq). lia.
    + exists ok. split; [exact E|]. rewrite Hok. split.
      * intros H' n' w [<-|Hi] Ew; [rewrite Eq in Ew; injection Ew as <-; lia|eauto].
      * intros H' n' w Hi Ew. apply (H' n' w); [now right|exact Ew].
Qed.

Lemma check_from_exact t dims b ps : Forall (fun v => in_space dims (fst v)) ps -> forall graph i, (0 <= i)%Z -> (Z.to_nat i + length graph <= length ps)%nat ->
  Forall (Forall (fun n => 0 <= n < Z.of_nat (length ps))%Z) graph ->
  exists ok, check_from exact t (adapter_of dims b) ps graph i = Some ok /\
    (ok = true <-> forall k ns n v w, nth_error graph k = Some ns -> In n ns -> nth_error ps (Z.to_nat i + k) = Some v -> vec_get ps n = Some w ->
      (cell_distance t (map (axis_cells b) dims) (cells b dims (fst v)) (cells b dims (fst w)) <= 1)%Z).
Proof.
  intros Hps. induction graph as [|ns graph IH]; intros i Hi Hl Hg.
  - exists true. split; [reflexivity|]. split; [intros _ [|k] ? ? ? ? E; discriminate|reflexivity].
  - inversion Hg as [|? ? Hns Hg']; subst. cbn [length] in Hl. destruct (IH (i + 1)%Z ltac:(lia) ltac:(lia) Hg') as (ok & E & Hok).
    destruct (vec_get_some ps i ltac:(lia)) as (p & Ep). assert (Ep' : nth_error ps (Z.to_nat i) = Some p) by (unfold vec_get in Ep; destruct (i <? 0)%Z; [discriminate|exact Ep]).
    assert (Hp : in_space dims (fst p)) by (rewrite Forall_forall in Hps; apply Hps; now apply nth_error_In in Ep').
    destruct (check_edges_exact t dims b ps (fst p) ns Hps Hp Hns) as (ok1 & E1 & Hok1).
    assert (E2 : match ns with [] => Some true | _ => obind (vec_get ps i) (fun p => check_edges exact t (adapter_of dims b) ps (fst p) ns) end = Some ok1).
    { destruct ns; [cbn in E1; congruence|]. rewrite Ep. exact E1. }
    cbn [check_from]. rewrite E2. cbn [obind]. destruct ok1.
    + exists ok. split; [exact E|]. rewrite Hok. split.
      * intros H [|k] ns' n v w En Hin Ev Ew.
        -- cbn in En. injection En as <-. rewrite Nat.add_0_r in Ev. rewrite Ep' in Ev. injection Ev as <-. now apply (proj1 Hok1 eq_refl n w).
        -- apply (H k ns' n v w); auto. now replace (Z.to_nat (i + 1) + k)%nat with (Z.to_nat i + S k)%nat by lia.
      * intros H k ns' n v w En Hin Ev Ew. apply (H (S k) ns' n v w); auto. now replace (Z.to_nat i + S k)%nat with (Z.to_nat (i + 1) + k)%nat by lia.
    + exists false. split; [reflexivity|]. split; [discriminate|]. intros H. apply Hok1. intros n w Hin Ew. apply (H 0%nat ns n p w); auto. now rewrite Nat.add_0_r.
Qed.

(** Neighbouring cells. *)
Definition adjacent_cells (t : topology) (disc c d : coord) : Prop := exists off, in_box (search_box (length disc)) off /\ denotes t disc (zadd c off) = Some d.

Lemma cell_distance_adjacent t : forall disc c d, length t = length disc -> in_grid disc c -> in_grid disc d ->
  ((cell_distance t disc c d <= 1)%Z <-> adjacent_cells t disc c d).
Proof.
  induction t as [|w t IH]; intros [|n disc] c d Hl Hc Hd; try discriminate.
  - destruct c; [|destruct Hc]. destruct d; [|destruct Hd]. split; [|intros _; cbn; lia]. intros _. exists []. split; [exact Logic.I|reflexivity].
  - destruct c as [|x c]; [destruct Hc|]. destruct d as [|y d]; [destruct Hd|]. apply in_grid_cons in Hc. apply in_grid_cons in Hd. destruct Hc as [Hx Hc], Hd as [Hy Hd].
    specialize (IH disc c d ltac:(now injection Hl) Hc Hd). cbn [cell_distance]. split.
    + intros H. destruct (proj1 IH ltac:(lia)) as (off & Ho & E).
      assert (Hax : exists o, (-1 <= o <= 1)%Z /\ (if w then ((x + o) mod n = y)%Z else (x + o = y)%Z)).
      { destruct (Z_le_dec (Z.abs (x - y)) 1) as [H1|H1].
        - exists (y - x)%Z. split; [lia|]. replace (x + (y - x))%Z with y by lia. destruct w; [apply Z.mod_small; lia|reflexivity].
        - destruct w; [|lia]. destruct (Z_lt_le_dec x y).
          + exists (-1)%Z. split; [lia|]. symmetry. apply Z.mod_unique with (-1)%Z; lia.
          + exists 1%Z. split; [lia|]. replace (x + 1)%Z with n by lia. rewrite Z.mod_same by lia. lia. }
      destruct Hax as (o & Ho1 & Eo). exists (o :: off). split.
      * unfold in_box, search_box, diagonal in *. cbn [b_origin b_dim length repeat inside] in *. split; [lia|exact Ho].
      * cbn [zadd denotes]. rewrite E. destruct w; [now rewrite Eo|]. rewrite Eo. destruct (Z.leb_spec 0 y); [|lia]. destruct (Z.ltb_spec y n); [reflexivity|lia].
    + intros ([|o off] & Ho & E); [destruct Ho|]. unfold in_box, search_box, diagonal in Ho. cbn [b_origin b_dim length repeat inside] in Ho. destruct Ho as [Ho1 Ho].
      cbn [zadd denotes] in E. destruct (denotes t disc (zadd c off)) as [r|] eqn:Er; [|discriminate].
      assert (Hr : r = d /\ if w then ((x + o) mod n = y)%Z else (x + o = y)%Z).
      { destruct w; [injection E as E1 E2; auto|]. destruct ((0 <=? x + o)%Z && (x + o <? n)%Z); [injection E as E1 E2; auto|discriminate]. }
      destruct Hr as [-> Hr]. assert (cell_distance t disc c d <= 1)%Z by (apply IH; exists off; split; [exact Ho|exact Er]).
      destruct w; [|lia]. assert (C : (x + o = -1 \/ x + o = n \/ 0 <= x + o < n)%Z) by lia. destruct C as [C|[C|C]].
      * assert (y = n - 1)%Z by (rewrite <- Hr; symmetry; apply Z.mod_unique with (-1)%Z; lia). clear - Hx H H0 C Ho1. lia.
      * rewrite C, Z.mod_same in Hr by lia. clear - Hx H Hr C Ho1. lia.
      * rewrite Z.mod_small in Hr by lia. clear - H Hr Ho1. lia.
Qed.

Lemma vec_get_nth {C} (l : list C) n v : vec_get l n = Some v <-> (0 <= n)%Z /\ nth_error l (Z.to_nat n) = Some v.
Proof. unfold vec_get. destruct (Z.ltb_spec n 0); split; [discriminate|lia|auto|tauto]. Qed.

Lemma adjacent_box t disc c d : adjacent_cells t disc c d <-> adjacent t disc c d.
Proof.
  assert (H : forall (disc off : coord), in_box (search_box (length disc)) off <-> length off = length disc /\ Forall (fun o => -1 <= o <= 1)%Z off).
  { clear. induction disc as [|n disc IH]; intros [|o off].
    - split; [intros _; split; [reflexivity|constructor]|intros _; exact Logic.I].
    - split; [intros []|intros [H _]; discriminate].
    - split; [intros []|intros [H _]; discriminate].
    - unfold in_box, search_box, diagonal in *. cbn [b_origin b_dim length repeat inside] in *. rewrite IH. split.
      + intros (Ho & Hl & Hf). split; [now f_equal|]. constructor; [lia|exact Hf].
      + intros (Hl & Hf). inversion Hf; subst. split; [lia|]. split; [now injection Hl|assumption]. }
  unfold adjacent_cells, adjacent. split; intros (off & Ho).
  - destruct Ho as [Ho E]. apply H in Ho. exists off. tauto.
  - destruct Ho as (L & F & E). exists off. split; [apply H; auto|exact E].
Qed.

Lemma cell_distance_adj t disc c d : length t = length disc -> in_grid disc c -> in_grid disc d -> ((cell_distance t disc c d <= 1)%Z <-> adjacent t disc c d).
Proof. intros. rewrite <- adjacent_box. now apply cell_distance_adjacent. Qed.

Lemma check_exact t dims b ps graph : 0 < b -> length t = length dims -> Forall (fun v => in_space dims (fst v)) ps -> graph_ok ps graph ->
  exists ok, check_box exact t (adapter_of dims b) ps graph = Some ok /\
    (ok = true <-> forall v w, edge_of ps graph v w -> adjacent t (map (axis_cells b) dims) (cells b dims (fst v)) (cells b dims (fst w))).
Proof.
  intros Hb Hl Hps [G1 G2]. destruct (check_from_exact t dims b ps Hps graph 0 ltac:(lia) ltac:(cbn; lia) G2) as (ok & E & Hok). exists ok. split; [exact E|]. rewrite Hok.
  assert (Hl' : length t = length (map (axis_cells b) dims)) by now rewrite map_length.
  assert (Hin : forall v i, nth_error ps i = Some v -> in_grid (map (axis_cells b) dims) (cells b dims (fst v))).
  { intros v i Ev. apply nth_error_In in Ev. apply cells_in_grid; [exact Hb|]. rewrite Forall_forall in Hps. now apply Hps. }
  assert (Hin' : forall v n, vec_get ps n = Some v -> in_grid (map (axis_cells b) dims) (cells b dims (fst v))).
  { intros v n Ev. unfold vec_get in Ev. destruct (n <? 0)%Z; [discriminate|]. eauto. }
  split.
  - intros H v w (i & ns & n & E1 & E2 & E3 & E4 & E5). assert (E6 : vec_get ps n = Some w) by now apply vec_get_nth. apply cell_distance_adj; eauto.
  - intros H k ns n v w E1 E2 E3 E4. cbn in E3. apply cell_distance_adj; eauto. apply H. apply vec_get_nth in E4. exists k, ns, n. tauto.
Qed.

(** ** Finding a box size *)

Lemma pow2_large q e : 0 < e -> exists m : nat, q <= inject_Z (2 ^ Z.of_nat m) * e.
Proof.
  intros He. exists (Z.to_nat (Qceiling (q / e))). set (k := Z.to_nat (Qceiling (q / e))).
  assert (H1 : (Qceiling (q / e) <= 2 ^ Z.of_nat k)%Z). { pose proof (Z.pow_gt_lin_r 2 (Z.of_nat k) ltac:(lia) ltac:(lia)). unfold k in *. lia. }
  rewrite Zle_Qle in H1. pose proof (Qle_ceiling (q / e)) as H2. assert (H3 : q / e * e == q) by (field; lra).
  rewrite <- H3 at 1. apply Qmult_le_compat_r; lra.
Qed.

Lemma pow2_S m : inject_Z (2 ^ Z.of_nat (S m)) == 2 * inject_Z (2 ^ Z.of_nat m).
Proof. rewrite Nat2Z.inj_succ, Z.pow_succ_r by lia. rewrite inject_Z_mult. reflexivity. Qed.

Lemma exact_half : a_half exact == 1 # 2.
Proof. reflexivity. Qed.

Lemma axis_cells_char B D : 0 < B -> 0 <= D -> exists k, (0 <= k)%Z /\ axis_cells B D = Z.max 1 k /\ inject_Z k * B <= D /\ D < (inject_Z k + 1) * B.
Proof. intros HB HD. destruct (scaled_char B D HB HD) as (H1 & H2 & H3). eexists. split; [exact H1|]. split; [reflexivity|]. auto. Qed.

Lemma axis_gap l0 l u e D : 0 < l0 -> l0 <= l -> l <= u -> u - l <= e -> 0 <= D -> D * e <= l0 * l0 -> (Z.abs (axis_cells l D - axis_cells u D) <= 1)%Z.
Proof.
  intros H0 H1 H2 H3 HD He. destruct (axis_cells_char l D ltac:(lra) HD) as (k & K0 & -> & K1 & K2). destruct (axis_cells_char u D ltac:(lra) HD) as (j & J0 & -> & J1 & J2).
  assert (Kq : 0 <= inject_Z k) by (change 0 with (inject_Z 0); rewrite <- Zle_Qle; exact K0).
  assert (Jq : 0 <= inject_Z j) by (change 0 with (inject_Z 0); rewrite <- Zle_Qle; exact J0).
  assert (j < k + 1)%Z. { apply (Zlt_scaled l); [lra|]. rewrite inject_Z_plus. change (inject_Z 1) with 1. assert (inject_Z j * l <= inject_Z j * u) by nra. lra. }
  assert (k <= j + 1)%Z; [|lia]. destruct (Z_le_gt_dec k (j + 1)) as [|Hgt]; [assumption|exfalso].
  assert (Hj : inject_Z j + 2 <= inject_Z k) by (change 2 with (inject_Z 2); rewrite <- inject_Z_plus, <- Zle_Qle; lia).
  assert (Q1 : (inject_Z j + 1) * u <= (inject_Z k - 1) * u) by (apply Qmult_le_compat_r; lra).
  assert (Q2 : inject_Z k * (u - l) <= inject_Z k * e) by (rewrite !(Qmult_comm (inject_Z k)); apply Qmult_le_compat_r; lra).
  assert (He0 : 0 <= e) by lra.
  assert (Q3 : (inject_Z k * e) * l <= l * l).
  { apply Qle_trans with (D * e); [assert ((inject_Z k * l) * e <= D * e) by (apply Qmult_le_compat_r; lra); lra|]. apply Qle_trans with (l0 * l0); [exact He|]. nra. }
  assert (Q4 : inject_Z k * e <= l) by (apply (Qmult_le_r _ _ l); lra). lra.
Qed.

Section Find.
Context (t : topology) (dims : list Q) (ps : list (list Q * Z)) (graph : list (list Z)).
Context (Hne : dims <> []) (Hl : length t = length dims) (Hd : Forall (fun d => 0 < d) dims).
Context (Hps : Forall (fun v => in_space dims (fst v)) ps) (Hg : graph_ok ps graph).

Let check_total b : 0 < b -> exists ok, check_box exact t (adapter_of dims b) ps graph = Some ok.
Proof. intros Hb. destruct (check_exact t dims b ps graph Hb Hl Hps Hg) as (ok & E & _). eauto. Qed.

Lemma reset_small b : 0 < b -> (exists d0, In d0 dims /\ inject_Z (MAX_SIZE + 1) * b <= d0) -> reset_box exact dims b = Some (Threw (adapter_of dims b)).
Proof.
  intros Hb (d0 & Hi & Hle). rewrite reset_exact. assert (H : (MAX_SIZE < prod (map (axis_cells b) dims))%Z).
  { clear Hne Hl check_total Hg Hps. assert (H0 : (MAX_SIZE < axis_cells b d0)%Z).
    { rewrite Forall_forall in Hd. specialize (Hd d0 Hi). destruct (axis_cells_char b d0 Hb ltac:(lra)) as (k & K0 & -> & K1 & K2).
      assert (MAX_SIZE + 1 < k + 1)%Z; [|lia]. apply (Zlt_scaled b); [exact Hb|]. rewrite (inject_Z_plus k 1). change (inject_Z 1) with 1. lra. }
    pose proof (disc_pos b dims) as Hp. clear Hle. induction dims as [|d ds IH]; [destruct Hi|]. cbn [map prod] in *. inversion Hp as [|? ? P1 P2]; subst. inversion Hd; subst.
    pose proof (prod_pos _ P2). destruct Hi as [->|Hi]; [nia|]. specialize (IH ltac:(assumption) Hi P2). nia. }
  rewrite Z.gtb_ltb. destruct (Z.ltb_spec MAX_SIZE (prod (map (axis_cells b) dims))); [reflexivity|lia].
Qed.

Definition good (r : result (adapter Q)) (P : Q -> Prop) : Prop :=
  match r with
  | Done a => exists b, P b /\ a = adapter_of dims b /\ reset_box exact dims b = Some (Done a)
  | Threw a => exists b, 0 < b /\ a = adapter_of dims b /\ (MAX_SIZE < prod (ma_disc a))%Z
  end.

Lemma reset_threw b a : reset_box exact dims b = Some (Threw a) -> a = adapter_of dims b /\ (MAX_SIZE < prod (ma_disc a))%Z.
Proof.
  rewrite reset_exact. rewrite Z.gtb_ltb. destruct (Z.ltb_spec MAX_SIZE (prod (map (axis_cells b) dims))); [|discriminate]. intros E. injection E as <-. auto.
Qed.

Lemma shrink_total d0 : In d0 dims -> forall m b, 0 < b -> reset_box exact dims b = Some (Done (adapter_of dims b)) ->
  inject_Z (MAX_SIZE + 1) * b <= inject_Z (2 ^ Z.of_nat m) * d0 ->
  exists fuel0 r, (forall fuel, (fuel0 <= fuel)%nat -> scale_while exact t fuel true (a_half exact) (adapter_of dims b) ps graph = Some r) /\ good r (fun b' => 0 < b' <= b).
Proof.
  intros Hi. assert (Hd0 : 0 < d0) by (rewrite Forall_forall in Hd; auto).
  induction m as [|m IH]; intros b Hb Hr Hm; destruct (check_total b Hb) as (ok & E).
  - cbn in Hm. change (inject_Z 1) with 1 in Hm. rewrite Qmult_1_l in Hm. rewrite reset_small in Hr by eauto. discriminate.
  - destruct ok.
    + assert (Hb2 : 0 < b * a_half exact) by (rewrite exact_half; lra).
      assert (Er : exists r0, reset_box exact dims (b * a_half exact) = Some r0) by (rewrite reset_exact; eauto). destruct Er as ([a'|a'] & Er).
      * pose proof (reset_done _ _ _ Er) as ->. rewrite pow2_S in Hm. destruct (IH (b * a_half exact) Hb2 Er ltac:(rewrite exact_half; lra)) as (f0 & r & Hf & Hr').
        exists (S f0), r. split.
        -- intros [|fuel] Hfu; [lia|]. cbn [scale_while]. rewrite E. cbn [obind Bool.eqb]. change (a_mul exact (ma_box (adapter_of dims b)) (a_half exact)) with (b * a_half exact).
           change (ma_dims (adapter_of dims b)) with dims. rewrite Er. cbn [obind]. apply Hf. lia.
        -- unfold good in *. destruct r as [a|a]; [|exact Hr']. destruct Hr' as (b' & Hb' & H1). exists b'. rewrite exact_half in Hb'. split; [lra|exact H1].
      * exists 1%nat, (Threw a'). split.
        -- intros [|fuel] Hfu; [lia|]. cbn [scale_while]. rewrite E. cbn [obind Bool.eqb]. change (a_mul exact (ma_box (adapter_of dims b)) (a_half exact)) with (b * a_half exact).
           change (ma_dims (adapter_of dims b)) with dims. rewrite Er. reflexivity.
        -- exists (b * a_half exact). split; [exact Hb2|]. now apply reset_threw.
    + exists 1%nat, (Done (adapter_of dims b)). split; [intros [|fuel] Hfu; [lia|]; cbn [scale_while]; rewrite E; reflexivity|]. exists b. split; [lra|]. auto.
Qed.

Lemma check_large b : (forall d, In d dims -> d < b) -> 0 < b -> check_box exact t (adapter_of dims b) ps graph = Some true.
Proof.
  intros Hlarge Hb. destruct (check_exact t dims b ps graph Hb Hl Hps Hg) as (ok & E & Hok). rewrite E. f_equal. apply Hok.
  intros v w (i & ns & n & _ & _ & Ev & _ & Ew). apply nth_error_In in Ev. apply nth_error_In in Ew.
  rewrite Forall_forall in Hps. pose proof (Hps _ Ev) as Sv. pose proof (Hps _ Ew) as Sw.
  apply cell_distance_adj; [now rewrite map_length|now apply cells_in_grid|now apply cells_in_grid|].
  assert (H1 : forall d, In d dims -> axis_cells b d = 1%Z).
  { intros d Hi. rewrite Forall_forall in Hd. destruct (axis_cells_char b d Hb ltac:(specialize (Hd d Hi); lra)) as (k & K0 & -> & K1 & K2).
    assert (k < 1)%Z; [|lia]. apply (Zlt_scaled b); [exact Hb|]. change (inject_Z 1) with 1. specialize (Hlarge d Hi). lra. }
  generalize (cells_in_grid b dims Hb _ Sv) (cells_in_grid b dims Hb _ Sw). generalize (cells b dims (fst v)) as c, (cells b dims (fst w)) as c'.
  clear - H1 Hl. revert t Hl. induction dims as [|d ds IH]; intros [|w t] Hl [|x c] [|y c'] Hc Hc'; try discriminate; try (now destruct Hc); try (now destruct Hc'); try (exact (Z.leb_le 0 1 eq_refl)).
  cbn [map] in *. apply (proj1 (in_grid_cons _ _ _ _)) in Hc. apply (proj1 (in_grid_cons _ _ _ _)) in Hc'. rewrite (H1 d (or_introl eq_refl)) in *. cbn [cell_distance].
  assert (IH' : (cell_distance t (map (axis_cells b) ds) c c' <= 1)%Z).
  { apply IH; [intros d' Hi; apply H1; now right|now injection Hl|apply Hc|apply Hc']. }
  destruct w; lia.
Qed.

Lemma reset_mono b b' : 0 < b -> b <= b' -> reset_box exact dims b = Some (Done (adapter_of dims b)) -> reset_box exact dims b' = Some (Done (adapter_of dims b')).
Proof.
  intros Hb Hbb. rewrite !reset_exact, !Z.gtb_ltb.
  assert (H : (0 <= prod (map (axis_cells b') dims) <= prod (map (axis_cells b) dims))%Z).
  { pose proof (disc_pos b dims) as P. pose proof (disc_pos b' dims) as P'. clear Hne Hl Hps Hg check_total. induction dims as [|d ds IH]; [cbn; lia|]. cbn [map prod] in *.
    inversion P as [|? ? P1 P2]; inversion P' as [|? ? P1' P2']; inversion Hd as [|? ? D1 D2]; subst. specialize (IH D2 P2 P2').
    destruct (axis_cells_char b d Hb ltac:(lra)) as (k & K0 & E1 & K1 & K2). destruct (axis_cells_char b' d ltac:(lra) ltac:(lra)) as (l & L0 & E2 & L1 & L2).
    assert (l < k + 1)%Z. { apply (Zlt_scaled b); [exact Hb|]. rewrite inject_Z_plus. change (inject_Z 1) with 1.
      assert (0 <= inject_Z l) by (change 0 with (inject_Z 0); rewrite <- Zle_Qle; exact L0). assert (inject_Z l * b <= inject_Z l * b') by nra. lra. }
    assert (axis_cells b' d <= axis_cells b d)%Z by lia. nia. }
  destruct (Z.ltb_spec MAX_SIZE (prod (map (axis_cells b) dims))); [discriminate|]. intros _.
  destruct (Z.ltb_spec MAX_SIZE (prod (map (axis_cells b') dims))); [lia|reflexivity].
Qed.

Lemma grow_total M : (forall d, In d dims -> d < M) -> forall m b, 0 < b -> reset_box exact dims b = Some (Done (adapter_of dims b)) ->
  M <= inject_Z (2 ^ Z.of_nat m) * b ->
  exists fuel0 b', (forall fuel, (fuel0 <= fuel)%nat -> scale_while exact t fuel false (a_ofZ exact 2) (adapter_of dims b) ps graph = Some (Done (adapter_of dims b'))) /\ b <= b' /\
    reset_box exact dims b' = Some (Done (adapter_of dims b')).
Proof.
  intros HM. induction m as [|m IH]; intros b Hb Hr Hm.
  - assert (E : check_box exact t (adapter_of dims b) ps graph = Some true).
    { apply check_large; [|exact Hb]. intros d Hi. specialize (HM d Hi). cbn in Hm. change (inject_Z 1) with 1 in Hm. lra. }
    exists 1%nat, b. split; [|split; [lra|exact Hr]]. intros [|fuel] Hf; [lia|]. cbn [scale_while]. rewrite E. reflexivity.
  - destruct (check_total b Hb) as ([|] & E).
    + exists 1%nat, b. split; [|split; [lra|exact Hr]]. intros [|fuel] Hf; [lia|]. cbn [scale_while]. rewrite E. reflexivity.
    + assert (Hb2 : 0 < b * inject_Z 2) by (change (inject_Z 2) with 2; lra).
      assert (Er : reset_box exact dims (b * inject_Z 2) = Some (Done (adapter_of dims (b * inject_Z 2)))) by (apply (reset_mono b); [exact Hb|change (inject_Z 2) with 2; lra|exact Hr]).
      rewrite pow2_S in Hm. destruct (IH (b * inject_Z 2) Hb2 Er ltac:(change (inject_Z 2) with 2; lra)) as (f0 & b' & Hf & Hbb & Hr').
      exists (S f0), b'. split; [|split; [change (inject_Z 2) with 2 in Hbb; lra|exact Hr']]. intros [|fuel] Hfu; [lia|]. cbn [scale_while]. rewrite E. cbn [obind Bool.eqb].
      change (a_mul exact (ma_box (adapter_of dims b)) (a_ofZ exact 2)) with (b * inject_Z 2). change (ma_dims (adapter_of dims b)) with dims. rewrite Er. cbn [obind]. apply Hf. lia.
Qed.

Lemma dim_gap_small l0 l u e : 0 < l0 -> l0 <= l -> l <= u -> u - l <= e -> (forall D, In D dims -> D * e <= l0 * l0) ->
  (dim_gap (map (axis_cells l) dims) (map (axis_cells u) dims) <= 1)%Z.
Proof.
  intros H0 H1 H2 H3 He. clear Hne Hl Hps Hg check_total. induction dims as [|d ds IH]; [cbn; lia|]. inversion Hd as [|? ? D1 D2]; subst. cbn [map dim_gap].
  pose proof (axis_gap l0 l u e d H0 H1 H2 H3 ltac:(lra) (He d (or_introl eq_refl))). specialize (IH D2 (fun D Hi => He D (or_intror Hi))). lia.
Qed.

Lemma bisect_total l0 e : 0 < l0 -> (forall D, In D dims -> D * e <= l0 * l0) -> forall m l u, l0 <= l -> l <= u -> u - l <= inject_Z (2 ^ Z.of_nat m) * e ->
  reset_box exact dims l = Some (Done (adapter_of dims l)) ->
  exists fuel0 b, (forall fuel, (fuel0 <= fuel)%nat -> bisect exact t fuel l u (map (axis_cells l) dims) (map (axis_cells u) dims) dims ps graph = Some (inr (map (axis_cells b) dims))) /\ l <= b <= u.
Proof.
  intros H0 He. induction m as [|m IH]; intros l u H1 H2 H3 Hr.
  - cbn in H3. change (inject_Z 1) with 1 in H3. pose proof (dim_gap_small l0 l u e H0 H1 H2 ltac:(lra) He) as G. exists 1%nat, u. split; [|lra]. intros [|fuel] Hf; [lia|]. cbn [bisect].
    rewrite Z.gtb_ltb. destruct (Z.ltb_spec 1 (dim_gap (map (axis_cells l) dims) (map (axis_cells u) dims))); [lia|reflexivity].
  - destruct (Z_lt_le_dec 1 (dim_gap (map (axis_cells l) dims) (map (axis_cells u) dims))) as [G|G].
    2:{ exists 1%nat, u. split; [|lra]. intros [|fuel] Hf; [lia|]. cbn [bisect]. rewrite Z.gtb_ltb. destruct (Z.ltb_spec 1 (dim_gap (map (axis_cells l) dims) (map (axis_cells u) dims))); [lia|reflexivity]. }
    set (md := (u + l) * a_half exact). assert (Em : md == (u + l) * (1 # 2)) by (unfold md; now rewrite exact_half).
    assert (M1 : l <= md) by lra. assert (M2 : md <= u) by lra. rewrite pow2_S in H3.
    pose proof (reset_mono l md ltac:(lra) M1 Hr) as Er. destruct (check_total md ltac:(lra)) as ([|] & Ec).
    + destruct (IH l md H1 M1 ltac:(lra) Hr) as (f0 & b & Hf & Hb). exists (S f0), b. split; [|lra]. intros [|fuel] Hfu; [lia|]. cbn [bisect]. rewrite Z.gtb_ltb.
      destruct (Z.ltb_spec 1 (dim_gap (map (axis_cells l) dims) (map (axis_cells u) dims))); [|lia]. change (a_mul exact (a_add exact u l) (a_half exact)) with md. rewrite Er. cbn [obind].
      rewrite Ec. cbn [obind]. change (ma_disc (adapter_of dims md)) with (map (axis_cells md) dims). apply Hf. lia.
    + destruct (IH md u ltac:(lra) M2 ltac:(lra) Er) as (f0 & b & Hf & Hb). exists (S f0), b. split; [|lra]. intros [|fuel] Hfu; [lia|]. cbn [bisect]. rewrite Z.gtb_ltb.
      destruct (Z.ltb_spec 1 (dim_gap (map (axis_cells l) dims) (map (axis_cells u) dims))); [|lia]. change (a_mul exact (a_add exact u l) (a_half exact)) with md. rewrite Er. cbn [obind].
      rewrite Ec. cbn [obind]. change (ma_disc (adapter_of dims md)) with (map (axis_cells md) dims). apply Hf. lia.
Qed.

Lemma small_exists l0 : 0 < l0 -> exists e, 0 < e /\ forall D, In D dims -> D * e <= l0 * l0.
Proof.
  intros H0. assert (HS : exists M, 0 < M /\ forall D, In D dims -> D <= M).
  { clear Hne Hl Hps Hg check_total. induction dims as [|d ds IH]; [exists 1; split; [lra|intros D []]|]. inversion Hd as [|? ? D1 D2]; subst. destruct (IH D2) as (M & HM & H).
    exists (M + d). split; [lra|]. intros D [<-|Hi]; [lra|]. specialize (H D Hi). lra. }
  destruct HS as (M & HM & H). exists (l0 * l0 / M). split; [apply Qlt_shift_div_l; [exact HM|nra]|]. intros D Hi. specialize (H D Hi).
  assert (E : M * (l0 * l0 / M) == l0 * l0) by (field; lra). assert (0 <= l0 * l0 / M) by (apply Qle_shift_div_l; [exact HM|nra]).
  apply Qle_trans with (M * (l0 * l0 / M)); [apply Qmult_le_compat_r; assumption|lra].
Qed.

Lemma large_exists : exists M, 0 < M /\ forall D, In D dims -> D < M.
Proof.
  clear Hne Hl Hps Hg check_total. induction dims as [|d ds IH]; [exists 1; split; [lra|intros D []]|]. inversion Hd as [|? ? D1 D2]; subst. destruct (IH D2) as (M & HM & H).
  exists (M + d). split; [lra|]. intros D [<-|Hi]; [lra|]. specialize (H D Hi). lra.
Qed.

Lemma box_sizes_pos b : dims <> [] -> 0 < fst (box_sizes exact dims (map (axis_cells b) dims)) /\ 0 < snd (box_sizes exact dims (map (axis_cells b) dims)).
Proof.
  intros _. clear Hl Hps Hg check_total. induction dims as [|d ds IH]; [congruence|]. inversion Hd as [|? ? D1 D2]; subst. cbn [map box_sizes].
  assert (P1 : 0 < inject_Z (axis_cells b d)) by (change 0 with (inject_Z 0); rewrite <- Zlt_Qlt; unfold axis_cells; lia).
  assert (P2 : 0 < inject_Z (axis_cells b d + 1)) by (change 0 with (inject_Z 0); rewrite <- Zlt_Qlt; unfold axis_cells; lia).
  assert (C1 : 0 < a_div exact d (a_ofZ exact (axis_cells b d))) by (cbn [exact a_div a_ofZ]; apply Qlt_shift_div_l; lra).
  assert (C2 : 0 < a_div exact d (a_ofZ exact (axis_cells b d + 1))) by (cbn [exact a_div a_ofZ]; apply Qlt_shift_div_l; lra).
  destruct ds as [|d2 ds'].
  - cbn [map box_sizes]. assert (E : a_lt exact (a_ofZ exact 0) (a_div exact d (a_ofZ exact (axis_cells b d))) = true) by (apply exact_lt; exact C1). rewrite E. auto.
  - specialize (IH ltac:(discriminate) D2). destruct (box_sizes exact (d2 :: ds') (map (axis_cells b) (d2 :: ds'))) as [mx lo]. cbn [fst snd] in IH.
    destruct (a_lt exact mx _); auto.
Qed.

(** What is returned. *)
Definition valid_for (a : adapter Q) : Prop :=
  forall v w, edge_of ps graph v w -> exists c d, pos_to_coord exact a (fst v) = Some c /\ pos_to_coord exact a (fst w) = Some d /\ adjacent t (ma_disc a) c d.

Lemma edge_in_space v w : edge_of ps graph v w -> in_space dims (fst v) /\ in_space dims (fst w).
Proof.
  intros (i & ns & n & _ & _ & Ev & _ & Ew). apply nth_error_In in Ev. apply nth_error_In in Ew.
  rewrite Forall_forall in Hps. auto.
Qed.

Lemma check_valid b : 0 < b -> exists ok, check_box exact t (adapter_of dims b) ps graph = Some ok /\ (ok = true <-> valid_for (adapter_of dims b)).
Proof.
  intros Hb. destruct (check_exact t dims b ps graph Hb Hl Hps Hg) as (ok & E & Hok). exists ok. split; [exact E|]. rewrite Hok. unfold valid_for. split.
  - intros H v w Hvw. destruct (edge_in_space v w Hvw) as [Sv Sw]. eexists _, _. split; [apply pos_exact; now apply in_space_length|]. split; [apply pos_exact; now apply in_space_length|]. now apply H.
  - intros H v w Hvw. destruct (edge_in_space v w Hvw) as [Sv Sw]. destruct (H v w Hvw) as (c & d & E1 & E2 & Ha).
    rewrite pos_exact in E1 by now apply in_space_length. rewrite pos_exact in E2 by now apply in_space_length. injection E1 as <-. injection E2 as <-. exact Ha.
Qed.

Lemma find_spec b0 : 0 < b0 -> reset_box exact dims b0 = Some (Done (adapter_of dims b0)) ->
  exists fuel0 r, (forall fuel, (fuel0 <= fuel)%nat -> find_optimum exact t fuel (adapter_of dims b0) ps graph = Some r) /\
    match r with
    | Found b a => 0 < b /\ reset_box exact dims b = Some (Done a) /\ valid_for a
    | Failed a => (MAX_SIZE < prod (ma_disc a))%Z \/ ~ valid_for a
    end.
Proof.
  intros Hb Hr.
  assert (Hend : forall b, 0 < b -> exists r, (let '(mx, lo) := box_sizes exact dims (map (axis_cells b) dims) in
          obind (reset_box exact dims lo) (fun r4 =>
          match r4 with
          | Threw a4 => Some (Failed a4)
          | Done a4 => obind (check_box exact t a4 ps graph) (fun ok4 =>
              if ok4 then Some (Found lo a4)
              else obind (reset_box exact dims mx) (fun r5 =>
                match r5 with
                | Threw a5 => Some (Failed a5)
                | Done a5 => obind (check_box exact t a5 ps graph) (fun ok5 => Some (if ok5 then Found mx a5 else Failed a5))
                end))
          end)) = Some r /\
     match r with
     | Found b a => 0 < b /\ reset_box exact dims b = Some (Done a) /\ valid_for a
     | Failed a => (MAX_SIZE < prod (ma_disc a))%Z \/ ~ valid_for a
     end).
  { intros b Hbp. pose proof (box_sizes_pos b Hne) as HP. destruct (box_sizes exact dims (map (axis_cells b) dims)) as [mx lo]. cbn [fst snd] in HP. destruct HP as [Pm Pl].
    assert (E4 : exists r4, reset_box exact dims lo = Some r4) by (rewrite reset_exact; eauto). destruct E4 as ([a4|a4] & E4); rewrite E4; cbn [obind].
    - pose proof (reset_done _ _ _ E4) as ->. destruct (check_valid lo Pl) as (ok4 & C4 & V4). rewrite C4. cbn [obind]. destruct ok4.
      + eexists. split; [reflexivity|]. cbn beta iota. split; [exact Pl|]. split; [exact E4|]. now apply V4.
      + assert (E5 : exists r5, reset_box exact dims mx = Some r5) by (rewrite reset_exact; eauto). destruct E5 as ([a5|a5] & E5); rewrite E5; cbn [obind].
        * pose proof (reset_done _ _ _ E5) as ->. destruct (check_valid mx Pm) as (ok5 & C5 & V5). rewrite C5. cbn [obind]. eexists. split; [reflexivity|]. destruct ok5.
          -- split; [exact Pm|]. split; [exact E5|]. now apply V5.
          -- right. intros H. apply V5 in H. discriminate.
        * eexists. split; [reflexivity|]. left. now apply (reset_threw mx).
    - eexists. split; [reflexivity|]. left. now apply (reset_threw lo). }
  destruct (check_total b0 Hb) as ([|] & Ec).
  - destruct dims as [|d0 ds] eqn:Ed; [congruence|]. rewrite <- Ed in *. assert (Hi : In d0 dims) by (rewrite Ed; now left). assert (Hd0 : 0 < d0) by (rewrite Forall_forall in Hd; auto).
    destruct (pow2_large (inject_Z (MAX_SIZE + 1) * b0) d0 Hd0) as (m & Hm).
    destruct (shrink_total d0 Hi m b0 Hb Hr Hm) as (f0 & r & Hf & Hgood). destruct r as [a1|a1].
    + destruct Hgood as (b1 & Hb1 & -> & Hr1). destruct (small_exists b1 ltac:(lra)) as (e & He & Hsm).
      destruct (pow2_large (b0 - b1) e He) as (m2 & Hm2). destruct (bisect_total b1 e ltac:(lra) Hsm m2 b1 b0 ltac:(lra) ltac:(lra) Hm2 Hr1) as (f1 & b & Hf1 & Hb').
      destruct (Hend b ltac:(lra)) as (r & Er & Hrr). exists (Nat.max f0 f1), r. split; [|exact Hrr]. intros fuel Hfu. unfold find_optimum. rewrite Ec. cbn [obind].
      rewrite Hf by lia. cbn [obind]. change (ma_box (adapter_of dims b1)) with b1. change (ma_box (adapter_of dims b0)) with b0.
      change (ma_disc (adapter_of dims b1)) with (map (axis_cells b1) dims). change (ma_disc (adapter_of dims b0)) with (map (axis_cells b0) dims). change (ma_dims (adapter_of dims b0)) with dims.
      rewrite Hf1 by lia. cbn [obind]. exact Er.
    + destruct Hgood as (b1 & Hb1 & -> & Hbig). exists f0, (Failed (adapter_of dims b1)). split; [|now left]. intros fuel Hfu. unfold find_optimum. rewrite Ec. cbn [obind]. rewrite Hf by lia. reflexivity.
  - destruct large_exists as (M & HM & Hlarge). destruct (pow2_large M b0 Hb) as (m & Hm).
    destruct (grow_total M Hlarge m b0 Hb Hr Hm) as (f0 & b1 & Hf & Hb1 & Hr1). destruct (small_exists b0 Hb) as (e & He & Hsm).
    destruct (pow2_large (b1 - b0) e He) as (m2 & Hm2). destruct (bisect_total b0 e Hb Hsm m2 b0 b1 ltac:(lra) Hb1 Hm2 Hr) as (f1 & b & Hf1 & Hb').
    destruct (Hend b ltac:(lra)) as (r & Er & Hrr). exists (Nat.max f0 f1), r. split; [|exact Hrr]. intros fuel Hfu. unfold find_optimum. rewrite Ec. cbn [obind].
    rewrite Hf by lia. cbn [obind]. change (ma_box (adapter_of dims b1)) with b1. change (ma_box (adapter_of dims b0)) with b0.
    change (ma_disc (adapter_of dims b1)) with (map (axis_cells b1) dims). change (ma_disc (adapter_of dims b0)) with (map (axis_cells b0) dims). change (ma_dims (adapter_of dims b0)) with dims.
    rewrite Hf1 by lia. cbn [obind]. exact Er.
Qed.
End Find.
