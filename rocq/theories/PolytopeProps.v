(** Properties of polytopes and Voronoi cells. *)
From Coq Require Import ZArith QArith Qround Qminmax Qabs List Bool Lia.
From Verif Require Import Base ParamModel ParamFacts PolytopeModel PolytopeSpec PolytopeFacts PolytopeInv PolytopeRun.
From Coq Require Import Lqa.
Import ListNotations.
Open Scope Q_scope.

(** ** From the invariant to the specification *)

Lemma region_planes center dim os x : region center dim os x <-> inside (planes dim center (planes_of center os)) x.
Proof.
  unfold region, planes. split.
  - intros [H1 H2] e He. apply in_app_or in He. destruct He as [He|He]; [now apply (proj2 (sides_inside center dim x) H1)|now apply (proj2 (planes_inside center os x) H2)].
  - intros H. split; [apply (sides_inside center dim x)|apply planes_inside]; intros e He; apply H; apply in_or_app; auto.
Qed.

Lemma closed_planes center dim os x : closed_region center dim os x <-> closed (planes dim center (planes_of center os)) x.
Proof.
  unfold closed_region, planes. split.
  - intros [H1 H2] e He. apply in_app_or in He. destruct He as [He|He]; [now apply (proj2 (sides_closed center dim x) H1)|now apply (proj2 (planes_closed center os x) H2)].
  - intros H. split; [apply (sides_closed center dim x)|apply planes_closed]; intros e He; apply H; apply in_or_app; auto.
Qed.

Lemma start_valid center dim os w : region center dim os w -> valid center dim w [] (polytope_make center dim) /\ inside (planes_of center os) w.
Proof. intros [H1 H2]. split; [apply valid_make, sides_inside, H1|now apply planes_inside]. Qed.

Lemma heeded_run center dim os w : heeded center false os -> region center dim os w -> exists P, run (polytope_make center dim) os = Some P /\ valid center dim w (planes_of center os) P.
Proof. intros Hh Hw. destruct (start_valid center dim os w Hw) as [V I]. destruct (run_heeded center dim w os false [] _ V (fun _ => eq_refl) Hh I) as (P & R & VP). exists P. auto. Qed.

Lemma heeded_snoc center os : forall u b, heeded center u os -> heeded center u (os ++ [OUpdate b]).
Proof. induction os as [|o os IH]; intros u b H; [exact I|]. destruct o; cbn [app heeded] in *; intuition auto. Qed.

Lemma region_snoc center dim os b x : region center dim os x <-> region center dim (os ++ [OUpdate b]) x.
Proof.
  unfold region. split; intros [H1 H2]; (split; [exact H1|]); intros o Ho.
  - apply in_app_or in Ho. destruct Ho as [Ho|[<-|[]]]; [now apply H2|exact I].
  - apply H2. apply in_or_app. now left.
Qed.

Lemma sides_box_side center dim e : In e (sides center dim) -> forall l, same l e -> box_side dim l.
Proof.
  intros He l (S1 & S2 & _). unfold box_side, height. rewrite S1, S2. destruct He as [<-|[<-|[<-|[<-|[]]]]]; cbn [make_plane e_base e_dir fst snd].
  - left. intros x. ring.
  - right; left. intros x. ring.
  - right; right; left. intros x. ring.
  - right; right; right. intros x. ring.
Qed.

Lemma box_side_sides center dim l : box_side dim l -> exists e, In e (sides center dim) /\ forall x, val e x == val l x.
Proof.
  unfold box_side. intros [H|[H|[H|H]]].
  - eexists. split; [now left|]. intros x. rewrite <- (height_val l x), H. unfold make_plane. unp. cbn [e_base e_dir fst snd]. ring.
  - eexists. split; [right; now left|]. intros x. rewrite <- (height_val l x), H. unfold make_plane. unp. cbn [e_base e_dir fst snd]. ring.
  - eexists. split; [right; right; now left|]. intros x. rewrite <- (height_val l x), H. unfold make_plane. unp. cbn [e_base e_dir fst snd]. ring.
  - eexists. split; [right; right; right; now left|]. intros x. rewrite <- (height_val l x), H. unfold make_plane. unp. cbn [e_base e_dir fst snd]. ring.
Qed.

Lemma in_planes_of center os e : In e (planes_of center os) <-> In (OPlane e) os \/ exists c id, In (OPoint c id) os /\ e = bisector center c id.
Proof.
  unfold planes_of. rewrite in_flat_map. split.
  - intros (o & Ho & He). destruct o as [e'|c id|b].
    + destruct He as [<-|[]]. now left.
    + destruct He as [<-|[]]. right. eauto.
    + destruct He.
  - intros [H|(c & id & H & ->)]; [exists (OPlane e)|exists (OPoint c id)]; split; auto; now left.
Qed.

(** ** C138: the polytope is the intersection of the half-planes *)

(** Whatever planes and points are inserted, and however often the geometry
    is updated in between: points inserted before the first update count. *)
Theorem C138_polytope : forall center dim os w, heeded center false os -> region center dim os w ->
  exists P, run (polytope_make center dim) os = Some P /\ forall x, includes P x = true <-> region center dim os x.
Proof.
  intros center dim os w Hh Hw. destruct (heeded_run center dim os w Hh Hw) as (P & R & V). exists P. split; [exact R|]. intros x. rewrite includes_inside, (v_inside _ _ _ _ _ V x). symmetry. apply region_planes.
Qed.
Print Assumptions C138_polytope.

(** The limits after an update: each one is a side of the space or was
    inserted; its length is the length of the border on it. No edge of the
    polytope is missing. *)
Theorem C138_limits : forall center dim os w b, heeded center false os -> region center dim os w ->
  exists P, run (polytope_make center dim) (os ++ [OUpdate b]) = Some P /\
  (forall l, In l (p_limits P) ->
    (box_side dim l \/ (exists e, In (OPlane e) os /\ e_base l = e_base e /\ e_dir l = e_dir e /\ e_id l = e_id e) \/
     (exists c id, In (OPoint c id) os /\ e_id l = id /\ same_point (e_dir l) (psub center c) /\ forall x, on_plane l x <-> dist2 x center == dist2 x c)) /\
    exists u v, edge_ends center dim os l u v /\ e_length2 l == dist2 u v) /\
  (forall u v, closed_region center dim os u -> closed_region center dim os v -> ~ same_point u v ->
    ((exists e, (box_side dim e \/ In (OPlane e) os) /\ on_plane e u /\ on_plane e v) \/ (exists c id, In (OPoint c id) os /\ dist2 u center == dist2 u c /\ dist2 v center == dist2 v c)) ->
    exists l, In l (p_limits P) /\ on_plane l u /\ on_plane l v).
Proof.
  intros center dim os w b Hh Hw. destruct (heeded_run center dim os w Hh Hw) as (P0 & R & V0). destruct (update_valid center dim w _ P0 V0 b) as (P & U & V). exists P.
  split; [rewrite run_app, R; cbn [run step]; now rewrite U|]. pose proof (fun x => valid_closed _ _ _ _ _ x V) as HC.
  assert (HR : forall x, closed_region center dim os x <-> closed (p_limits P) x) by (intros x; now rewrite HC, closed_planes).
  split.
  - intros l Hl. split.
    + destruct (v_from _ _ _ _ _ V l Hl) as (e & He & Se). apply in_app_or in He. destruct He as [He|He]; [left; exact (sides_box_side center dim e He l Se)|]. right. apply in_planes_of in He. destruct He as [He|(c & id & He & ->)].
      * left. exists e. destruct Se as (S1 & S2 & S3). auto.
      * right. exists c, id. split; [exact He|]. split; [apply Se|]. split; [destruct Se as (_ & S2 & _); rewrite S2; split; reflexivity|]. intros x. unfold on_plane. rewrite height_val, (same_val _ _ x Se), bisector_val. split; intros; lra.
    + destruct (update_lengths center dim w _ P0 V0 b P l U Hl) as (u & v & A1 & A2 & A3 & A4 & A5 & A6). exists u, v. split.
      * unfold edge_ends, on_plane. rewrite !HR. repeat split; auto. intros x y Cx Vx Cy Vy. rewrite HR in Cx, Cy. apply (line_longest l u v x y); auto. now apply (norm_in w (p_limits P) (valid_inside _ _ _ _ _ V)).
      * rewrite A5. unfold dist2, psub, dot. cbn [fst snd]. reflexivity.
  - intros u v Cu Cv N H. rewrite HR in Cu, Cv. assert (G : forall e, In e (planes dim center (planes_of center os)) -> val e u == 0 -> val e v == 0 -> exists l, In l (p_limits P) /\ on_plane l u /\ on_plane l v).
    { intros e He Eu Ev. exact (v_edges _ _ _ _ _ V e u v He Cu Cv Eu Ev N). }
    destruct H as [(e & [He|He] & Eu & Ev)|(c & id & He & Eu & Ev)].
    + destruct (box_side_sides center dim e He) as (s & Hs & Es). apply (G s); [apply in_or_app; now left|rewrite Es; exact Eu|rewrite Es; exact Ev].
    + apply (G e); [apply in_or_app; right; apply in_planes_of; now left|exact Eu|exact Ev].
    + apply (G (bisector center c id)); [apply in_or_app; right; apply in_planes_of; right; eauto|rewrite bisector_val; lra|rewrite bisector_val; lra].
Qed.
Print Assumptions C138_limits.

(** ** C139: Voronoi cells *)

Definition points_ops (pts : list (point * Z)) : list op := map (fun ci => OPoint (fst ci) (snd ci)) pts.

(** Cells as they ought to be *)
Definition voronoi (center dim : point) (pts : list (point * Z)) (x : point) : Prop := open_box dim x /\ forall c id, In (c, id) pts -> dist2 x center < dist2 x c.
Definition voronoi_closed (center dim : point) (pts : list (point * Z)) (x : point) : Prop := closed_box dim x /\ forall c id, In (c, id) pts -> dist2 x center <= dist2 x c.

Lemma points_region center dim pts x : region center dim (points_ops pts) x <-> voronoi center dim pts x.
Proof.
  unfold region, voronoi, points_ops. split; intros [H1 H2]; (split; [exact H1|]).
  - intros c id Hc. apply (H2 (OPoint c id)). apply in_map_iff. exists (c, id). auto.
  - intros o Ho. apply in_map_iff in Ho. destruct Ho as ([c id] & <- & Hc). cbn [admits fst snd]. now apply (H2 c id).
Qed.

Lemma points_closed center dim pts x : closed_region center dim (points_ops pts) x <-> voronoi_closed center dim pts x.
Proof.
  unfold closed_region, voronoi_closed, points_ops. split; intros [H1 H2]; (split; [exact H1|]).
  - intros c id Hc. apply (H2 (OPoint c id)). apply in_map_iff. exists (c, id). auto.
  - intros o Ho. apply in_map_iff in Ho. destruct Ho as ([c id] & <- & Hc). cbn [admits_border fst snd]. now apply (H2 c id).
Qed.

Lemma sq_pos q : ~ q == 0 -> 0 < q * q.
Proof. intros H. destruct (Qlt_le_dec 0 q); [nra|]. assert (q < 0) by (destruct (Qlt_le_dec q 0); [assumption|exfalso; apply H; lra]). nra. Qed.

Lemma sq_nonneg q : 0 <= q * q.
Proof. nra. Qed.

Lemma sq_zero a b : a * a + b * b == 0 -> a == 0 /\ b == 0.
Proof.
  intros H. pose proof (sq_nonneg a). pose proof (sq_nonneg b). split.
  - destruct (Qeq_dec a 0) as [|N]; [assumption|]. pose proof (sq_pos a N). lra.
  - destruct (Qeq_dec b 0) as [|N]; [assumption|]. pose proof (sq_pos b N). lra.
Qed.

Lemma dist2_pos a b : ~ same_point a b -> 0 < dist2 a b.
Proof.
  intros H. unfold dist2. pose proof (sq_nonneg (fst a - fst b)). pose proof (sq_nonneg (snd a - snd b)). destruct (Qeq_dec (fst a - fst b) 0) as [X|X].
  - destruct (Qeq_dec (snd a - snd b) 0) as [Y|Y]; [exfalso; apply H; split; lra|]. pose proof (sq_pos _ Y). lra.
  - pose proof (sq_pos _ X). lra.
Qed.

Lemma center_in center dim pts : open_box dim center -> (forall c id, In (c, id) pts -> ~ same_point c center) -> voronoi center dim pts center.
Proof.
  intros H1 H2. split; [exact H1|]. intros c id Hc. pose proof (dist2_pos center c) as K. assert (E : dist2 center center == 0) by (unfold dist2; ring). rewrite E. apply K. intros [A B]. apply (H2 c id Hc). split; now symmetry.
Qed.

Lemma points_heeded center pts : (forall c id, In (c, id) pts -> -2 <= fst center + fst c /\ -2 <= snd center + snd c) -> heeded center false (points_ops pts).
Proof.
  induction pts as [|[c id] pts IH]; intros H; [exact I|]. cbn [points_ops map heeded fst snd]. destruct (H c id (or_introl eq_refl)). repeat split; auto. apply IH. intros c' id' Hc. apply (H c' id'). now right.
Qed.

(** Points which are nearer to the center than to any other inserted point,
    no more and no less *)
Theorem C139_voronoi_cell : forall center dim pts b, open_box dim center ->
  (forall c id, In (c, id) pts -> ~ same_point c center /\ -2 <= fst center + fst c /\ -2 <= snd center + snd c) ->
  exists P, run (polytope_make center dim) (points_ops pts ++ [OUpdate b]) = Some P /\ forall x, includes P x = true <-> voronoi center dim pts x.
Proof.
  intros center dim pts b Hc Hp. destruct (C138_polytope center dim (points_ops pts ++ [OUpdate b]) center) as (P & R & H).
  - apply heeded_snoc, points_heeded. intros c id Hi. now apply (Hp c id).
  - apply region_snoc, points_region, center_in; [exact Hc|]. intros c id Hi. now apply (Hp c id).
  - exists P. split; [exact R|]. intros x. rewrite H, <- region_snoc. apply points_region.
Qed.
Print Assumptions C139_voronoi_cell.

Lemma same_bisector center c c' u v : ~ same_point u v -> dist2 u center == dist2 u c -> dist2 v center == dist2 v c -> dist2 u center == dist2 u c' -> dist2 v center == dist2 v c' -> ~ same_point c center -> ~ same_point c' center -> same_point c c'.
Proof.
  intros N Hu Hv Hu' Hv' D D'. destruct center as [ox oy], c as [cx cy], c' as [ex ey], u as [ux uy], v as [vx vy]. unfold dist2, same_point in *. cbn [fst snd] in *.
  set (dx := cx - ox). set (dy := cy - oy). set (fx := ex - ox). set (fy := ey - oy). set (ax := ux - ox). set (ay := uy - oy). set (qx := ux - vx). set (qy := uy - vy).
  assert (E1 : dx * dx + dy * dy == 2 * (ax * dx + ay * dy)) by (unfold dx, dy, ax, ay; lra). assert (E2 : fx * fx + fy * fy == 2 * (ax * fx + ay * fy)) by (unfold fx, fy, ax, ay; lra).
  assert (Q1 : qx * dx + qy * dy == 0) by (unfold qx, qy, dx, dy; lra). assert (Q2 : qx * fx + qy * fy == 0) by (unfold qx, qy, fx, fy; lra).
  assert (Cr : dx * fy - dy * fx == 0).
  { assert (K1 : qx * (dx * fy - dy * fx) == fy * (qx * dx + qy * dy) - dy * (qx * fx + qy * fy)) by ring. assert (K2 : qy * (dx * fy - dy * fx) == dx * (qx * fx + qy * fy) - fx * (qx * dx + qy * dy)) by ring. rewrite Q1, Q2 in K1, K2.
    destruct (Qeq_dec qx 0) as [X|X].
    - destruct (Qeq_dec qy 0) as [Y|Y]; [exfalso; apply N; unfold qx, qy in *; split; lra|]. assert (Z : qy * (dx * fy - dy * fx) == 0) by lra. destruct (Qmult_integral _ _ Z); [contradiction|assumption].
    - assert (Z : qx * (dx * fy - dy * fx) == 0) by lra. destruct (Qmult_integral _ _ Z); [contradiction|assumption]. }
  assert (Nd : ~ dx * dx + dy * dy == 0). { intros K. apply D. apply sq_zero in K. unfold dx, dy in K. split; lra. }
  assert (Nf : ~ fx * fx + fy * fy == 0). { intros K. apply D'. apply sq_zero in K. unfold fx, fy in K. split; lra. }
  assert (F1 : (fx * fx + fy * fy) * (dx * dx + dy * dy) == (dx * fx + dy * fy) * (dx * dx + dy * dy)).
  { rewrite E2. assert (K : 2 * (ax * fx + ay * fy) * (dx * dx + dy * dy) == (dx * fx + dy * fy) * (2 * (ax * dx + ay * dy)) + 2 * (dx * fy - dy * fx) * (ay * dx - ax * dy)) by ring. rewrite K, Cr, <- E1. ring. }
  assert (F2 : (dx * dx + dy * dy) * (fx * fx + fy * fy) == (dx * fx + dy * fy) * (fx * fx + fy * fy)).
  { rewrite E1. assert (K : 2 * (ax * dx + ay * dy) * (fx * fx + fy * fy) == (dx * fx + dy * fy) * (2 * (ax * fx + ay * fy)) + 2 * (dx * fy - dy * fx) * (ax * fy - ay * fx)) by ring. rewrite K, Cr, <- E2. ring. }
  apply Qmult_inj_r in F1; [|exact Nd]. apply Qmult_inj_r in F2; [|exact Nf].
  assert (Z : (dx - fx) * (dx - fx) + (dy - fy) * (dy - fy) == 0) by lra. apply sq_zero in Z. unfold dx, dy, fx, fy in Z. split; lra.
Qed.

Lemma side_bisector center dim c l u v : box_side dim l -> open_box dim center -> closed_box dim c -> ~ same_point c center -> ~ same_point u v -> on_plane l u -> on_plane l v -> dist2 u center == dist2 u c -> dist2 v center == dist2 v c -> False.
Proof.
  intros Hl [O1 O2] [C1 C2] D N Lu Lv Hu Hv. unfold on_plane in *. destruct center as [ox oy], c as [cx cy], u as [ux uy], v as [vx vy]. unfold dist2, same_point in *. cbn [fst snd] in *.
  destruct Hl as [H|[H|[H|H]]]; rewrite H in Lu, Lv; cbn [fst snd] in *; clear H.
  - assert (K : (ux - vx) * (cx - ox) == 0) by (rewrite Lu in Hu; rewrite Lv in Hv; lra). destruct (Qmult_integral _ _ K) as [X|X]; [apply N; split; lra|]. assert (Z : (cy - oy) * (cy + oy) == 0) by (assert (cx == ox) as E by lra; rewrite E, Lu in Hu; lra). destruct (Qmult_integral _ _ Z); [apply D; split; lra|lra].
  - assert (K : (uy - vy) * (cy - oy) == 0) by (rewrite Lu in Hu; rewrite Lv in Hv; lra). destruct (Qmult_integral _ _ K) as [X|X]; [apply N; split; lra|]. assert (Z : (cx - ox) * (cx + ox) == 0) by (assert (cy == oy) as E by lra; rewrite E, Lu in Hu; lra). destruct (Qmult_integral _ _ Z); [apply D; split; lra|lra].
  - assert (Eu : ux == fst dim) by lra. assert (Ev : vx == fst dim) by lra. assert (K : (uy - vy) * (cy - oy) == 0) by (rewrite Eu in Hu; rewrite Ev in Hv; lra). destruct (Qmult_integral _ _ K) as [X|X]; [apply N; split; lra|].
    assert (Z : (cx - ox) * (cx + ox - 2 * fst dim) == 0) by (assert (cy == oy) as E by lra; rewrite E, Eu in Hu; lra). destruct (Qmult_integral _ _ Z); [apply D; split; lra|lra].
  - assert (Eu : uy == snd dim) by lra. assert (Ev : vy == snd dim) by lra. assert (K : (ux - vx) * (cx - ox) == 0) by (rewrite Eu in Hu; rewrite Ev in Hv; lra). destruct (Qmult_integral _ _ K) as [X|X]; [apply N; split; lra|].
    assert (Z : (cy - oy) * (cy + oy - 2 * snd dim) == 0) by (assert (cx == ox) as E by lra; rewrite E, Eu in Hu; lra). destruct (Qmult_integral _ _ Z); [apply D; split; lra|lra].
Qed.

(** Every neighbor is found with its ID, its direction and the length of the
    common border; every limit stands for a side of the space or for a point. *)
Theorem C139_voronoi_neighbors : forall center dim pts b, open_box dim center -> (forall c id, In (c, id) pts -> closed_box dim c /\ ~ same_point c center) ->
  exists P, run (polytope_make center dim) (points_ops pts ++ [OUpdate b]) = Some P /\
  (forall l, In l (p_limits P) -> box_side dim l \/ exists c id, In (c, id) pts /\ e_id l = id /\ same_point (e_dir l) (psub center c) /\
    exists u v, e_length2 l == dist2 u v /\ voronoi_closed center dim pts u /\ dist2 u center == dist2 u c /\ voronoi_closed center dim pts v /\ dist2 v center == dist2 v c /\
      forall x y, voronoi_closed center dim pts x -> dist2 x center == dist2 x c -> voronoi_closed center dim pts y -> dist2 y center == dist2 y c -> dist2 x y <= dist2 u v) /\
  (forall c id u v, In (c, id) pts -> voronoi_closed center dim pts u -> voronoi_closed center dim pts v -> ~ same_point u v -> dist2 u center == dist2 u c -> dist2 v center == dist2 v c ->
    exists l c', In l (p_limits P) /\ In (c', e_id l) pts /\ same_point c' c /\ same_point (e_dir l) (psub center c) /\ dist2 u v <= e_length2 l).
Proof.
  intros center dim pts b Ho Hp. assert (Hw : region center dim (points_ops pts) center) by (apply points_region, center_in; [exact Ho|intros c id Hi; now apply (Hp c id)]).
  assert (Hh : heeded center false (points_ops pts)). { apply points_heeded. intros c id Hi. destruct (Hp c id Hi) as [[B1 B2] _]. destruct Ho as [O1 O2]. split; lra. }
  destruct (C138_limits center dim (points_ops pts) center b Hh Hw) as (P & R & H1 & H2). exists P. split; [exact R|].
  assert (Pin : forall c id, In (OPoint c id) (points_ops pts) <-> In (c, id) pts).
  { intros c id. unfold points_ops. rewrite in_map_iff. split; [intros ([c' id'] & E & Hi); cbn [fst snd] in E; congruence|intros Hi; exists (c, id); auto]. }
  assert (Plane : forall e, ~ In (OPlane e) (points_ops pts)) by (intros e K; unfold points_ops in K; apply in_map_iff in K; destruct K as (? & ? & _); discriminate).
  split.
  - intros l Hl. destruct (H1 l Hl) as [[Hs|[(e & He & _)|(c & id & Hc & Hid & Hd & Hon)]] (u & v & (A1 & A2 & A3 & A4 & A5) & A6)]; [now left|destruct (Plane e He)|]. right. exists c, id. split; [now apply Pin|]. split; [exact Hid|]. split; [exact Hd|].
    exists u, v. split; [exact A6|]. rewrite <- !points_closed. rewrite Hon in A2, A4. repeat split; auto; try apply A1; try apply A3. intros x y Cx Vx Cy Vy. rewrite <- points_closed in Cx, Cy. apply A5; auto; now apply Hon.
  - intros c id u v Hc Cu Cv N Eu Ev. destruct (Hp c id Hc) as [Bc Dc]. destruct (H2 u v) as (l & Hl & Lu & Lv); [now apply points_closed|now apply points_closed|exact N|right; exists c, id; split; [now apply Pin|auto]|].
    destruct (H1 l Hl) as [[Hs|[(e & He & _)|(c' & id' & Hc' & Hid & Hd & Hon)]] (u' & v' & (A1 & A2 & A3 & A4 & A5) & A6)].
    + exfalso. exact (side_bisector center dim c l u v Hs Ho Bc Dc N Lu Lv Eu Ev).
    + destruct (Plane e He).
    + apply Pin in Hc'. destruct (Hp c' id' Hc') as [Bc' Dc']. assert (S : same_point c' c) by (apply (same_bisector center c' c u v); auto; now apply Hon).
      exists l, c'. split; [exact Hl|]. rewrite Hid. split; [exact Hc'|]. split; [exact S|]. split; [destruct S as [S1 S2], Hd as [D1 D2]; split; [rewrite D1|rewrite D2]; unfold psub; cbn [fst snd]; [rewrite S1|rewrite S2]; reflexivity|].
      rewrite A6. apply A5; auto; now apply points_closed.
Qed.
Print Assumptions C139_voronoi_neighbors.

(** ** C140: updates never fail *)

(** Whatever is inserted and whenever the geometry is updated: no exception is
    thrown, and no point is lost, as long as the polytope isn't empty. *)
Theorem C140_no_exception : forall center dim os w, region center dim os w ->
  exists P, run (polytope_make center dim) os = Some P /\ forall x, region center dim os x -> includes P x = true.
Proof.
  intros center dim os w Hw. destruct (start_valid center dim os w Hw) as [V I]. destruct (run_valid center dim w os [] _ V I) as (P & S & R & VP & HS). exists P. split; [exact R|].
  intros x Hx. apply includes_inside. apply (v_inside _ _ _ _ _ VP x). apply region_planes in Hx. intros e He. apply Hx. apply in_app_or in He. apply in_or_app. destruct He as [He|He]; [now left|right; now apply HS].
Qed.
Print Assumptions C140_no_exception.

(** The diameter is the largest extent; the bounding box is off by less than
    two. *)
Theorem C140_extents : forall center dim os w, heeded center false os -> region center dim os w ->
  exists P, run (polytope_make center dim) (os ++ [OUpdate false]) = Some P /\
  (forall u v, closed_region center dim os u -> closed_region center dim os v -> fst u - fst v <= p_diameter P /\ snd u - snd v <= p_diameter P) /\
  (exists u v, closed_region center dim os u /\ closed_region center dim os v /\ (p_diameter P == fst u - fst v \/ p_diameter P == snd u - snd v)) /\
  forall u, closed_region center dim os u -> let '((ox, oy), (dx, dy)) := p_box P in (inject_Z ox <= fst u < inject_Z (ox + dx + 2)) /\ (inject_Z oy <= snd u < inject_Z (oy + dy + 2)).
Proof.
  intros center dim os w Hh Hw. destruct (heeded_run center dim os w Hh Hw) as (P0 & R & V0). destruct (update_valid center dim w _ P0 V0 false) as (P & U & V). exists P.
  split; [rewrite run_app, R; cbn [run step]; now rewrite U|]. pose proof (fun x => valid_closed _ _ _ _ _ x V) as HC. assert (HR : forall x, closed_region center dim os x <-> closed (p_limits P) x) by (intros x; now rewrite HC, closed_planes).
  assert (HR0 : forall x, closed_region center dim os x <-> closed (p_limits P0) x) by (intros x; now rewrite (valid_closed _ _ _ _ _ x V0), closed_planes).
  split; [intros u v Cu Cv; rewrite HR in Cu, Cv; now apply (v_diameter _ _ _ _ _ V)|]. pose proof (extents_spec center dim w _ P0 V0) as E. unfold update_geometry in U. destruct (extents P0) as [mn mx].
  destruct E as ((u1 & C1 & E1) & (u2 & C2 & E2) & (u3 & C3 & E3) & (u4 & C4 & E4) & All). unfold psub in U. cbn [fst snd] in U. destruct (lt_b _ _); [discriminate|].
  assert (Ed : p_diameter P = Qmax (fst mx - fst mn) (snd mx - snd mn)) by (assert (X := f_equal (option_map p_diameter) U); cbn in X; congruence).
  assert (Eb : p_box P = ((qtrunc (fst mn), qtrunc (snd mn)), (qtrunc (fst mx - fst mn), qtrunc (snd mx - snd mn)))%Z) by (assert (X := f_equal (option_map p_box) U); cbn in X; congruence).
  split.
  - destruct (qmax_cases (fst mx - fst mn) (snd mx - snd mn)) as [K|K].
    + exists u3, u1. rewrite !HR0. split; [exact C3|]. split; [exact C1|]. left. rewrite Ed, K, E1, E3. reflexivity.
    + exists u4, u2. rewrite !HR0. split; [exact C4|]. split; [exact C2|]. right. rewrite Ed, K, E2, E4. reflexivity.
  - intros u Cu. rewrite Eb. apply HR0 in Cu. pose proof (All u Cu) as [A1 A2]. pose proof (valid_box _ _ _ _ _ u1 V0 C1) as [B1 _]. pose proof (valid_box _ _ _ _ _ u2 V0 C2) as [_ B2].
    assert (T : forall q, 0 <= q -> inject_Z (qtrunc q) <= q < inject_Z (qtrunc q) + 1).
    { intros q Hq. assert (qtrunc q = Qfloor q) as ->. { unfold qtrunc. apply Qle_bool_iff in Hq. now rewrite Hq. }
      split; [apply Qfloor_le|]. pose proof (Qlt_floor q) as K. rewrite inject_Z_plus in K. exact K. }
    destruct (T (fst mn) ltac:(lra)) as [T1 T2]. destruct (T (snd mn) ltac:(lra)) as [T3 T4]. destruct (T (fst mx - fst mn) ltac:(lra)) as [T5 T6]. destruct (T (snd mx - snd mn) ltac:(lra)) as [T7 T8].
    rewrite !inject_Z_plus. change (inject_Z 2) with 2. repeat split; lra.
Qed.
Print Assumptions C140_extents.

(** ** Examples *)

(** A square of 10x10 cut by a diagonal, and three more points *)
Example C138_example :
  let os := [OPlane (make_plane (8, 8) (-1, -1) 7); OUpdate true; OPlane (make_plane (1, 5) (1, 0) 8)] in
  heeded (4, 4) false os /\ region (4, 4) (10, 10) os (4, 4) /\
  option_map (fun P => map (fun l => (e_id l, e_length2 l)) (p_limits P)) (run (polytope_make (4, 4) (10, 10)) (os ++ [OUpdate false])) <> None.
Proof.
  cbv zeta. split; [exact I|]. split.
  - split; [split; cbn; lra|]. intros o [<-|[<-|[<-|[]]]]; cbn [admits]; [| exact I|]; unfold above, height; cbn; lra.
  - vm_compute. discriminate.
Qed.

Example C139_example :
  let pts := [((8, 5), 1%Z); ((5, 9), 2%Z); ((1, 1), 3%Z); ((9, 9), 4%Z)] in
  open_box (10, 10) (5, 5) /\ (forall c id, In (c, id) pts -> closed_box (10, 10) c /\ ~ same_point c (5, 5)) /\
  option_map (fun P => map e_id (p_limits P)) (run (polytope_make (5, 5) (10, 10)) (points_ops pts ++ [OUpdate false])) = Some [0; 0; 1; 2; 3]%Z.
Proof.
  cbv zeta. split; [split; cbn; lra|]. split.
  - intros c id [E|[E|[E|[E|[]]]]]; injection E as <- <-; (split; [split; cbn; lra|]); intros [H1 H2]; cbn in *; lra.
  - vm_compute. reflexivity.
Qed.

(** ** C141: points which are ignored (refuted) *)

(** After an update, and without one if the point is far to the left: the
    polytope includes points which are nearer to an inserted point than to its
    center. *)
Theorem C141_skipped_after_update_refuted : exists center dim os c id x P, open_box dim center /\ open_box dim c /\ open_box dim x /\ In (OPoint c id) os /\
  run (polytope_make center dim) os = Some P /\ dist2 x c < dist2 x center /\ includes P x = true.
Proof.
  exists (50, 50), (100, 100), [OPoint (48, 50) 1; OPoint (52, 50) 2; OUpdate false; OPoint (40, 60) 3], (40, 60), 3%Z, (50, 99).
  destruct (run (polytope_make (50, 50) (100, 100)) [OPoint (48, 50) 1; OPoint (52, 50) 2; OUpdate false; OPoint (40, 60) 3]) as [P|] eqn:E; [|vm_compute in E; discriminate]. exists P.
  split; [split; cbn; lra|]. split; [split; cbn; lra|]. split; [split; cbn; lra|]. split; [cbn; auto|]. split; [reflexivity|]. split; [unfold dist2; cbn; lra|].
  assert (K : option_map (fun P => includes P (50, 99)) (Some P) = Some true) by (rewrite <- E; vm_compute; reflexivity). cbn in K. congruence.
Qed.
Print Assumptions C141_skipped_after_update_refuted.

Theorem C141_skipped_outside_refuted : exists center dim c id x P, open_box dim center /\ open_box dim x /\
  run (polytope_make center dim) [OPoint c id] = Some P /\ dist2 x c < dist2 x center /\ includes P x = true.
Proof.
  exists (1, 1), (100, 100), (-5, 50), 1%Z, (1, 90).
  destruct (run (polytope_make (1, 1) (100, 100)) [OPoint (-5, 50) 1]) as [P|] eqn:E; [|vm_compute in E; discriminate]. exists P.
  split; [split; cbn; lra|]. split; [split; cbn; lra|]. split; [reflexivity|]. split; [unfold dist2; cbn; lra|].
  assert (K : option_map (fun P => includes P (1, 90)) (Some P) = Some true) by (rewrite <- E; vm_compute; reflexivity). cbn in K. congruence.
Qed.
Print Assumptions C141_skipped_outside_refuted.

(** ** C142: the bounding box (refuted) *)

Theorem C142_bounding_box_refuted : exists center dim os x P ox oy dx dy, region center dim os center /\ heeded center false os /\
  run (polytope_make center dim) (os ++ [OUpdate false]) = Some P /\ p_box P = ((ox, oy), (dx, dy)) /\ includes P x = true /\ inject_Z (ox + dx) < fst x.
Proof.
  exists (3 # 2, 5), (10, 10), [OPlane (make_plane (9 # 10, 5) (1, 0) 1); OPlane (make_plane (21 # 10, 5) (-1, 0) 2)], (2, 5).
  destruct (run (polytope_make (3 # 2, 5) (10, 10)) ([OPlane (make_plane (9 # 10, 5) (1, 0) 1); OPlane (make_plane (21 # 10, 5) (-1, 0) 2)] ++ [OUpdate false])) as [P|] eqn:E; [|vm_compute in E; discriminate].
  exists P, 0%Z, 0%Z, 1%Z, 10%Z. split; [|split; [exact I|split; [reflexivity|]]].
  - split; [split; cbn; lra|]. intros o [<-|[<-|[]]]; cbn [admits]; unfold above, height; cbn [make_plane e_base e_dir fst snd]; lra.
  - assert (K : option_map (fun P => (p_box P, includes P (2, 5))) (Some P) = Some (((0, 0), (1, 10))%Z, true)) by (rewrite <- E; vm_compute; reflexivity). cbn in K. split; [congruence|]. split; [congruence|]. vm_compute. reflexivity.
Qed.
Print Assumptions C142_bounding_box_refuted.

(** ** C143: VoronoiMesher's neighbor IDs (refuted) *)

Lemma insert_ids (Q : Z -> Prop) P e : (forall l, In l (p_limits P) -> Q (e_id l)) -> Q (e_id e) -> forall l, In l (p_limits (insert_plane P e)) -> Q (e_id l).
Proof.
  intros H He l. unfold insert_plane. destruct (existsb _ _); [apply H|]. cbv zeta. destruct (_ || _); [|apply H]. cbn [p_limits].
  assert (K : forall l f, In l (map fst (filter f (combine (p_limits P) (p_cuts P)))) -> Q (e_id l)). { intros l0 f Hl. apply in_map_iff in Hl. destruct Hl as ([l' c] & <- & Hl). apply filter_In in Hl. destruct Hl as [Hl _]. apply H. eapply in_combine_l. exact Hl. }
  destruct (forallb _ _); [apply K|]. intros Hl. apply in_app_or in Hl. destruct Hl as [Hl|[<-|[]]]; [now apply K in Hl|exact He].
Qed.

(** Whatever cells surround a cell: it's only ever told its own ID, or that of
    the sides of the space. *)
Theorem C143_own_ids : forall dim quadrant c around ns, mesh_neighbors dim quadrant c around = Some ns -> forall id len dir, In (id, len, dir) ns -> id = 0%Z \/ id = snd c.
Proof.
  intros dim quadrant c around ns H id len dir Hi. unfold mesh_neighbors in H. assert (K : forall l, In l (p_limits (mesh_element dim c around)) -> e_id l = 0%Z \/ e_id l = snd c).
  { unfold mesh_element. assert (G : forall P, (forall l, In l (p_limits P) -> e_id l = 0%Z \/ e_id l = snd c) -> forall l, In l (p_limits (fold_left (fun e j => if peqb (fst c) (fst j) then e else insert_point e (fst j) (snd c)) around P)) -> e_id l = 0%Z \/ e_id l = snd c).
    { clear. induction around as [|j js IH]; intros P HP; cbn [fold_left]; [exact HP|]. apply IH. destruct (peqb (fst c) (fst j)); [exact HP|]. unfold insert_point. destruct (p_box P) as [[ox oy] [dx dy]]. destruct (_ || _); [exact HP|].
      apply (insert_ids (fun i => i = 0%Z \/ i = snd c)); [exact HP|]. now right. }
    apply G. intros l [<-|[<-|[<-|[<-|[]]]]]; now left. }
  destruct (update_geometry false (mesh_element dim c around)) as [e|] eqn:E; [|discriminate]. destruct (lt_b _ _); [discriminate|]. assert (ns = map (fun l => (e_id l, e_length2 l, e_dir l)) (p_limits e)) as -> by congruence.
  apply in_map_iff in Hi. destruct Hi as (l & El & Hl). assert (e_id l = id) as <- by congruence. unfold update_geometry in E. destruct (extents _) as [mn mx]. destruct (lt_b _ _); [discriminate|].
  assert (X := f_equal (option_map p_limits) E). cbn in X. assert (p_limits e = map set_length (combine (p_limits (mesh_element dim c around)) (p_cuts (mesh_element dim c around)))) as El' by congruence. rewrite El' in Hl.
  apply in_map_iff in Hl. destruct Hl as ([l' lr] & <- & Hl). cbn [set_length e_id fst]. apply K. eapply in_combine_l. exact Hl.
Qed.
Print Assumptions C143_own_ids.

Theorem C143_neighbor_ids_refuted : exists dim quadrant c around ns j u v, mesh_neighbors dim quadrant c around = Some ns /\ In j around /\ (forall k, In k around -> open_box dim (fst k)) /\
  voronoi_closed (fst c) dim [j] u /\ dist2 u (fst c) == dist2 u (fst j) /\ voronoi_closed (fst c) dim [j] v /\ dist2 v (fst c) == dist2 v (fst j) /\ ~ same_point u v /\
  (forall k, In k around -> k = c \/ k = j) /\ ~ exists len dir, In (snd j, len, dir) ns.
Proof.
  exists (10, 10), (10, 10), ((5, 5), 42%Z), [((5, 5), 42%Z); ((8, 5), 7%Z)].
  destruct (mesh_neighbors (10, 10) (10, 10) ((5, 5), 42%Z) [((5, 5), 42%Z); ((8, 5), 7%Z)]) as [ns|] eqn:E; [|vm_compute in E; discriminate]. exists ns, ((8, 5), 7%Z), (13 # 2, 0), (13 # 2, 10).
  split; [reflexivity|]. split; [cbn; auto|]. split; [intros k [<-|[<-|[]]]; split; cbn; lra|].
  assert (B : forall y, (y == 0 \/ y == 10) -> voronoi_closed (5, 5) (10, 10) [((8, 5), 7%Z)] (13 # 2, y) /\ dist2 (13 # 2, y) (5, 5) == dist2 (13 # 2, y) (8, 5)).
  { intros y Hy. split; [|unfold dist2; cbn [fst snd]; lra]. split; [split; cbn [fst snd]; lra|]. intros c id [K|[]]. assert (c = (8, 5)) as -> by congruence. unfold dist2. cbn [fst snd]. lra. }
  destruct (B 0) as [B1 B2]; [lra|]. destruct (B 10) as [B3 B4]; [lra|]. split; [exact B1|]. split; [exact B2|]. split; [exact B3|]. split; [exact B4|]. split; [intros [_ K]; cbn in K; lra|].
  split; [intros k [<-|[<-|[]]]; auto|]. intros (len & dir & Hi). destruct (C143_own_ids _ _ _ _ _ E _ _ _ Hi) as [K|K]; cbn in K; discriminate.
Qed.
Print Assumptions C143_neighbor_ids_refuted.
