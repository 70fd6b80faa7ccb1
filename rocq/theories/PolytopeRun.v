(** What sequences of operations preserve. *)
From Coq Require Import ZArith QArith Qround Qminmax Qabs List Bool Lia.
From Verif Require Import Base ParamModel ParamFacts PolytopeModel PolytopeSpec PolytopeFacts PolytopeInv.
From Coq Require Import Lqa.
Import ListNotations.
Open Scope Q_scope.

(** ** Minima and maxima *)

Definition widen (mm : point * point) (c : point) : point * point := if peqb c far_away then mm else (pmin c (fst mm), pmax c (snd mm)).

Lemma qmin_cases a b : Qmin a b == a \/ Qmin a b == b.
Proof. destruct (Q.min_spec a b) as [[_ H]|[_ H]]; [now left|now right]. Qed.
Lemma qmax_cases a b : Qmax a b == a \/ Qmax a b == b.
Proof. destruct (Q.max_spec a b) as [[_ H]|[_ H]]; [now right|now left]. Qed.

(** One of the four bounds: [pr] is its direction. *)
Definition bound_of (pr : point -> Q) (cs : list point) (init r : Q) : Prop :=
  init <= r /\ (forall c, In c cs -> pr c <= r) /\ (r == init \/ exists c, In c cs /\ r == pr c).

Lemma widen_spec cs : forall mm, (forall c, In c cs -> peqb c far_away = false) -> let r := fold_left widen cs mm in
  bound_of (fun c => - fst c) cs (- fst (fst mm)) (- fst (fst r)) /\ bound_of (fun c => - snd c) cs (- snd (fst mm)) (- snd (fst r)) /\
  bound_of (@fst _ _) cs (fst (snd mm)) (fst (snd r)) /\ bound_of (@snd _ _) cs (snd (snd mm)) (snd (snd r)).
Proof.
  induction cs as [|c cs IH]; intros mm H; cbv zeta; cbn [fold_left].
  - assert (B : forall pr i, bound_of pr [] i i) by (intros pr i; split; [apply Qle_refl|]; split; [intros c []|left; reflexivity]). auto.
  - destruct (IH (widen mm c)) as (A1 & A2 & A3 & A4); [intros x Hx; apply H; now right|]. clear IH. assert (G : forall (pr : point -> Q) i i' r, bound_of pr cs i' r -> i <= i' -> pr c <= i' -> (i' == i \/ i' == pr c) -> bound_of pr (c :: cs) i r).
    { intros pr i i' r (B1 & B2 & B3) Hi Hc Hr. split; [lra|]. split; [intros x [<-|Hx]; [lra|now apply B2]|]. destruct B3 as [B3|(x & Hx & B3)]; [|right; exists x; split; [now right|exact B3]].
      destruct Hr as [Hr|Hr]; [left; lra|right; exists c; split; [now left|lra]]. }
    cbv zeta in *. assert (E : widen mm c = (pmin c (fst mm), pmax c (snd mm))) by (unfold widen; now rewrite (H c (or_introl eq_refl))). rewrite E in *. cbn [fst snd pmin pmax] in *.
    assert (Mi : forall a b, - b <= - Qmin a b /\ - a <= - Qmin a b /\ (- Qmin a b == - b \/ - Qmin a b == - a)).
    { intros a b. pose proof (Q.le_min_l a b). pose proof (Q.le_min_r a b). split; [lra|]. split; [lra|]. destruct (qmin_cases a b) as [K|K]; [right|left]; rewrite K; reflexivity. }
    assert (Ma : forall a b, b <= Qmax a b /\ a <= Qmax a b /\ (Qmax a b == b \/ Qmax a b == a)).
    { intros a b. pose proof (Q.le_max_l a b). pose proof (Q.le_max_r a b). split; [lra|]. split; [lra|]. destruct (qmax_cases a b) as [K|K]; [right|left]; exact K. }
    split; [|split; [|split]].
    + destruct (Mi (fst c) (fst (fst mm))) as (M1 & M2 & M3). exact (G _ _ _ _ A1 M1 M2 M3).
    + destruct (Mi (snd c) (snd (fst mm))) as (M1 & M2 & M3). exact (G _ _ _ _ A2 M1 M2 M3).
    + destruct (Ma (fst c) (fst (snd mm))) as (M1 & M2 & M3). exact (G _ _ _ _ A3 M1 M2 M3).
    + destruct (Ma (snd c) (snd (snd mm))) as (M1 & M2 & M3). exact (G _ _ _ _ A4 M1 M2 M3).
Qed.

(** ** Updating the geometry *)

Lemma extents_fold P : extents P = fold_left widen (cut_list P) (p_dim P, pscale (p_dim P) (-1)).
Proof. reflexivity. Qed.

Section Update.
Context (center dim w : point) (S : list plane) (P : polytope).
Hypothesis V : valid center dim w S P.

Lemma cut_ends i l : nth_error (p_limits P) i = Some l -> let lr := cuts_of dim (p_limits P) i l in
  val l (fst lr) == 0 /\ closed (p_limits P) (fst lr) /\ val l (snd lr) == 0 /\ closed (p_limits P) (snd lr) /\
  forall z, closed (p_limits P) z -> val l z == 0 -> distance l (snd lr) <= distance l z <= distance l (fst lr).
Proof using V.
  intros Hi. destruct (v_touch _ _ _ _ _ V l (nth_error_In _ _ Hi)) as (y & Cy & Vy).
  apply (cuts_spec dim w (p_limits P) (valid_inside _ _ _ _ _ V) (fun x => valid_box _ _ _ _ _ x V) i l y Hi Cy Vy).
Qed.

Lemma in_cut_list c : In c (cut_list P) <-> exists i l, nth_error (p_limits P) i = Some l /\ (c = fst (cuts_of dim (p_limits P) i l) \/ c = snd (cuts_of dim (p_limits P) i l)).
Proof using V.
  unfold cut_list. rewrite in_flat_map, (v_cuts _ _ _ _ _ V). split.
  - intros (lr & Hlr & Hc). apply In_nth_error in Hlr. destruct Hlr as [i Hi]. assert (K : (i < length (p_limits P))%nat) by (rewrite <- (generate_length dim); apply nth_error_Some; congruence).
    apply nth_error_Some in K. destruct (nth_error (p_limits P) i) as [l|] eqn:El; [|congruence]. exists i, l. split; [exact El|]. rewrite (generate_nth dim _ _ _ El) in Hi. assert (lr = cuts_of dim (p_limits P) i l) as -> by congruence.
    destruct Hc as [<-|[<-|[]]]; auto.
  - intros (i & l & Hi & Hc). exists (cuts_of dim (p_limits P) i l). split; [eapply nth_error_In; apply generate_nth; exact Hi|]. destruct Hc as [->| ->]; cbn; auto.
Qed.

Lemma cut_list_closed c : In c (cut_list P) -> closed (p_limits P) c.
Proof using V. intros H. apply in_cut_list in H. destruct H as (i & l & Hi & Hc). destruct (cut_ends i l Hi) as (_ & A & _ & B & _). destruct Hc as [->| ->]; assumption. Qed.

Lemma box_not_far c : in_box dim c -> peqb c far_away = false.
Proof using. intros [[B1 _] _]. apply not_true_iff_false. intros K. apply peqb_spec in K. destruct K as [K _]. cbn in K. lra. Qed.

Lemma reach g x : ~ norm2 g == 0 -> closed (p_limits P) x -> exists c, In c (cut_list P) /\ val g x <= val g c.
Proof using V.
  intros N Cx. destruct (spanned dim w (p_limits P) (valid_inside _ _ _ _ _ V) (fun z => valid_box _ _ _ _ _ z V) g x N Cx (v_touch _ _ _ _ _ V)) as (i & l & Hi & [K|K]).
  - exists (fst (cuts_of dim (p_limits P) i l)). split; [apply in_cut_list; exists i, l; auto|exact K].
  - exists (snd (cuts_of dim (p_limits P) i l)). split; [apply in_cut_list; exists i, l; auto|exact K].
Qed.

(** The extents are those of the polygon. *)
Lemma extents_spec : let '(mn, mx) := extents P in
  (exists u, closed (p_limits P) u /\ fst mn == fst u) /\ (exists u, closed (p_limits P) u /\ snd mn == snd u) /\
  (exists u, closed (p_limits P) u /\ fst mx == fst u) /\ (exists u, closed (p_limits P) u /\ snd mx == snd u) /\
  forall u, closed (p_limits P) u -> (fst mn <= fst u <= fst mx) /\ (snd mn <= snd u <= snd mx).
Proof using V.
  rewrite extents_fold, (v_dim _ _ _ _ _ V). pose proof (widen_spec (cut_list P) (dim, pscale dim (-1)) (fun c Hc => box_not_far c (valid_box _ _ _ _ _ c V (cut_list_closed c Hc)))) as W. cbv zeta in W.
  destruct (fold_left widen (cut_list P) (dim, pscale dim (-1))) as [mn mx]. cbn [fst snd] in W. unfold pscale in W. cbn [fst snd] in W. destruct W as (A1 & A2 & A3 & A4).
  pose proof (valid_inside _ _ _ _ _ V) as Iw. pose proof (inside_closed _ _ Iw) as Cw. pose proof (proj1 (sides_inside center dim w)) as Bw.
  assert (Wb : (0 < fst w < fst dim) /\ (0 < snd w < snd dim)). { apply Bw. intros e He. apply (v_witness _ _ _ _ _ V). apply in_or_app. now left. } clear Bw.
  set (px := make_plane (0, 0) (1, 0) 0%Z). set (mx_ := make_plane (0, 0) (-1, 0) 0%Z). set (py := make_plane (0, 0) (0, 1) 0%Z). set (my := make_plane (0, 0) (0, -1) 0%Z).
  assert (Epx : forall x, val px x == fst x) by (intros x; unfold px, make_plane; unp; cbn [e_base e_dir fst snd]; ring). assert (Emx : forall x, val mx_ x == - fst x) by (intros x; unfold mx_, make_plane; unp; cbn [e_base e_dir fst snd]; ring).
  assert (Epy : forall x, val py x == snd x) by (intros x; unfold py, make_plane; unp; cbn [e_base e_dir fst snd]; ring). assert (Emy : forall x, val my x == - snd x) by (intros x; unfold my, make_plane; unp; cbn [e_base e_dir fst snd]; ring).
  assert (R1 : forall x, closed (p_limits P) x -> exists c, In c (cut_list P) /\ fst x <= fst c) by (intros x Hx; destruct (reach px x ltac:(intros K; vm_compute in K; discriminate) Hx) as (c & Hc & K); exists c; rewrite !Epx in K; auto).
  assert (R2 : forall x, closed (p_limits P) x -> exists c, In c (cut_list P) /\ fst c <= fst x) by (intros x Hx; destruct (reach mx_ x ltac:(intros K; vm_compute in K; discriminate) Hx) as (c & Hc & K); exists c; rewrite !Emx in K; split; [exact Hc|lra]).
  assert (R3 : forall x, closed (p_limits P) x -> exists c, In c (cut_list P) /\ snd x <= snd c) by (intros x Hx; destruct (reach py x ltac:(intros K; vm_compute in K; discriminate) Hx) as (c & Hc & K); exists c; rewrite !Epy in K; auto).
  assert (R4 : forall x, closed (p_limits P) x -> exists c, In c (cut_list P) /\ snd c <= snd x) by (intros x Hx; destruct (reach my x ltac:(intros K; vm_compute in K; discriminate) Hx) as (c & Hc & K); exists c; rewrite !Emy in K; split; [exact Hc|lra]).
  clearbody px mx_ py my. destruct A1 as (A1 & B1 & D1), A2 as (A2 & B2 & D2), A3 as (A3 & B3 & D3), A4 as (A4 & B4 & D4).
  assert (All : forall u, closed (p_limits P) u -> (fst mn <= fst u <= fst mx) /\ (snd mn <= snd u <= snd mx)).
  { intros u Hu. destruct (R1 u Hu) as (c1 & H1 & K1), (R2 u Hu) as (c2 & H2 & K2), (R3 u Hu) as (c3 & H3 & K3), (R4 u Hu) as (c4 & H4 & K4). apply B3 in H1. apply B1 in H2. apply B4 in H3. apply B2 in H4. split; split; lra. }
  pose proof (All w Cw) as Aw. split; [|split; [|split; [|split; [|exact All]]]].
  - destruct D1 as [D1|(c & Hc & D1)]; [exfalso; lra|]. exists c. split; [now apply cut_list_closed|lra].
  - destruct D2 as [D2|(c & Hc & D2)]; [exfalso; lra|]. exists c. split; [now apply cut_list_closed|lra].
  - destruct D3 as [D3|(c & Hc & D3)]; [exfalso; lra|]. exists c. split; [now apply cut_list_closed|lra].
  - destruct D4 as [D4|(c & Hc & D4)]; [exfalso; lra|]. exists c. split; [now apply cut_list_closed|lra].
Qed.

Lemma relength_same : Forall2 same (map set_length (combine (p_limits P) (p_cuts P))) (p_limits P).
Proof using V.
  assert (H : length (p_cuts P) = length (p_limits P)) by (rewrite (v_cuts _ _ _ _ _ V); apply generate_length). revert H. generalize (p_cuts P) as C. generalize (p_limits P) as L. clear V.
  induction L as [|l L IH]; intros [|c C] H; try discriminate H; cbn [combine map]; [constructor|]. constructor; [repeat split|]. apply IH. cbn in H. congruence.
Qed.

Lemma relength_valid box d : (forall u v, closed (p_limits P) u -> closed (p_limits P) v -> fst u - fst v <= d /\ snd u - snd v <= d) ->
  valid center dim w S (mkPolytope (p_center P) (p_dim P) (map set_length (combine (p_limits P) (p_cuts P))) (p_cuts P) box d).
Proof using V.
  intros Hd. pose proof relength_same as HS. set (M := map set_length (combine (p_limits P) (p_cuts P))) in *. clearbody M. pose proof (fun x => same_closed M (p_limits P) x HS) as HC. pose proof (fun x => same_inside M (p_limits P) x HS) as HI.
  split; cbn [p_center p_dim p_limits p_cuts p_diameter]; try apply V.
  - intros x. rewrite HI. apply V.
  - intros l Hl. destruct (forall2_in _ _ _ _ HS Hl) as (m & Hm & Sm). destruct (v_touch _ _ _ _ _ V m Hm) as (y & Cy & Vy). exists y. rewrite HC, (same_val _ _ y Sm). auto.
  - rewrite (v_cuts _ _ _ _ _ V). symmetry. now apply same_generate.
  - intros l Hl. destruct (forall2_in _ _ _ _ HS Hl) as (m & Hm & Sm). destruct (v_from _ _ _ _ _ V m Hm) as (e & He & Se). exists e. split; [exact He|]. eapply same_trans; eauto.
  - intros e u v He Cu Cv Eu Ev N. rewrite HC in Cu, Cv. destruct (v_edges _ _ _ _ _ V e u v He Cu Cv Eu Ev N) as (m & Hm & Mu & Mv). destruct (forall2_in_r _ _ _ _ HS Hm) as (l & Hl & Sl). exists l. rewrite !(same_val _ _ _ Sl). auto.
  - intros u v Cu Cv. rewrite HC in Cu, Cv. now apply Hd.
Qed.

Lemma update_valid b : exists P', update_geometry b P = Some P' /\ valid center dim w S P'.
Proof using V.
  unfold update_geometry. pose proof extents_spec as E. destruct (extents P) as [mn mx]. destruct E as ((u1 & C1 & E1) & (u2 & C2 & E2) & (u3 & C3 & E3) & (u4 & C4 & E4) & All). destruct b.
  - eexists. split; [reflexivity|]. apply relength_valid. apply V.
  - unfold psub. cbn [fst snd].
    assert (D : forall u v, closed (p_limits P) u -> closed (p_limits P) v -> fst u - fst v <= Qmax (fst mx - fst mn) (snd mx - snd mn) /\ snd u - snd v <= Qmax (fst mx - fst mn) (snd mx - snd mn)).
    { intros u v Cu Cv. pose proof (All u Cu). pose proof (All v Cv). pose proof (Q.le_max_l (fst mx - fst mn) (snd mx - snd mn)). pose proof (Q.le_max_r (fst mx - fst mn) (snd mx - snd mn)). split; lra. }
    assert (lt_b (p_diameter P) (Qmax (fst mx - fst mn) (snd mx - snd mn)) = false) as ->.
    { apply lt_b_false. apply Q.max_lub; [rewrite E1, E3; now apply (v_diameter _ _ _ _ _ V)|rewrite E2, E4; now apply (v_diameter _ _ _ _ _ V)]. }
    eexists. split; [reflexivity|]. now apply relength_valid.
Qed.

(** Lengths after an update. *)
Lemma update_lengths b P' l : update_geometry b P = Some P' -> In l (p_limits P') -> exists u v, closed (p_limits P') u /\ val l u == 0 /\ closed (p_limits P') v /\ val l v == 0 /\ e_length2 l == dot (psub u v) (psub u v) /\
  forall z, closed (p_limits P') z -> val l z == 0 -> distance l v <= distance l z <= distance l u.
Proof using V.
  intros Hu Hl. assert (El : p_limits P' = map set_length (combine (p_limits P) (p_cuts P))).
  { unfold update_geometry in Hu. destruct (extents P) as [mn mx]. destruct b; [assert (X := f_equal (option_map p_limits) Hu); cbn in X; congruence|]. destruct (lt_b _ _); [discriminate|]. assert (X := f_equal (option_map p_limits) Hu). cbn in X. congruence. }
  rewrite El in Hl. apply in_map_iff in Hl. destruct Hl as ([m lr] & <- & Hm). rewrite (v_cuts _ _ _ _ _ V) in Hm. apply all_nth in Hm. destruct Hm as (i & Hi & ->). destruct (cut_ends i m Hi) as (A1 & A2 & A3 & A4 & A5).
  pose proof relength_same as HS. rewrite <- El in HS. pose proof (fun x => same_closed (p_limits P') (p_limits P) x HS) as HC.
  exists (fst (cuts_of dim (p_limits P) i m)), (snd (cuts_of dim (p_limits P) i m)). rewrite !HC. repeat split; auto; try reflexivity; intros; apply A5; auto; now apply HC.
Qed.
End Update.

(** ** Sequences *)

Definition planes_of (center : point) (os : list op) : list plane :=
  flat_map (fun o => match o with OPlane e => [e] | OPoint c id => [bisector center c id] | OUpdate _ => [] end) os.

Lemma height_val e x : height (e_base e) (e_dir e) x = val e x.
Proof. reflexivity. Qed.

Lemma bisector_val center c id x : val (bisector center c id) x == (dist2 x c - dist2 x center) * (1 # 2).
Proof. unfold bisector, make_plane, dist2. unp. cbn [e_base e_dir fst snd]. field. Qed.

Lemma planes_inside center os x : inside (planes_of center os) x <-> forall o, In o os -> admits center o x.
Proof.
  induction os as [|o os IH]; cbn [planes_of flat_map]; [split; intros _ ? []|]. fold (planes_of center os). split.
  - intros H o' [<-|Ho]; [|apply IH; [intros e He; apply H; apply in_or_app; now right|exact Ho]]. destruct o as [e|c id|b]; cbn [admits]; [|..]; auto.
    + apply H. now left.
    + assert (K : 0 < val (bisector center c id) x) by (apply H; now left). rewrite bisector_val in K. lra.
  - intros H e He. apply in_app_or in He. destruct He as [He|He]; [|apply IH; [intros o' Ho'; apply H; now right|exact He]]. pose proof (H o (or_introl eq_refl)) as K. destruct o as [e'|c id|b]; cbn [admits] in K.
    + destruct He as [<-|[]]. exact K.
    + destruct He as [<-|[]]. rewrite bisector_val. lra.
    + destruct He.
Qed.

Lemma planes_closed center os x : closed (planes_of center os) x <-> forall o, In o os -> admits_border center o x.
Proof.
  induction os as [|o os IH]; cbn [planes_of flat_map]; [split; intros _ ? []|]. fold (planes_of center os). split.
  - intros H o' [<-|Ho]; [|apply IH; [intros e He; apply H; apply in_or_app; now right|exact Ho]]. destruct o as [e|c id|b]; cbn [admits_border]; [|..]; auto.
    + apply H. now left.
    + assert (K : 0 <= val (bisector center c id) x) by (apply H; now left). rewrite bisector_val in K. lra.
  - intros H e He. apply in_app_or in He. destruct He as [He|He]; [|apply IH; [intros o' Ho'; apply H; now right|exact He]]. pose proof (H o (or_introl eq_refl)) as K. destruct o as [e'|c id|b]; cbn [admits_border] in K.
    + destruct He as [<-|[]]. exact K.
    + destruct He as [<-|[]]. rewrite bisector_val. lra.
    + destruct He.
Qed.

Lemma insert_plane_box P e : p_box (insert_plane P e) = p_box P.
Proof. unfold insert_plane. destruct (existsb _ _); [reflexivity|]. cbv zeta. destruct (_ || _); reflexivity. Qed.

(** No operation throws; points may be skipped. *)
Lemma run_valid center dim w os : forall S P, valid center dim w S P -> inside (planes_of center os) w ->
  exists P' S', run P os = Some P' /\ valid center dim w (S ++ S') P' /\ incl S' (planes_of center os).
Proof.
  induction os as [|o os IH]; intros S P V Hw; cbn [run].
  - exists P, []. rewrite app_nil_r. split; [reflexivity|]. split; [exact V|intros x []].
  - cbn [planes_of flat_map] in Hw |- *. fold (planes_of center os) in *. assert (Hw' : inside (planes_of center os) w) by (intros e He; apply Hw; apply in_or_app; now right).
    assert (G : forall e, 0 < val e w -> exists P' S', run (insert_plane P e) os = Some P' /\ valid center dim w (S ++ S') P' /\ incl S' ([e] ++ planes_of center os)).
    { intros e He. destruct (IH (S ++ [e]) (insert_plane P e)) as (P' & S' & H1 & H2 & H3); [now apply valid_insert|exact Hw'|].
      exists P', (e :: S'). rewrite <- app_assoc in H2. split; [exact H1|]. split; [exact H2|]. intros x [<-|Hx]; [now left|right; now apply H3]. }
    destruct o as [e|c id|b]; cbn [step].
    + apply G. apply Hw. now left.
    + unfold insert_point. rewrite (v_center _ _ _ _ _ V). destruct (p_box P) as [[ox oy] [dx dy]]. destruct (_ || _); [|apply G; apply Hw; now left].
      destruct (IH S P V Hw') as (P' & S' & H1 & H2 & H3). exists P', S'. split; [exact H1|]. split; [exact H2|]. intros x Hx. right. now apply H3.
    + destruct (update_valid center dim w S P V b) as (P1 & E1 & V1). rewrite E1. exact (IH S P1 V1 Hw').
Qed.

(** No point is skipped. *)
Lemma run_heeded center dim w os : forall updated S P, valid center dim w S P -> (updated = false -> p_box P = ((0, 0), (0, 0))%Z) -> heeded center updated os -> inside (planes_of center os) w ->
  exists P', run P os = Some P' /\ valid center dim w (S ++ planes_of center os) P'.
Proof.
  induction os as [|o os IH]; intros updated S P V HB Hh Hw; cbn [run].
  - exists P. cbn. rewrite app_nil_r. auto.
  - cbn [planes_of flat_map] in Hw |- *. fold (planes_of center os) in *. assert (Hw' : inside (planes_of center os) w) by (intros e He; apply Hw; apply in_or_app; now right).
    assert (G : forall e, heeded center updated os -> 0 < val e w -> exists P', run (insert_plane P e) os = Some P' /\ valid center dim w (S ++ [e] ++ planes_of center os) P').
    { intros e He Hv. destruct (IH updated (S ++ [e]) (insert_plane P e)) as (P' & H1 & H2); auto; [now apply valid_insert|now rewrite insert_plane_box|]. exists P'. rewrite <- app_assoc in H2. auto. }
    destruct o as [e|c id|b]; cbn [step heeded] in *.
    + apply G; [exact Hh|]. apply Hw. now left.
    + destruct Hh as (Hu & H1 & H2 & Hh). assert (E : insert_point P c id = insert_plane P (bisector center c id)).
      { unfold insert_point. rewrite (HB Hu), (v_center _ _ _ _ _ V). change (0 + 1)%Z with 1%Z. unfold bisector at 1 2, make_plane, pscale, padd. cbn [e_base fst snd].
        assert (K : forall a, -2 <= a -> lt_b (inject_Z 1) (inject_Z 0 - a * (1 # 2)) = false) by (intros a Ha; apply lt_b_false; change (inject_Z 1) with 1; change (inject_Z 0) with 0; lra). rewrite (K _ H1), (K _ H2). reflexivity. }
      rewrite E. apply G; [exact Hh|]. apply Hw. now left.
    + destruct (update_valid center dim w S P V b) as (P1 & E1 & V1). rewrite E1. apply (IH true S P1 V1); auto. discriminate.
Qed.

Lemma run_app P a b : run P (a ++ b) = match run P a with Some P' => run P' b | None => None end.
Proof. revert P. induction a as [|o a IH]; intros P; [reflexivity|]. cbn [app run]. destruct (step P o); auto. Qed.

Lemma includes_inside P x : includes P x = true <-> inside (p_limits P) x.
Proof. unfold includes. rewrite forallb_forall. split; intros H e He; specialize (H e He); unfold is_on_top in *; now apply lt_b_spec. Qed.

Lemma planes_of_snoc_update center os b : planes_of center (os ++ [OUpdate b]) = planes_of center os.
Proof. unfold planes_of. rewrite flat_map_app. cbn. apply app_nil_r. Qed.

(** Distances on a line *)
Lemma line_dist2 e p q : val e p == 0 -> val e q == 0 -> dist2 p q * norm2 e == (distance e p - distance e q) * (distance e p - distance e q).
Proof.
  intros H1 H2. assert (K : val e p - val e q == 0) by lra. assert (E : dist2 p q * norm2 e == (distance e p - distance e q) * (distance e p - distance e q) + (val e p - val e q) * (val e p - val e q)) by (unfold dist2; unp; ring).
  rewrite E, K. ring.
Qed.

Lemma line_longest e u v x y : 0 < norm2 e -> val e u == 0 -> val e v == 0 -> val e x == 0 -> val e y == 0 -> distance e v <= distance e x <= distance e u -> distance e v <= distance e y <= distance e u -> dist2 x y <= dist2 u v.
Proof.
  intros N U V X Y A B. pose proof (line_dist2 e u v U V) as K1. pose proof (line_dist2 e x y X Y) as K2. assert (K : dist2 x y * norm2 e <= dist2 u v * norm2 e) by (rewrite K1, K2; nra).
  apply Qmult_lt_0_le_reg_r with (z := norm2 e) in K; [exact K|exact N].
Qed.
