(** Simplex search: C133 to C137. *)
From Coq Require Import ZArith QArith Qround List Bool Lia.
From Verif Require Import Base RegionOpsModel UpdateModel UpdateFacts ParamModel ParamSpec ParamFacts SimplexModel SimplexSpec SimplexFacts SimplexBest.
From Coq Require Import Lqa.
Import ListNotations.
Open Scope Q_scope.

Section Loop.
Context (P : param (N := Q) -> Prop).
Hypothesis P_set : forall p v, P p -> exists p', p_set exact p v = Some p' /\ P p' /\ same_domain p p'.
Context (dmin dmax : Q) (eval : params -> Q).

Lemma loop_spec ps : forall steps s log, shaped P ps (x_vertices s) -> known eval (x_vertices s) -> length (x_sizes s) = length ps -> exists s' l,
  search_loop exact dmin dmax eval steps s log = Some (s', log ++ l) /\ shaped P ps (x_vertices s') /\ known eval (x_vertices s') /\ length (x_sizes s') = length ps /\
  Forall (fitting P ps) l /\ (length l <= steps * (2 * length ps + 4))%nat /\ incl (map v_params (x_vertices s')) (map v_params (x_vertices s) ++ l).
Proof using P_set.
  induction steps as [|k IH]; intros s log S K L; cbn [search_loop].
  - exists s, []. rewrite !app_nil_r. split; [reflexivity|]. split; [exact S|]. split; [exact K|]. split; [exact L|]. split; [constructor|]. split; [cbn; lia|apply incl_refl].
  - destruct (move_spec P P_set dmin dmax eval ps (x_vertices s) S K) as (vs1 & l1 & -> & (S1 & K1 & F1 & I1) & L1). cbn [obind fst snd].
    destruct (settle_spec P P_set dmin eval s ps (x_vertices s) vs1 S S1 K1 L) as (vs2 & mult & l2 & stop & -> & (S2 & K2 & F2 & I2) & L2 & _). cbn [obind].
    assert (I : incl (map v_params vs2) (map v_params (x_vertices s) ++ l1 ++ l2)).
    { intros q Hq. apply I2 in Hq. apply in_app_or in Hq. rewrite app_assoc. apply in_or_app. destruct Hq as [Hq|Hq]; [left; now apply I1|now right]. }
    assert (F : Forall (fitting P ps) (l1 ++ l2)) by (apply Forall_app; now split).
    assert (Len : (length (l1 ++ l2) <= 2 * length ps + 4)%nat) by (rewrite app_length; destruct S as [Ls _], S1 as [Ls1 _]; lia).
    destruct stop.
    + eexists _, (l1 ++ l2). split; [reflexivity|]. cbn [x_vertices x_sizes]. split; [exact S2|]. split; [exact K2|]. split; [exact L|]. split; [exact F|]. split; [lia|exact I].
    + destruct (IH (mkSimplex (x_epsilon s) mult (x_sizes s) vs2 (x_fitness s)) (log ++ l1 ++ l2) S2 K2 L) as (s' & l & E & S' & K' & L' & F' & Len' & I'). exists s', ((l1 ++ l2) ++ l). rewrite (app_assoc log (l1 ++ l2) l).
      split; [exact E|]. split; [exact S'|]. split; [exact K'|]. split; [exact L'|]. split; [apply Forall_app; now split|]. split; [rewrite app_length; lia|].
      intros q Hq. apply I' in Hq. apply in_app_or in Hq. cbn [x_vertices] in Hq. rewrite app_assoc. apply in_or_app. destruct Hq as [Hq|Hq]; [left; now apply I|now right].
Qed.

(** Between calls: vertices are reset, or they've been evaluated. *)
Definition ready (ps : params) (s : simplex Q) (past : list params) : Prop :=
  shaped P ps (x_vertices s) /\ tracked eval (x_vertices s) /\ length (x_sizes s) = length ps /\
  Forall (fun v => v_fitness v = inject_Z (-1) \/ In (v_params v) past) (x_vertices s).

Lemma search_spec ps n s past : ready ps s past -> exists s' q log b,
  search exact dmin dmax eval n s = Some (s', q, log) /\ ready ps s' (past ++ log) /\ known eval (x_vertices s') /\
  nth_error (x_vertices s') (max_in exact dmin (x_vertices s')) = Some b /\ q = v_params b /\ x_fitness s' = v_fitness b /\
  Forall (fitting P ps) log /\ (length log <= S (length ps) + Z.to_nat n * (2 * length ps + 4))%nat /\ In q (past ++ log) /\
  (forall v, In v (x_vertices s) -> v_fitness v = inject_Z (-1) -> In (v_params v) log).
Proof using P_set.
  intros (S & T & L & I). unfold search. destruct (eval_simplex exact eval (x_vertices s)) as [vs0 l0] eqn:E0.
  destruct (eval_simplex_spec P eval ps _ _ _ E0 S T) as (S0 & K0 & M0 & F0 & L0 & I0 & A0).
  destruct (loop_spec ps (Z.to_nat n) (mkSimplex (x_epsilon s) (x_mult s) (x_sizes s) vs0 (x_fitness s)) l0 S0 K0 L) as (s' & l & -> & S' & K' & L' & F' & Len' & I'). cbn [obind].
  destruct (max_in_nth dmin (x_vertices s') (shaped_nonempty _ _ _ S')) as [b Eb]. rewrite Eb. cbn [option_map].
  assert (New : forall v, In v (x_vertices s) -> v_fitness v = inject_Z (-1) -> In (v_params v) (l0 ++ l)).
  { intros v Hv Ev. apply in_or_app. left. unfold eval_simplex in E0. assert (l0 = map v_params (filter (unknown exact) (x_vertices s))) as -> by congruence. apply in_map, filter_In.
    split; [exact Hv|]. unfold unknown. rewrite Ev. reflexivity. }
  assert (Seen : forall v, In v (x_vertices s') -> In (v_params v) (past ++ l0 ++ l)).
  { intros v Hv. apply (in_map v_params) in Hv. apply I' in Hv. cbn [x_vertices] in Hv. rewrite M0 in Hv. apply in_app_or in Hv. destruct Hv as [Hv|Hv].
    - apply in_map_iff in Hv. destruct Hv as (u & <- & Hu). rewrite Forall_forall in I. apply in_or_app. destruct (I u Hu) as [Eu|Hp]; [right; now apply New|now left].
    - apply in_or_app. right. apply in_or_app. now right. }
  eexists _, _, _, b. split; [reflexivity|]. cbn [x_vertices x_fitness]. split; [|split; [exact K'|split; [exact Eb|split; [reflexivity|split; [reflexivity|split; [apply Forall_app; now split|split; [|split; [|exact New]]]]]]]].
  - split; [exact S'|]. split; [|split; [exact L'|]]; cbn [x_vertices].
    + unfold tracked. unfold known in K'. revert K'. apply Forall_impl. intros v Ev. now right.
    + apply Forall_forall. intros v Hv. right. now apply Seen.
  - rewrite app_length. destruct S as [Ls _]. lia.
  - apply Seen. eapply nth_error_In; eauto.
Qed.

Lemma make_ready ps epsilon mult sizes : fitting P ps ps -> exists o, simplex_make exact dmin ps epsilon mult sizes = Some o /\
  (o = None <-> sizes <> [] /\ length sizes <> length ps) /\ forall s, o = Some s -> ready ps s [] /\ In (fresh exact ps) (x_vertices s).
Proof using P_set.
  intros F. unfold simplex_make. set (sz := match sizes with [] => default_sizes exact ps | _ => sizes end).
  assert (Hn : length sz <> length ps <-> sizes <> [] /\ length sizes <> length ps).
  { unfold sz. destruct sizes as [|z sizes]; [|split; [intros H; split; [discriminate|exact H]|tauto]]. unfold default_sizes. rewrite map_length. split; [congruence|intros [H _]; congruence]. }
  destruct (Nat.eqb_spec (length sz) (length ps)) as [E|E].
  - destruct (init_fits P P_set mult sz ps ps F E) as (vs & -> & S & R). cbn [option_map]. eexists. split; [reflexivity|]. split; [split; [discriminate|intros H; tauto]|].
    intros s Es. assert (s = mkSimplex epsilon mult sz (fresh exact ps :: vs) dmin) as -> by congruence. split; [|now left]. split; [exact S|].
    assert (R' : Forall (fun v => v_fitness v = inject_Z (-1)) (fresh exact ps :: vs)) by (constructor; [reflexivity|exact R]). split; [now apply fresh_tracked|]. split; [exact E|].
    revert R'. apply Forall_impl. intros v Ev. now left.
  - exists None. split; [reflexivity|]. split; [tauto|]. discriminate.
Qed.

(** What holds of each call. *)
Lemma searches_spec ps : forall calls s past, ready ps s past -> exists rs, searches dmin dmax eval calls s = Some rs /\ length rs = length calls /\
  forall i n q f log, nth_error calls i = Some n -> nth_error rs i = Some (q, f, log) ->
    fitting P ps q /\ f = eval q /\ Forall (fitting P ps) log /\ (length log <= S (length ps) + Z.to_nat n * (2 * length ps + 4))%nat /\
    In q (past ++ concat (map snd (firstn (S i) rs))).
Proof using P_set.
  induction calls as [|n calls IH]; intros s past R; cbn [searches].
  - exists []. split; [reflexivity|]. split; [reflexivity|]. intros [|i]; discriminate.
  - destruct (search_spec ps n s past R) as (s' & q & log & b & -> & R' & K & Eb & Eq & Ef & F & L & I & _). cbn [obind]. destruct (IH s' (past ++ log) R') as (rs & -> & Lr & A). cbn [option_map].
    eexists. split; [reflexivity|]. split; [cbn; now rewrite Lr|]. intros [|i] n' q' f' log' E1 E2.
    + cbn in E1, E2. assert (n' = n /\ q' = q /\ f' = x_fitness s' /\ log' = log) as (-> & -> & -> & ->) by (repeat split; congruence). cbn. rewrite app_nil_r.
      split; [|split; [|split; [exact F|split; [exact L|exact I]]]].
      * rewrite Eq. destruct R' as (S' & _). eapply shaped_nth; eauto.
      * unfold known in K. rewrite Forall_forall in K. rewrite Ef, Eq. apply K. eapply nth_error_In; eauto.
    + cbn in E1, E2. destruct (A i n' q' f' log' E1 E2) as (A1 & A2 & A3 & A4 & A5). split; [exact A1|]. split; [exact A2|]. split; [exact A3|]. split; [exact A4|].
      rewrite firstn_cons. cbn [map snd concat]. rewrite app_assoc. exact A5.
Qed.
End Loop.

Lemma fitting_admissible (P : param (N := Q) -> Prop) ps q : (forall p, P p -> wf p) -> fitting P ps q -> admissible ps q.
Proof. intros HP H. induction H as [|p p' ps q [D W] H IH]; constructor; [|exact IH]. split; [exact D|]. apply wf_domain, HP, W. Qed.

Lemma same_domain_refl p : same_domain p p.
Proof. destruct p; cbn; auto. Qed.

Lemma self_fitting (P : param (N := Q) -> Prop) ps : Forall P ps -> fitting P ps ps.
Proof. induction 1; constructor; [split; [apply same_domain_refl|assumption]|assumption]. Qed.

(** ** C133: searching always ends, with parameters which are admissible *)

(** Constructing the optimizer fails for the wrong number of stepsizes only.
    Each call returns after a bounded number of evaluations. All parameters
    evaluated are admissible. The parameters returned are, too; they've been
    evaluated in this call or an earlier one, and their fitness is reported. *)
Theorem C133_simplex_search : forall dmin dmax (eval : params -> Q) ps epsilon mult sizes, Forall prepared ps ->
  exists o, simplex_make exact dmin ps epsilon mult sizes = Some o /\ (o = None <-> sizes <> [] /\ length sizes <> length ps) /\
    forall s, o = Some s -> forall calls, exists rs, searches dmin dmax eval calls s = Some rs /\ length rs = length calls /\
      forall i n q f log, nth_error calls i = Some n -> nth_error rs i = Some (q, f, log) ->
        admissible ps q /\ f = eval q /\ Forall (admissible ps) log /\ (length log <= S (length ps) + Z.to_nat n * (2 * length ps + 4))%nat /\
        In q (concat (map snd (firstn (S i) rs))).
Proof.
  intros dmin dmax eval ps epsilon mult sizes H. assert (F : fitting wf ps ps) by (apply self_fitting; revert H; apply Forall_impl, prepared_wf).
  destruct (make_ready wf set_wf dmin eval ps epsilon mult sizes F) as (o & E & N & R). exists o. split; [exact E|]. split; [exact N|]. intros s Es calls. destruct (R s Es) as [Rs _].
  destruct (searches_spec wf set_wf dmin dmax eval ps calls s [] Rs) as (rs & Er & L & A). exists rs. split; [exact Er|]. split; [exact L|]. intros i n q f log E1 E2.
  destruct (A i n q f log E1 E2) as (A1 & A2 & A3 & A4 & A5). assert (W : forall p : param (N := Q), wf p -> wf p) by auto. split; [now apply (fitting_admissible wf)|]. split; [exact A2|]. split; [|split; [exact A4|exact A5]].
  revert A3. apply Forall_impl. intros a. now apply (fitting_admissible wf).
Qed.
Print Assumptions C133_simplex_search.

(** ** C134: the result is never worse than the start, and never gets worse *)

Section Best.
Context (dmin dmax : Q) (eval : params -> Q) (Hp : proper dmin dmax eval).

Lemma loop_best ps : forall steps s log s' log' b, shaped on_grid ps (x_vertices s) -> known eval (x_vertices s) -> length (x_sizes s) = length ps ->
  search_loop exact dmin dmax eval steps s log = Some (s', log') -> nth_error (x_vertices s) (max_in exact dmin (x_vertices s)) = Some b ->
  exists v, In v (x_vertices s') /\ v_fitness b <= v_fitness v.
Proof using Hp.
  induction steps as [|k IH]; intros s log s' log' b S K L E Eb; cbn [search_loop] in E.
  - assert (s' = s) as -> by congruence. exists b. split; [eapply nth_error_In; eauto|apply Qle_refl].
  - destruct (move_spec on_grid set_grid dmin dmax eval ps (x_vertices s) S K) as (vs1 & l1 & Em & (S1 & K1 & _) & _). 
    destruct (move_best dmin dmax eval Hp ps _ _ _ b S K Em Eb) as (v1 & Hv1 & Le1). rewrite Em in E. cbn [obind fst snd] in E.
    destruct (settle_spec on_grid set_grid dmin eval s ps (x_vertices s) vs1 S S1 K1 L) as (vs2 & mult & l2 & stop & Es & (S2 & K2 & _) & _ & B2). rewrite Es in E. cbn [obind] in E.
    destruct (max_in_nth dmin vs1 (shaped_nonempty _ _ _ S1)) as [b1 Eb1]. pose proof (max_in_best dmin dmax eval Hp vs1 b1 K1 Eb1 v1 Hv1) as Le2. specialize (B2 b1 Eb1).
    destruct stop.
    + assert (s' = mkSimplex (x_epsilon s) mult (x_sizes s) vs2 (x_fitness s)) as -> by congruence. exists b1. split; [exact B2|]. eapply Qle_trans; eauto.
    + destruct (max_in_nth dmin vs2 (shaped_nonempty _ _ _ S2)) as [b2 Eb2]. pose proof (max_in_best dmin dmax eval Hp vs2 b2 K2 Eb2 b1 B2) as Le3.
      destruct (IH (mkSimplex (x_epsilon s) mult (x_sizes s) vs2 (x_fitness s)) (log ++ l1 ++ l2) s' log' b2 S2 K2 L E Eb2) as (v & Hv & Le4). exists v. split; [exact Hv|].
      eapply Qle_trans; [exact Le1|]. eapply Qle_trans; [exact Le2|]. eapply Qle_trans; [exact Le3|exact Le4].
Qed.

Lemma search_best ps n s past s' q log : ready on_grid eval ps s past -> search exact dmin dmax eval n s = Some (s', q, log) ->
  forall v, In v (x_vertices s) -> eval (v_params v) <= x_fitness s'.
Proof using Hp.
  intros R E v Hv. destruct (search_spec on_grid set_grid dmin dmax eval ps n s past R) as (s1 & q1 & log1 & b & E1 & _ & K1 & Eb & _ & Ef & _).
  assert (s1 = s') as -> by congruence. rewrite Ef. clear E1. unfold search in E. destruct R as (S & T & L & _). destruct (eval_simplex exact eval (x_vertices s)) as [vs0 l0] eqn:E0.
  destruct (eval_simplex_spec on_grid eval ps _ _ _ E0 S T) as (S0 & K0 & M0 & _).
  destruct (search_loop _ _ _ _ _ _ _) as [[s2 log2]|] eqn:El; [|discriminate E]. cbn [obind] in E. destruct (nth_error (x_vertices s2) _); [|discriminate E]. cbn [option_map] in E.
  assert (Ev : x_vertices s' = x_vertices s2) by (assert (s' = mkSimplex (x_epsilon s2) (x_mult s2) (x_sizes s2) (x_vertices s2) (v_fitness v0)) as -> by congruence; reflexivity).
  rewrite Ev in *. destruct (max_in_nth dmin vs0 (shaped_nonempty _ _ _ S0)) as [b0 Eb0].
  destruct (loop_best ps _ (mkSimplex (x_epsilon s) (x_mult s) (x_sizes s) vs0 (x_fitness s)) _ _ _ b0 S0 K0 L El Eb0) as (u & Hu & Le). eapply Qle_trans; [|exact (max_in_best dmin dmax eval Hp _ b K1 Eb u Hu)]. eapply Qle_trans; [|exact Le].
  assert (Hin : In (v_params v) (map v_params vs0)) by (rewrite M0; now apply in_map). apply in_map_iff in Hin. destruct Hin as (u0 & Eu0 & Hu0). rewrite <- Eu0.
  unfold known in K0. pose proof K0 as K0'. rewrite Forall_forall in K0'. rewrite <- (K0' u0 Hu0). exact (max_in_best dmin dmax eval Hp vs0 b0 K0 Eb0 u0 Hu0).
Qed.

Lemma searches_best ps : forall calls s past rs v, ready on_grid eval ps s past -> searches dmin dmax eval calls s = Some rs -> In v (x_vertices s) ->
  (forall r, In r rs -> eval (v_params v) <= snd (fst r)) /\
  forall i j ri rj, (i <= j)%nat -> nth_error rs i = Some ri -> nth_error rs j = Some rj -> snd (fst ri) <= snd (fst rj).
Proof using Hp.
  induction calls as [|n calls IH]; intros s past rs v R E Hv; cbn [searches] in E.
  - assert (rs = []) as -> by congruence. split; [intros r []|]. intros [|i]; discriminate.
  - destruct (search_spec on_grid set_grid dmin dmax eval ps n s past R) as (s1 & q & log & b & E1 & R1 & K1 & Eb & _ & Ef & _). pose proof (search_best ps n s past s1 q log R E1) as Sb.
    rewrite E1 in E. cbn [obind] in E. destruct (searches dmin dmax eval calls s1) as [rs1|] eqn:Er; [|discriminate E]. cbn [option_map] in E.
    assert (rs = (q, x_fitness s1, log) :: rs1) as -> by congruence. destruct (IH s1 (past ++ log) rs1 b R1 Er (nth_error_In _ _ Eb)) as [IH1 IH2].
    assert (Eq : x_fitness s1 = eval (v_params b)) by (unfold known in K1; rewrite Forall_forall in K1; rewrite Ef; apply K1; eapply nth_error_In; eauto).
    split.
    + intros r [<-|Hr]; cbn [fst snd]; [now apply Sb|]. eapply Qle_trans; [now apply Sb|]. rewrite Eq. now apply IH1.
    + intros [|i] [|j] ri rj Hij Ei Ej; cbn in Ei, Ej; try lia.
      * assert (ri = rj) as -> by congruence. apply Qle_refl.
      * assert (ri = (q, x_fitness s1, log)) as -> by congruence. cbn [fst snd]. rewrite Eq. apply IH1. eapply nth_error_In; eauto.
      * apply (IH2 i j); auto; lia.
Qed.
End Best.

(** If extents are multiples of granularities and the fitness is zero or
    positive (and normal) throughout, then no call reports a lower fitness than
    that of the initial parameters, nor than any earlier call. *)
Theorem C134_never_worse : forall dmin dmax (eval : params -> Q) ps epsilon mult sizes s calls rs, Forall prepared ps -> Forall regular ps -> proper dmin dmax eval ->
  simplex_make exact dmin ps epsilon mult sizes = Some (Some s) -> searches dmin dmax eval calls s = Some rs ->
  (forall r, In r rs -> eval ps <= snd (fst r)) /\
  forall i j ri rj, (i <= j)%nat -> nth_error rs i = Some ri -> nth_error rs j = Some rj -> snd (fst ri) <= snd (fst rj).
Proof.
  intros dmin dmax eval ps epsilon mult sizes s calls rs H1 H2 Hp E Er.
  assert (F : fitting on_grid ps ps).
  { apply self_fitting. apply Forall_forall. intros p Hp'. rewrite Forall_forall in H1, H2. apply prepared_grid; auto. }
  destruct (make_ready on_grid set_grid dmin eval ps epsilon mult sizes F) as (o & Eo & _ & R). assert (o = Some s) as -> by congruence. destruct (R s eq_refl) as [Rs I].
  exact (searches_best dmin dmax eval Hp ps calls s [] rs (fresh exact ps) Rs Er I).
Qed.
Print Assumptions C134_never_worse.

(** ** Examples and refutations *)

Definition int_par (mn mx gran : Z) : param (N := Q) := PInterval (iv_make exact TInt (inject_Z mn) (inject_Z mx) (inject_Z gran)).

Lemma int_par_prepared mn mx gran : (0 < gran)%Z -> (gran <= mx - mn)%Z -> prepared (int_par mn mx gran).
Proof.
  intros H1 H2. exists (int_par mn mx gran), []. split; [|reflexivity]. constructor.
  - change 0 with (inject_Z 0). now rewrite <- Zlt_Qlt.
  - unfold Qminus. rewrite <- inject_Z_opp, <- inject_Z_plus, <- Zle_Qle. lia.
  - intros _. split; eexists; reflexivity.
Qed.

Definition d_min : Q := 1 # 1000000000.
Definition d_max : Q := inject_Z 1000000000.

(** A parabola in two parameters, cut off at zero. *)
Definition hill (ps : params) : Q :=
  match ps with
  | [a; b] =>
      let x := (qtrunc (p_current a) - 23)%Z in let y := (qtrunc (p_current b) - 41)%Z in
      let f := (3000 - x * x - y * y)%Z in if (f <? 0)%Z then 0 else if (1000000 <? f)%Z then 0 else inject_Z f
  | _ => 0
  end.

Lemma qtrunc_comp a b : a == b -> qtrunc a = qtrunc b.
Proof. intros E. unfold qtrunc. rewrite (Qfloor_comp a b E). assert (E' : - a == - b) by now rewrite E. rewrite (Qfloor_comp _ _ E'). assert (Qle_bool 0 a = Qle_bool 0 b) as ->; [|reflexivity].
  apply eq_true_iff_eq. rewrite !Qle_bool_iff. now rewrite E. Qed.

Lemma hill_proper : proper d_min d_max hill.
Proof.
  split; [reflexivity|]. split.
  - intros a b H. destruct H as [|p p' a b (_ & _ & E1) H]; [reflexivity|]. destruct H as [|q q' a b (_ & _ & E2) H]; [reflexivity|]. destruct H; [|reflexivity].
    unfold hill. rewrite (qtrunc_comp _ _ E1), (qtrunc_comp _ _ E2). reflexivity.
  - intros [|p [|q [|? ?]]]; try (split; [left; reflexivity|discriminate]). unfold hill. set (f := (3000 - _ - _)%Z). clearbody f.
    destruct (Z.ltb_spec f 0); [split; [left; reflexivity|discriminate]|]. destruct (Z.ltb_spec 1000000 f); [split; [left; reflexivity|discriminate]|]. split.
    + destruct (Z.eq_dec f 0) as [->|]; [left; reflexivity|right]. apply Qle_trans with (inject_Z 1); [discriminate|]. rewrite <- Zle_Qle. lia.
    + unfold d_max. rewrite <- Zle_Qle. lia.
Qed.

Definition two_pars : params := [int_par (-10) 90 2; int_par 0 100 1].

Lemma int_par_regular mn mx gran m : (mx - mn = m * gran)%Z -> regular (int_par mn mx gran).
Proof. intros H. cbn. split; [|intros _; eexists; reflexivity]. exists m. unfold Qminus. rewrite <- inject_Z_opp, <- inject_Z_plus, <- inject_Z_mult. replace (mx + - mn)%Z with (m * gran)%Z by lia. reflexivity. Qed.

(** Two calls; the maximum is at (23, 41), but the first coordinate is even. *)
Definition outcome (rs : list (params * Q * list params)) : list (list Q * Q) := map (fun r => (map (fun p => Qred (p_current p)) (fst (fst r)), Qred (snd (fst r)))) rs.

Example C133_C134_example :
  Forall prepared two_pars /\ Forall regular two_pars /\ proper d_min d_max hill /\ hill two_pars == 230 /\
  exists s rs, simplex_make exact d_min two_pars (-1) 8 [] = Some (Some s) /\ searches d_min d_max hill [5%Z; 40%Z] s = Some rs /\
    outcome rs = [([26; 51], 2891); ([22; 41], 2999)].
Proof.
  split; [repeat constructor; apply int_par_prepared; lia|]. split; [constructor; [now apply (int_par_regular _ _ _ 50)|constructor; [now apply (int_par_regular _ _ _ 100)|constructor]]|].
  split; [apply hill_proper|]. split; [vm_compute; reflexivity|]. eexists _, _. split; [vm_compute; reflexivity|]. split; [vm_compute; reflexivity|]. vm_compute. reflexivity.
Qed.

(** A fitness function given by some of its values. *)
Definition table (l : list (list Z * Z)) (ps : params) : Q :=
  match find (fun e => if list_eq_dec Z.eq_dec (fst e) (map (fun p => qtrunc (p_current p)) ps) then true else false) l with Some e => inject_Z (snd e) | None => 0 end.

Lemma table_proper l : (forall e, In e l -> 0 <= snd e < 1000000)%Z -> proper d_min d_max (table l).
Proof.
  intros H. split; [reflexivity|]. split.
  - intros a b A. unfold table. assert (map (fun p => qtrunc (p_current p)) a = map (fun p => qtrunc (p_current p)) b) as ->; [|reflexivity].
    induction A as [|p p' a b (_ & _ & E) A IH]; [reflexivity|]. cbn [map]. now rewrite (qtrunc_comp _ _ E), IH.
  - intros ps. unfold table. destruct (find _ l) as [e|] eqn:E; [|split; [left; reflexivity|discriminate]]. apply find_some in E. destruct E as [E _]. specialize (H e E). split.
    + destruct (Z.eq_dec (snd e) 0) as [->|]; [left; reflexivity|right]. apply Qle_trans with (inject_Z 1); [discriminate|]. rewrite <- Zle_Qle. lia.
    + unfold d_max. rewrite <- Zle_Qle. lia.
Qed.

(** *** C135: the result isn't the best of the points evaluated *)

(** The point found by expansion replaces the worst vertex if it's better than
    the best one; it isn't compared to the point of reflection, which has been
    evaluated before (simplexoptimizer.cpp:142-148). *)
Theorem C135_best_evaluated_refuted : exists (eval : params -> Q) ps s s' q log best, Forall prepared ps /\ Forall regular ps /\ proper d_min d_max eval /\
  simplex_make exact d_min ps (-1) 8 [] = Some (Some s) /\ search exact d_min d_max eval 1 s = Some (s', q, log) /\ In best log /\ eval q < eval best.
Proof.
  exists (table [([0], 4); ([8], 5); ([16], 10); ([24], 6)])%Z, [int_par 0 100 1].
  eexists _, _, _, _, _. split; [constructor; [apply int_par_prepared; lia|constructor]|]. split; [constructor; [now apply (int_par_regular _ _ _ 100)|constructor]|].
  split; [apply table_proper; intros e He; cbn in He; repeat (destruct He as [<-|He]; [cbn; lia|]); destruct He|].
  split; [vm_compute; reflexivity|]. split; [vm_compute; reflexivity|]. split; [do 2 right; left; reflexivity|]. vm_compute. reflexivity.
Qed.
Print Assumptions C135_best_evaluated_refuted.

(** *** C136: extents which aren't multiples of the granularity *)

(** The best vertex is moved by a total contraction, as assigning it its own
    value yields a different one. *)
Definition at_seven : param (N := Q) := PInterval (mkInterval TInt 0 10 3 7 7).
Definition at_hundred : param (N := Q) := PInterval (mkInterval TInt 0 1000 1 100 100).

Lemma int_par_assigned mn mx gran v p : (0 < gran)%Z -> (gran <= mx - mn)%Z -> p_ops exact (int_par mn mx gran) [OSet v] = Some p -> prepared p.
Proof.
  intros H1 H2 E. exists (int_par mn mx gran), [OSet v]. split; [|exact E]. constructor.
  - change 0 with (inject_Z 0). now rewrite <- Zlt_Qlt.
  - unfold Qminus. rewrite <- inject_Z_opp, <- inject_Z_plus, <- Zle_Qle. lia.
  - intros _. split; eexists; reflexivity.
Qed.

Theorem C136_irregular_extent_refuted : exists (eval : params -> Q) ps s s' q log, Forall prepared ps /\ proper d_min d_max eval /\
  simplex_make exact d_min ps (-1) 8 [] = Some (Some s) /\ search exact d_min d_max eval 1 s = Some (s', q, log) /\ x_fitness s' < eval ps.
Proof.
  exists (table [([7; 100], 10); ([0; 100], 5); ([7; 108], 1); ([0; 92], 2); ([6; 100], 2)])%Z, [at_seven; at_hundred].
  eexists _, _, _, _. split.
  - constructor; [apply (int_par_assigned 0 10 3 12); [lia|lia|vm_compute; reflexivity]|]. constructor; [apply (int_par_assigned 0 1000 1 100); [lia|lia|vm_compute; reflexivity]|constructor].
  - split; [apply table_proper; intros e He; cbn in He; repeat (destruct He as [<-|He]; [cbn; lia|]); destruct He|].
    split; [vm_compute; reflexivity|]. split; [vm_compute; reflexivity|]. vm_compute. reflexivity.
Qed.
Print Assumptions C136_irregular_extent_refuted.

(** *** C137: negative fitness *)

(** [maxInSimplex] starts from the smallest positive number, hence it returns
    vertex 0 if all are negative (simplexoptimizer.cpp:274-277). *)
Theorem C137_negative_fitness_refuted : exists (eval : params -> Q) ps s s' q log, Forall prepared ps /\ Forall regular ps /\ (forall a b, Forall2 alike a b -> eval a == eval b) /\
  simplex_make exact d_min ps (-1) 8 [] = Some (Some s) /\ search exact d_min d_max eval 1 s = Some (s', q, log) /\ x_fitness s' < eval ps.
Proof.
  set (l := [([0], -2); ([8], -1); ([16], -10); ([12], -9)]%Z). exists (table l), [int_par 0 100 1].
  eexists _, _, _, _. split; [constructor; [apply int_par_prepared; lia|constructor]|]. split; [constructor; [now apply (int_par_regular _ _ _ 100)|constructor]|]. split.
  - intros a b A. unfold table. assert (map (fun p => qtrunc (p_current p)) a = map (fun p => qtrunc (p_current p)) b) as ->; [|reflexivity].
    induction A as [|p p' a b (_ & _ & E) A IH]; [reflexivity|]. cbn [map]. now rewrite (qtrunc_comp _ _ E), IH.
  - split; [vm_compute; reflexivity|]. split; [vm_compute; reflexivity|]. vm_compute. reflexivity.
Qed.
Print Assumptions C137_negative_fitness_refuted.
