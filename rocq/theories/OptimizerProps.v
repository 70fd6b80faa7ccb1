(** Pattern search: C47. *)
From Coq Require Import ZArith QArith Qround List Lia.
From Verif Require Import Base RegionOpsModel UpdateModel UpdateFacts ParamModel ParamSpec ParamFacts OptimizerModel.
From Coq Require Import Lqa.
Import ListNotations.
Open Scope Q_scope.

Notation params := (list (param (N := Q))).

(** ** The best point is returned *)

Definition best (eval : params -> Q) (b : params) (fitness : Q) (log : list params) : Prop :=
  fitness = eval b /\ In b log /\ forall q, In q log -> eval q <= fitness.

Lemma max_pos_best eval pattern mid old : nth_error pattern 0 = Some mid -> forall qs i st st', skipn i pattern = qs ->
  (exists b, nth_error pattern (s_pos st) = Some b /\ best eval b (s_fitness st) (s_log st)) ->
  max_pos_from exact eval mid old i qs st = Some st' ->
  (exists b, nth_error pattern (s_pos st') = Some b /\ best eval b (s_fitness st') (s_log st')) /\ incl (s_log st) (s_log st').
Proof.
  intros H0. induction qs as [|q qs IH]; intros i st st' Hq Hb E.
  - cbn in E. assert (st' = st) as -> by congruence. split; [exact Hb|apply incl_refl].
  - cbn [max_pos_from] in E. unfold try_point in E. destruct (same_value exact mid q ((i - 1) / 2)) as [same|]; [|discriminate E]. cbn [option_map obind] in E.
    assert (Hq' : skipn (S i) pattern = qs).
    { clear - Hq. revert pattern Hq. induction i as [|i IHi]; intros [|a l] Hq; try discriminate; cbn in *; [congruence|]. now apply IHi. }
    assert (Hn : nth_error pattern i = Some q).
    { clear - Hq. revert pattern Hq. induction i as [|i IHi]; intros [|a l] Hq; try discriminate; cbn in *; [congruence|]. now apply IHi. }
    destruct (same || _ || _) in E; [exact (IH (S i) st st' Hq' Hb E)|]. destruct Hb as (b & Hb1 & Hb2 & Hb3 & Hb4).
    destruct (qle_cases (s_fitness st) (eval q)) as [[El Hl]|[El Hl]]; rewrite El in E; apply (IH (S i)) in E; auto.
    + destruct E as [E1 E2]. split; [exact E1|]. intros x Hx. apply E2. cbn. apply in_or_app. now left.
    + exists q. cbn [s_pos s_fitness s_log]. split; [exact Hn|]. split; [reflexivity|]. split; [apply in_or_app; right; now left|].
      intros x Hx. apply in_app_or in Hx. destruct Hx as [Hx|[<-|[]]]; [|apply Qle_refl]. eapply Qle_trans; [now apply Hb4|exact Hl].
    + destruct E as [E1 E2]. split; [exact E1|]. intros x Hx. apply E2. cbn. apply in_or_app. now left.
    + exists b. cbn [s_pos s_fitness s_log]. split; [exact Hb1|]. split; [exact Hb2|]. split; [apply in_or_app; now left|].
      intros x Hx. apply in_app_or in Hx. destruct Hx as [Hx|[<-|[]]]; [now apply Hb4|]. now apply Qlt_le_weak.
Qed.

Lemma gen_pattern_head (o : optimizer) middle pattern : gen_pattern exact o middle = Some pattern -> nth_error pattern 0 = Some middle /\ pattern = middle :: skipn 1 pattern.
Proof. unfold gen_pattern. destruct (omap _ _) as [l|]; [|discriminate]. cbn [option_map]. intros E. assert (pattern = middle :: concat l) as -> by congruence. split; reflexivity. Qed.

Lemma loop_best eval : forall steps o middle maxPos fitness log r f l, best eval middle fitness log ->
  opt_loop exact eval steps o middle maxPos fitness log = Some (r, f, l) -> best eval r f l /\ incl log l.
Proof.
  induction steps as [|k IH]; intros o middle maxPos fitness log r f l Hb E.
  - cbn in E. assert (r = middle /\ f = fitness /\ l = log) as (-> & -> & ->) by (repeat split; congruence). split; [exact Hb|apply incl_refl].
  - cbn [opt_loop] in E. destruct (gen_pattern exact o middle) as [pattern|] eqn:Ep; [|discriminate E]. cbn [obind] in E.
    destruct (gen_pattern_head o middle pattern Ep) as [H0 Hp].
    destruct (get_max_pos exact eval pattern maxPos fitness log) as [st|] eqn:Es; [|discriminate E]. cbn [obind] in E.
    assert (Hst : (exists b, nth_error pattern (s_pos st) = Some b /\ best eval b (s_fitness st) (s_log st)) /\ incl log (s_log st)).
    { rewrite Hp in Es. cbn [get_max_pos] in Es. change log with (s_log (mkSearch 0 fitness log)) at 1. eapply (max_pos_best eval pattern middle maxPos H0); [reflexivity| |exact Es].
      exists middle. cbn [s_pos]. split; [exact H0|exact Hb]. }
    destruct Hst as [(b & Hb1 & Hb2) Hlog]. destruct (Nat.eqb_spec (s_pos st) 0) as [E0|E0].
    + rewrite E0, H0 in Hb1. assert (b = middle) as -> by congruence. destruct (reduce exact o) as [o' again]. destruct again.
      * destruct (IH _ _ _ _ _ _ _ _ Hb2 E) as [K1 K2]. split; [exact K1|]. eapply incl_tran; eauto.
      * assert (r = middle /\ f = s_fitness st /\ l = s_log st) as (-> & -> & ->) by (repeat split; congruence). split; [exact Hb2|exact Hlog].
    + rewrite Hb1 in E. cbn [obind] in E. destruct (IH _ _ _ _ _ _ _ _ Hb2 E) as [K1 K2]. split; [exact K1|]. eapply incl_tran; eauto.
Qed.

(** The parameters returned have been evaluated; their fitness is the one
    reported, and none of the evaluated parameters is better. The start point
    is among those. *)
Theorem C47_returns_best : forall (eval : params -> Q) steps o r f log, opt_run exact eval steps o = Some (r, f, log) ->
  f = eval r /\ In r log /\ In (o_params o) log /\ forall q, In q log -> eval q <= f.
Proof.
  intros eval steps o r f log E. unfold opt_run in E. destruct (gen_pattern exact o (o_params o)); [|discriminate E]. cbn [obind] in E.
  destruct (loop_best eval steps o (o_params o) 0 (eval (o_params o)) [o_params o] r f log) as [(H1 & H2 & H3) H4]; [|exact E|].
  - split; [reflexivity|]. split; [now left|]. intros q [<-|[]]. apply Qle_refl.
  - split; [exact H1|]. split; [exact H2|]. split; [apply H4; now left|exact H3].
Qed.
Print Assumptions C47_returns_best.

(** ** It always returns, and evaluates admissible parameters only *)

Definition fits (ps : params) (q : params) : Prop := Forall2 (fun p p' => same_domain p p' /\ wf p') ps q.

Lemma add_wf p s : wf p -> exists p', p_add exact p s = Some p' /\ wf p' /\ same_domain p p'.
Proof. intros H. exact (op_wf p (OAdd s) H). Qed.

Lemma same_domain_refl p : same_domain p p.
Proof. destruct p; cbn; auto. Qed.

Lemma step_at_fits s i : forall ps q, fits ps q -> (i < length q)%nat -> exists q', step_at exact i q s = Some q' /\ fits ps q'.
Proof.
  induction i as [|i IH]; intros ps q H Hi; destruct H as [|p p' ps q [D W] H]; try (cbn in Hi; lia).
  - destruct (add_wf p' s W) as (p2 & E & W2 & D2). cbn [step_at]. rewrite E. eexists. split; [reflexivity|]. constructor; [|exact H]. split; [eapply same_domain_trans; eauto|exact W2].
  - destruct (IH ps q H ltac:(cbn in Hi; lia)) as (q' & E & F). cbn [step_at]. rewrite E. eexists. split; [reflexivity|]. constructor; [split; [exact D|exact W]|exact F].
Qed.

Lemma fits_length ps q : fits ps q -> length q = length ps.
Proof. induction 1 as [|? ? ? ? _ _ IH]; [reflexivity|cbn; now rewrite IH]. Qed.

Lemma gen_pattern_fits ps o q : fits ps q -> length (o_step o) = length ps ->
  exists pattern, gen_pattern exact o q = Some pattern /\ Forall (fits ps) pattern.
Proof.
  intros H L. unfold gen_pattern. pose proof (fits_length _ _ H) as Lq. rewrite Lq. rewrite <- L.
  assert (Hall : forall l, (forall i, In i l -> (i < length (o_step o))%nat) -> exists ls,
    omap (fun i => obind (nth_error (o_step o) i) (fun s => obind (step_at exact i q s) (fun a => option_map (fun b => [a; b]) (step_at exact i q (a_mul exact s (a_ofZ exact (-1))))))) l = Some ls /\
    Forall (fits ps) (concat ls)).
  { induction l as [|i l IH]; intros Hl; [exists []; split; [reflexivity|constructor]|]. cbn [omap].
    assert (Hi : (i < length (o_step o))%nat) by (apply Hl; now left). destruct (nth_error (o_step o) i) as [s|] eqn:Es; [|apply nth_error_None in Es; lia]. cbn [obind].
    destruct (step_at_fits s i ps q H ltac:(lia)) as (a & -> & Fa). cbn [obind].
    destruct (step_at_fits (a_mul exact s (a_ofZ exact (-1))) i ps q H ltac:(lia)) as (b & -> & Fb). cbn [obind option_map].
    destruct IH as (ls & -> & Fl); [intros; apply Hl; now right|]. eexists. split; [reflexivity|]. cbn. constructor; [exact Fa|]. constructor; [exact Fb|exact Fl]. }
  destruct (Hall (seq 0 (length (o_step o)))) as (ls & E & F); [intros i Hi; apply in_seq in Hi; lia|]. rewrite E. cbn [option_map]. eexists. split; [reflexivity|].
  constructor; assumption.
Qed.

Lemma same_value_def ps a b k : fits ps a -> fits ps b -> (k < length ps)%nat -> exists s, same_value exact a b k = Some s.
Proof.
  intros Ha Hb Hk. apply fits_length in Ha, Hb. unfold same_value. destruct (nth_error a k) eqn:Ea; [|apply nth_error_None in Ea; lia].
  destruct (nth_error b k) eqn:Eb; [|apply nth_error_None in Eb; lia]. cbn. eexists. reflexivity.
Qed.

Lemma max_pos_fits eval ps mid old : fits ps mid -> forall qs i st, (1 <= i)%nat -> (i + length qs <= 2 * length ps + 1)%nat ->
  Forall (fits ps) qs -> Forall (fits ps) (s_log st) -> exists st', max_pos_from exact eval mid old i qs st = Some st' /\ Forall (fits ps) (s_log st') /\
    (length (s_log st') <= length (s_log st) + length qs)%nat.
Proof.
  intros Hm. induction qs as [|q qs IH]; intros i st H1 Hi Hq Hl.
  - exists st. split; [reflexivity|]. split; [exact Hl|cbn; lia].
  - pose proof (Forall_inv Hq) as Hq1. pose proof (Forall_inv_tail Hq) as Hq2. cbn [max_pos_from]. unfold try_point. cbn [length] in Hi.
    assert (Hk : ((i - 1) / 2 < length ps)%nat) by (apply Nat.div_lt_upper_bound; lia).
    destruct (same_value_def ps mid q _ Hm Hq1 Hk) as [s ->]. cbn [option_map obind].
    assert (Hl2 : Forall (fits ps) (s_log st ++ [q])) by (apply Forall_app; split; [exact Hl|constructor; [exact Hq1|constructor]]).
    assert (Hn : length (s_log st ++ [q]) = S (length (s_log st))) by (rewrite app_length; cbn; lia).
    destruct (s || _ || _); [|destruct (a_le exact (s_fitness st) (eval q))]; match goal with |- context [max_pos_from exact eval mid old (S i) qs ?x] =>
      destruct (IH (S i) x) as (st' & E & F & L); [lia|lia|exact Hq2|assumption|] end; exists st'; (split; [exact E|]); (split; [exact F|]); cbn [s_log] in *; cbn; lia.
Qed.

Lemma gen_pattern_length (o : optimizer) q pattern : gen_pattern exact o q = Some pattern -> length pattern = (2 * length q + 1)%nat.
Proof.
  unfold gen_pattern. intros E.
  assert (Hall : forall l ls, omap (fun i => obind (nth_error (o_step o) i) (fun s => obind (step_at exact i q s) (fun a => option_map (fun b => [a; b]) (step_at exact i q (a_mul exact s (a_ofZ exact (-1))))))) l = Some ls ->
    length (concat ls) = (2 * length l)%nat).
  { induction l as [|i l IH]; intros ls El; [cbn in El; assert (ls = []) as -> by congruence; reflexivity|]. cbn [omap] in El.
    destruct (nth_error (o_step o) i) as [s|]; [|discriminate]. cbn [obind] in El. destruct (step_at exact i q s) as [a|]; [|discriminate]. cbn [obind] in El.
    destruct (step_at exact i q _) as [b|]; [|discriminate]. cbn [option_map obind] in El. destruct (omap _ l) as [ls'|]; [|discriminate]. cbn [option_map] in El.
    assert (ls = [a; b] :: ls') as -> by congruence. cbn [concat]. rewrite app_length, (IH ls' eq_refl). cbn. lia. }
  destruct (omap _ _) as [ls|] eqn:El in E; [|discriminate]. cbn [option_map] in E. assert (pattern = q :: concat ls) as -> by congruence. cbn [length]. rewrite (Hall _ _ El), seq_length. lia.
Qed.

Lemma reduce_lengths (o : optimizer) : length (o_step o) = length (o_min o) -> length (o_step (fst (reduce exact o))) = length (o_min (fst (reduce exact o))) /\ length (o_step (fst (reduce exact o))) = length (o_step o).
Proof. intros H. unfold reduce. cbn. rewrite !map_length, combine_length. lia. Qed.

Lemma loop_fits eval ps : forall steps o middle maxPos fitness log, fits ps middle -> length (o_step o) = length ps -> length (o_min o) = length ps -> Forall (fits ps) log ->
  exists r f l, opt_loop exact eval steps o middle maxPos fitness log = Some (r, f, l) /\ Forall (fits ps) l /\ (length l <= length log + steps * (2 * length ps))%nat.
Proof.
  induction steps as [|k IH]; intros o middle maxPos fitness log Hm Ls Lm Hl; [exists middle, fitness, log; split; [reflexivity|]; split; [exact Hl|lia]|].
  cbn [opt_loop]. destruct (gen_pattern_fits ps o middle Hm Ls) as (pattern & Ep & Fp). rewrite Ep. cbn [obind].
  pose proof (gen_pattern_length o middle pattern Ep) as Lp. pose proof (fits_length _ _ Hm) as Lmid.
  destruct (gen_pattern_head o middle pattern Ep) as [H0 Hp]. rewrite Hp in Fp, Lp.
  assert (Eg : get_max_pos exact eval pattern maxPos fitness log = max_pos_from exact eval middle maxPos 1 (skipn 1 pattern) (mkSearch 0 fitness log)) by (rewrite Hp; reflexivity). rewrite Eg. clear Eg.
  destruct (max_pos_fits eval ps middle maxPos Hm (skipn 1 pattern) 1 (mkSearch 0 fitness log) ltac:(lia)) as (st & Es & Fs & Ln); [cbn [length] in Lp; lia|exact (Forall_inv_tail Fp)|exact Hl|].
  rewrite Es. cbn [obind]. cbn [s_log] in Ln. cbn [length] in Lp.
  assert (Hpos : exists m, nth_error pattern (s_pos st) = Some m /\ fits ps m).
  { assert (Hb : (s_pos st < length pattern)%nat).
    { clear - Es Hp. assert (Hgen : forall qs i st0 st1, (i + length qs <= length pattern)%nat -> (s_pos st0 < length pattern)%nat -> max_pos_from exact eval middle maxPos i qs st0 = Some st1 -> (s_pos st1 < length pattern)%nat).
      { induction qs as [|q qs IH]; intros i st0 st1 Hi H0 E; [cbn in E; congruence|]. cbn [max_pos_from] in E. unfold try_point in E.
        destruct (same_value exact middle q ((i - 1) / 2)) as [same|]; [|discriminate E]. cbn [option_map obind length] in *.
        destruct (same || _ || _) in E; [|destruct (a_le exact (s_fitness st0) (eval q)) in E]; (eapply (IH (S i)); [|  |exact E]); cbn [s_pos]; lia. }
      eapply Hgen; [|  |exact Es]; cbn [s_pos]; rewrite Hp; cbn; lia. }
    destruct (nth_error pattern (s_pos st)) as [m|] eqn:Em; [|apply nth_error_None in Em; lia]. exists m. split; [reflexivity|]. apply nth_error_In in Em. rewrite Hp in Em.
    rewrite Forall_forall in Fp. now apply Fp. }
  destruct Hpos as (m & Em & Fm). destruct (Nat.eqb_spec (s_pos st) 0) as [E0|E0].
  - destruct (reduce_lengths o ltac:(lia)) as [R1 R2]. destruct (reduce exact o) as [o' again]. cbn [fst] in R1, R2. destruct again.
    + destruct (IH o' middle 0%nat (s_fitness st) (s_log st) Hm ltac:(lia) ltac:(lia) Fs) as (r & f & l & E & Fl & Lc). exists r, f, l. split; [exact E|]. split; [exact Fl|lia].
    + exists middle, (s_fitness st), (s_log st). split; [reflexivity|]. split; [exact Fs|lia].
  - rewrite Em. cbn [obind]. destruct (IH o m (s_pos st) (s_fitness st) (s_log st) Fm Ls Lm Fs) as (r & f & l & E & Fl & Lc). exists r, f, l. split; [exact E|]. split; [exact Fl|lia].
Qed.

(** For parameters as set up by users, each run comes to an end without
    undefined behaviour, after no more than [2 * n] evaluations per step for
    [n] parameters; each point evaluated lies in the domain. *)
Theorem C47_terminates : forall (eval : params -> Q) steps ps step mn, Forall made ps ->
  exists res, opt_make exact ps step mn = Some res /\
    forall o, res = Some o -> exists r f log, opt_run exact eval steps o = Some (r, f, log) /\
      Forall (Forall2 (fun p p' => same_domain p p' /\ in_domain p') ps) log /\ (length log <= 1 + steps * (2 * length ps))%nat.
Proof.
  intros eval steps ps step mn Hm.
  assert (Hw : fits ps ps).
  { induction Hm as [|p ps Hp _ IH]; constructor; [|exact IH]. split; [apply same_domain_refl|now apply made_wf]. }
  assert (Hmid : exists qs, omap (fun p => p_set exact p (a_div exact (a_sub exact (p_max exact p) (a_ofZ exact 0)) (a_ofZ exact 2))) ps = Some qs /\ fits ps qs).
  { clear Hw. induction Hm as [|p ps Hp _ IH]; [exists []; split; [reflexivity|constructor]|]. destruct IH as (l & E & F). cbn [omap].
    destruct (op_wf p (OSet (a_div exact (a_sub exact (p_max exact p) (a_ofZ exact 0)) (a_ofZ exact 2))) (made_wf p Hp)) as (p2 & E2 & W2 & D2).
    cbn [p_op] in E2. rewrite E2. cbn [obind]. rewrite E. eexists. split; [reflexivity|]. constructor; [split; assumption|exact F]. }
  assert (Hrun : forall o, fits ps (o_params o) -> length (o_step o) = length ps -> length (o_min o) = length ps ->
    exists r f log, opt_run exact eval steps o = Some (r, f, log) /\
      Forall (Forall2 (fun p p' => same_domain p p' /\ in_domain p') ps) log /\ (length log <= 1 + steps * (2 * length ps))%nat).
  { intros o Hf L1 L2. unfold opt_run. destruct (gen_pattern_fits ps o (o_params o) Hf L1) as (pat & -> & _). cbn [obind].
    destruct (loop_fits eval ps steps o (o_params o) 0 (eval (o_params o)) [o_params o] Hf L1 L2 ltac:(constructor; [exact Hf|constructor])) as (r & f & l & E & F & L).
    exists r, f, l. split; [exact E|]. split; [|cbn in L; lia]. eapply Forall_impl; [|exact F]. intros q Hq. clear - Hq. induction Hq as [|p p' ps q [D W] _ IH]; constructor; [|exact IH].
    split; [exact D|now apply wf_domain]. }
  assert (Hfin : forall o, fits ps (o_params o) -> exists res, Some (if (length (o_step o) =? length ps)%nat && (length (o_min o) =? length ps)%nat then Some o else None) = Some res /\
    forall o', res = Some o' -> exists r f log, opt_run exact eval steps o' = Some (r, f, log) /\
      Forall (Forall2 (fun p p' => same_domain p p' /\ in_domain p') ps) log /\ (length log <= 1 + steps * (2 * length ps))%nat).
  { intros o Hf. eexists. split; [reflexivity|]. intros o' E. destruct (Nat.eqb_spec (length (o_step o)) (length ps)); [|discriminate E].
    destruct (Nat.eqb_spec (length (o_min o)) (length ps)); [|discriminate E]. cbn in E. assert (o' = o) as -> by congruence. now apply Hrun. }
  unfold opt_make. destruct step as [|s0 step]; destruct mn as [|m0 mn]; cbn [obind]; try (apply Hfin; exact Hw).
  destruct Hmid as (qs & -> & Fq). cbn [option_map obind]. apply Hfin. exact Fq.
Qed.
Print Assumptions C47_terminates.

Example C47_example :
  let ps := [PInterval (iv_make exact TInt (-10) 30 1); PDiscrete (mkDiscrete [1; 2; 4; 8] 0 1)] in
  let eval (q : params) := match q with [x; y] => - ((p_current x - 13) * (p_current x - 13)) - (p_current y - 4) * (p_current y - 4) | _ => 0 end in
  Forall made ps /\ exists o r log, opt_make exact ps [] [] = Some (Some o) /\ opt_run exact eval 50 o = Some (r, 0, log) /\
    map (p_current (N := Q)) r = [inject_Z 13; 4] /\ length log = 35%nat.
Proof.
  cbv zeta. split.
  - constructor; [|constructor; [|constructor]].
    + constructor; [reflexivity|discriminate|intros _; split; eexists; reflexivity].
    + apply (made_discrete [1; 2; 4; 8]). reflexivity.
  - eexists. eexists. eexists. split; [vm_compute; reflexivity|]. split; [vm_compute; reflexivity|]. split; vm_compute; reflexivity.
Qed.

(** ** Step widths *)

(** [q] is [r] with parameter [i] moved by [s]. *)
Definition moved (r : params) (i : nat) (s : Q) (q : params) : Prop :=
  exists p p', nth_error r i = Some p /\ p_add exact p s = Some p' /\ q = firstn i r ++ p' :: skipn (S i) r.

Lemma step_at_moved s i : forall r q, step_at exact i r s = Some q -> moved r i s q.
Proof.
  induction i as [|i IH]; intros [|p r] q E; try discriminate E; cbn [step_at] in E.
  - destruct (p_add exact p s) as [p'|] eqn:Ep; [|discriminate E]. exists p, p'. split; [reflexivity|]. split; [exact Ep|]. cbn in *. congruence.
  - destruct (step_at exact i r s) as [q'|] eqn:Eq; [|discriminate E]. destruct (IH r q' Eq) as (a & a' & H1 & H2 & H3). exists a, a'. split; [exact H1|]. split; [exact H2|].
    cbn in *. congruence.
Qed.

Lemma moved_step_at s i : forall r q, moved r i s q -> step_at exact i r s = Some q.
Proof.
  induction i as [|i IH]; intros [|p r] q (a & a' & H1 & H2 & H3); try discriminate H1; cbn [step_at].
  - cbn in H1. assert (a = p) as -> by congruence. rewrite H2. cbn in *. now rewrite H3.
  - cbn in H1. rewrite (IH r (firstn i r ++ a' :: skipn (S i) r)) by (exists a, a'; repeat split; assumption). cbn. now rewrite H3.
Qed.

(** The pattern, place by place *)
Lemma pattern_places (o : optimizer) r pattern k q : gen_pattern exact o r = Some pattern -> nth_error pattern (S k) = Some q ->
  exists s, nth_error (o_step o) (k / 2) = Some s /\ moved r (k / 2) (if Nat.even k then s else s * (-1)) q.
Proof.
  unfold gen_pattern. intros E Hk.
  assert (Hall : forall l ls, omap (fun i => obind (nth_error (o_step o) i) (fun s => obind (step_at exact i r s) (fun a => option_map (fun b => [a; b]) (step_at exact i r (a_mul exact s (a_ofZ exact (-1))))))) l = Some ls ->
    forall k i q, nth_error l (k / 2) = Some i -> nth_error (concat ls) k = Some q -> exists s, nth_error (o_step o) i = Some s /\ moved r i (if Nat.even k then s else s * (-1)) q).
  { clear. induction l as [|i l IH]; intros ls El k j q Hi Hq; [destruct (k / 2)%nat; discriminate Hi|]. cbn [omap] in El.
    destruct (nth_error (o_step o) i) as [s|] eqn:Es; [|discriminate]. cbn [obind] in El. destruct (step_at exact i r s) as [a|] eqn:Ea; [|discriminate]. cbn [obind] in El.
    destruct (step_at exact i r (a_mul exact s (a_ofZ exact (-1)))) as [b|] eqn:Eb; [|discriminate]. cbn [option_map obind] in El. match type of El with context [omap ?g l] => destruct (omap g l) as [ls'|] eqn:El' in El; [|discriminate El] end. cbn [option_map] in El.
    assert (ls = [a; b] :: ls') as -> by congruence. destruct k as [|[|k]].
    - cbn in Hi, Hq. assert (j = i) as -> by congruence. exists s. split; [exact Es|]. cbn. assert (q = a) as -> by congruence. now apply step_at_moved.
    - cbn in Hi, Hq. assert (j = i) as -> by congruence. exists s. split; [exact Es|]. cbn [Nat.even]. assert (q = b) as -> by congruence. now apply step_at_moved.
    - replace (S (S k) / 2)%nat with (S (k / 2))%nat in Hi by (change (S (S k)) with (2 + k)%nat; rewrite (Nat.add_comm 2 k); change 2%nat with (1 * 2)%nat at 2; rewrite Nat.div_add by lia; lia).
      exact (IH ls' El' k j q Hi Hq). }
  destruct (omap _ _) as [ls|] eqn:El in E; [|discriminate]. cbn [option_map] in E. assert (pattern = r :: concat ls) as -> by congruence. cbn [nth_error] in Hk.
  assert (Hlen : (k / 2 < length r)%nat).
  { assert (L : length (r :: concat ls) = (2 * length r + 1)%nat) by (apply (gen_pattern_length o); unfold gen_pattern; rewrite El; reflexivity).
    assert (Hk2 : nth_error (concat ls) k <> None) by congruence. apply nth_error_Some in Hk2. apply Nat.div_lt_upper_bound; [lia|]. cbn in L. lia. }
  eapply (Hall _ _ El); [|exact Hk]. rewrite (nth_error_nth' (seq 0 (length r)) 0%nat) by (rewrite seq_length; exact Hlen). now rewrite seq_nth.
Qed.

(** [s] is an admissible width for parameter [i] *)
Definition width (st mn : list Q) (i : nat) (s : Q) : Prop := exists a m, nth_error st i = Some a /\ nth_error mn i = Some m /\ m <= s <= a.

(** [q] is the start, or has been reached in one step from a point of the
    log *)
Definition reached (start : params) (st mn : list Q) (log : list params) (q : params) : Prop :=
  q = start \/ exists m i s, In m log /\ width st mn i s /\ (moved m i s q \/ moved m i (s * (-1)) q).

Lemma reached_incl start st mn l l' q : incl l l' -> reached start st mn l q -> reached start st mn l' q.
Proof. intros H [E|(m & i & s & H1 & H2)]; [now left|]. right. exists m, i, s. split; [now apply H|exact H2]. Qed.

Lemma max_pos_log eval mid old : forall qs i st st', max_pos_from exact eval mid old i qs st = Some st' ->
  incl (s_log st) (s_log st') /\ (forall x, In x (s_log st') -> In x (s_log st) \/ In x qs) /\ s_fitness st <= s_fitness st' /\
  (forall k q, nth_error qs k = Some q -> same_value exact mid q ((i + k - 1) / 2) = Some true \/
     (Nat.even (i + k) && (i + k - 1 =? old)%nat) || (negb (Nat.even (i + k)) && (i + k + 1 =? old)%nat) = true \/ eval q <= s_fitness st') /\
  (s_pos st' = s_pos st \/ (i <= s_pos st')%nat /\ (length (s_log st) < length (s_log st'))%nat) /\ (length (s_log st) <= length (s_log st'))%nat.
Proof.
  induction qs as [|q qs IH]; intros i st st' E.
  - cbn in E. assert (st' = st) as -> by congruence. split; [apply incl_refl|]. split; [now left|]. split; [apply Qle_refl|]. split; [intros [|k] q H; discriminate H|]. split; [now left|lia].
  - cbn [max_pos_from] in E. unfold try_point in E. destruct (same_value exact mid q ((i - 1) / 2)) as [same|] eqn:Es; [|discriminate E]. cbn [option_map obind] in E.
    destruct (same || _ || _) eqn:Ec in E.
    + destruct (IH _ _ _ E) as (I1 & I2 & I3 & I4 & I5 & I6). split; [exact I1|]. split; [intros x Hx; destruct (I2 x Hx); [now left|right; now right]|]. split; [exact I3|]. split.
      * intros [|k] x Hx.
        -- cbn in Hx. assert (x = q) as -> by congruence. rewrite Nat.add_0_r. apply orb_prop in Ec. destruct Ec as [Ec|Ec].
           ++ apply orb_prop in Ec. destruct Ec as [Ec|Ec]; [left; congruence|right; left; now rewrite Ec].
           ++ right. left. rewrite Ec. apply orb_true_r.
        -- cbn in Hx. specialize (I4 k x Hx). replace (i + S k)%nat with (S i + k)%nat by lia. exact I4.
      * split; [destruct I5 as [I5|[I5 I5']]; [now left|right; split; [lia|exact I5']]|exact I6].
    + assert (Hn : length (s_log st ++ [q]) = S (length (s_log st))) by (rewrite app_length; cbn; lia).
      assert (Hfin : forall st2, max_pos_from exact eval mid old (S i) qs st2 = Some st' -> s_log st2 = s_log st ++ [q] -> s_fitness st <= s_fitness st2 -> eval q <= s_fitness st2 -> (s_pos st2 = s_pos st \/ s_pos st2 = i) ->
        incl (s_log st) (s_log st') /\ (forall x, In x (s_log st') -> In x (s_log st) \/ In x (q :: qs)) /\ s_fitness st <= s_fitness st' /\
        (forall k x, nth_error (q :: qs) k = Some x -> same_value exact mid x ((i + k - 1) / 2) = Some true \/
          (Nat.even (i + k) && (i + k - 1 =? old)%nat) || (negb (Nat.even (i + k)) && (i + k + 1 =? old)%nat) = true \/ eval x <= s_fitness st') /\
        (s_pos st' = s_pos st \/ (i <= s_pos st')%nat /\ (length (s_log st) < length (s_log st'))%nat) /\ (length (s_log st) <= length (s_log st'))%nat).
      { intros st2 E2 L2 F1 F2 P2. destruct (IH _ _ _ E2) as (I1 & I2 & I3 & I4 & I5 & I6). rewrite L2, Hn in *. split.
        { intros x Hx. apply I1. apply in_or_app. now left. }
        split. { intros x Hx. destruct (I2 x Hx) as [Hy|Hy]; [|right; now right]. apply in_app_or in Hy. destruct Hy as [Hy|[<-|[]]]; [now left|right; now left]. }
        split. { eapply Qle_trans; eauto. }
        split. { intros [|k] x Hx.
          - cbn in Hx. assert (x = q) as -> by congruence. right. right. eapply Qle_trans; eauto.
          - cbn in Hx. specialize (I4 k x Hx). replace (i + S k)%nat with (S i + k)%nat by lia. exact I4. }
        split; [|lia]. destruct I5 as [I5|[I5 I5']]; [|right; split; lia]. destruct P2 as [P2|P2]; [left; congruence|right; split; lia]. }
      destruct (qle_cases (s_fitness st) (eval q)) as [[El Hl]|[El Hl]]; rewrite El in E; apply Hfin in E; cbn [s_log s_fitness s_pos]; auto.
      * apply Qle_refl.
      * apply Qle_refl.
      * now apply Qlt_le_weak.
Qed.

(** Reducing step widths *)
Lemma reduce_nth (o : optimizer) i s' : nth_error (o_step (fst (reduce exact o))) i = Some s' ->
  exists s m, nth_error (o_step o) i = Some s /\ nth_error (o_min o) i = Some m /\ s' = fst (reduce_one exact s m).
Proof.
  unfold reduce. cbn [fst o_step]. rewrite map_map. intros H. destruct (nth_error (combine (o_step o) (o_min o)) i) as [[s m]|] eqn:E.
  - rewrite (map_nth_error _ _ _ E) in H. cbn in H. exists s, m. assert (Hc : forall (a b : list Q) i, nth_error (combine a b) i = Some (s, m) -> nth_error a i = Some s /\ nth_error b i = Some m).
    { clear. induction a as [|x a IH]; intros [|y b] [|i] H; try discriminate H; cbn in *; [split; congruence|now apply IH]. }
    destruct (Hc _ _ _ E) as [H1 H2]. split; [exact H1|]. split; [exact H2|]. congruence.
  - apply nth_error_None in E. assert (H' : nth_error (map (fun x => fst (reduce_one exact (fst x) (snd x))) (combine (o_step o) (o_min o))) i <> None) by congruence.
    apply nth_error_Some in H'. rewrite map_length in H'. lia.
Qed.

Lemma reduce_one_bounds s m a : 0 <= m -> m <= s -> s <= a -> m <= fst (reduce_one exact s m) <= a.
Proof.
  intros H0 H1 H2. unfold reduce_one. destruct (qle_cases s m) as [[-> H]|[-> H]]; [cbn; lra|]. cbv zeta. cbn [fst].
  destruct (qle_cases (a_div exact s (a_ofZ exact 2)) m) as [[-> K]|[-> K]]; [lra|]. cbn in *. unfold Qdiv in *. change (/ inject_Z 2) with (1#2) in *. lra.
Qed.

(** every current width is admissible *)
Definition widths_ok (st mn : list Q) (o : optimizer) : Prop :=
  o_min o = mn /\ length (o_step o) = length mn /\ forall i s, nth_error (o_step o) i = Some s -> width st mn i s.

Lemma reduce_ok st mn o : Forall (Qle 0) mn -> widths_ok st mn o -> widths_ok st mn (fst (reduce exact o)).
Proof.
  intros H0 (H1 & H2 & H3). split; [exact H1|]. split; [destruct (reduce_lengths o) as [_ ->]; [congruence|exact H2]|].
  intros i s' Hs. destruct (reduce_nth o i s' Hs) as (s & m & K1 & K2 & ->). destruct (H3 i s K1) as (a & m' & L1 & L2 & L3). rewrite H1 in K2. assert (m' = m) as -> by congruence.
  exists a, m. split; [exact L1|]. split; [exact L2|]. apply reduce_one_bounds; [|tauto|tauto]. rewrite Forall_forall in H0. apply H0. eapply nth_error_In. exact K2.
Qed.

Lemma loop_reached eval start st mn : Forall (Qle 0) mn -> forall steps o middle maxPos fitness log r f l, widths_ok st mn o -> In middle log -> best eval middle fitness log ->
  (forall q, In q log -> reached start st mn log q) ->
  opt_loop exact eval steps o middle maxPos fitness log = Some (r, f, l) -> forall q, In q l -> reached start st mn l q.
Proof.
  intros H0. induction steps as [|k IH]; intros o middle maxPos fitness log r f l Ho Hm Hb Hl E.
  - cbn in E. assert (l = log) as -> by congruence. exact Hl.
  - cbn [opt_loop] in E. destruct (gen_pattern exact o middle) as [pattern|] eqn:Ep; [|discriminate E]. cbn [obind] in E.
    destruct (gen_pattern_head o middle pattern Ep) as [Hp0 Hp].
    destruct (get_max_pos exact eval pattern maxPos fitness log) as [s|] eqn:Es; [|discriminate E]. cbn [obind] in E.
    assert (Es' : max_pos_from exact eval middle maxPos 1 (skipn 1 pattern) (mkSearch 0 fitness log) = Some s) by (rewrite Hp in Es; exact Es).
    destruct (max_pos_log _ _ _ _ _ _ _ Es') as (I1 & I2 & _ & _ & _ & _). cbn [s_log] in I1, I2.
    assert (Hst : exists b, nth_error pattern (s_pos s) = Some b /\ best eval b (s_fitness s) (s_log s)).
    { destruct (max_pos_best eval pattern middle maxPos Hp0 (skipn 1 pattern) 1 (mkSearch 0 fitness log) s eq_refl) as [K _]; [exists middle; split; assumption|exact Es'|exact K]. }
    destruct Hst as (b & Hb1 & Hb2).
    assert (Hs : forall q, In q (s_log s) -> reached start st mn (s_log s) q).
    { intros q Hq. destruct (I2 q Hq) as [Hq'|Hq']; [eapply reached_incl; [exact I1|now apply Hl]|].
      apply In_nth_error in Hq'. destruct Hq' as [n Hn]. assert (Hn' : nth_error pattern (S n) = Some q) by (rewrite Hp; exact Hn).
      destruct (pattern_places o middle pattern n q Ep Hn') as (w & Hw & Hmv). right. exists middle, (n / 2)%nat, w. split; [now apply I1|]. split; [now apply Ho|].
      destruct (Nat.even n); [now left|now right]. }
    destruct (Nat.eqb_spec (s_pos s) 0) as [E0|E0].
    + rewrite E0, Hp0 in Hb1. assert (b = middle) as -> by congruence. pose proof (reduce_ok st mn o H0 Ho) as Ho'. destruct (reduce exact o) as [o' again]. cbn [fst] in Ho'. destruct again.
      * eapply (IH o'); [exact Ho'| | |exact Hs|exact E]; [now apply I1|exact Hb2].
      * assert (l = s_log s) as -> by congruence. exact Hs.
    + rewrite Hb1 in E. cbn [obind] in E. eapply (IH o); [exact Ho| | |exact Hs|exact E]; [apply Hb2|exact Hb2].
Qed.

(** Each point evaluated, the start aside, differs from another one by a step
    in a single parameter, whose width lies between the minimum and the
    initial width for this parameter. *)
Theorem C47_step_widths : forall (eval : params -> Q) steps o r f log, opt_run exact eval steps o = Some (r, f, log) ->
  length (o_step o) = length (o_min o) -> (forall i s m, nth_error (o_step o) i = Some s -> nth_error (o_min o) i = Some m -> 0 <= m <= s) ->
  forall q, In q log -> q = o_params o \/
    exists m i s a b p p', In m log /\ nth_error (o_step o) i = Some a /\ nth_error (o_min o) i = Some b /\ b <= s <= a /\
      nth_error m i = Some p /\ (p_add exact p s = Some p' \/ p_add exact p (s * (-1)) = Some p') /\ q = firstn i m ++ p' :: skipn (S i) m.
Proof.
  intros eval steps o r f log E L H q Hq. unfold opt_run in E. destruct (gen_pattern exact o (o_params o)); [|discriminate E]. cbn [obind] in E.
  assert (H0 : Forall (Qle 0) (o_min o)).
  { apply Forall_forall. intros m Hm. apply In_nth_error in Hm. destruct Hm as [i Hi]. assert (Hs : exists s, nth_error (o_step o) i = Some s).
    { destruct (nth_error (o_step o) i) eqn:Es; [eauto|]. apply nth_error_None in Es. assert (nth_error (o_min o) i <> None) as K by congruence. apply nth_error_Some in K. lia. }
    destruct Hs as [s Hs]. apply (H i s m Hs Hi). }
  assert (Hw : widths_ok (o_step o) (o_min o) o).
  { split; [reflexivity|]. split; [exact L|]. intros i s Hs. assert (Hm : exists m, nth_error (o_min o) i = Some m).
    { destruct (nth_error (o_min o) i) eqn:Es; [eauto|]. apply nth_error_None in Es. assert (nth_error (o_step o) i <> None) as K by congruence. apply nth_error_Some in K. lia. }
    destruct Hm as [m Hm]. exists s, m. split; [exact Hs|]. split; [exact Hm|]. split; [apply (H i s m Hs Hm)|apply Qle_refl]. }
  assert (Hb : best eval (o_params o) (eval (o_params o)) [o_params o]) by (split; [reflexivity|]; split; [now left|]; intros x [<-|[]]; apply Qle_refl).
  assert (Hr : forall x, In x [o_params o] -> reached (o_params o) (o_step o) (o_min o) [o_params o] x) by (intros x [<-|[]]; now left).
  destruct (loop_reached eval (o_params o) (o_step o) (o_min o) H0 steps o (o_params o) 0 (eval (o_params o)) [o_params o] r f log Hw (or_introl eq_refl) Hb Hr E q Hq) as [->|K].
  - now left.
  - right. destruct K as (m & i & s & K1 & (a & b & K2 & K3 & K4) & [(p & p' & K5 & K6 & K7)|(p & p' & K5 & K6 & K7)]); exists m, i, s, a, b, p, p'; repeat (split; [assumption|]); (split; [|assumption]); [now left|now right].
Qed.
Print Assumptions C47_step_widths.

(** ** When the search stops *)

(** [stuck]: all points one (final) step off [r] have been found not to be
    better, but those equal to [r] in the parameter in question, and but those
    opposite to a step which has led to [r]. *)
Definition stuck (eval : params -> Q) (mn : list Q) (r : params) (f : Q) (log : list params) : Prop :=
  exists ws skipped, Forall2 Qle ws mn /\
    forall i w (up : bool) q p p', nth_error ws i = Some w -> moved r i (if up then w else w * (-1)) q ->
      nth_error r i = Some p -> nth_error q i = Some p' -> p_value exact p' == p_value exact p \/ eval q <= f \/
      (i, up) = skipped /\ exists m, In m log /\ moved m i (if up then w * (-1) else w) r.

(** the last step has led to the middle *)
Definition came (o : optimizer) (middle : params) (maxPos : nat) (log : list params) : Prop :=
  maxPos = 0%nat \/ exists m pattern, In m log /\ gen_pattern exact o m = Some pattern /\ nth_error pattern maxPos = Some middle.

Lemma reduce_again (o : optimizer) : length (o_step o) = length (o_min o) ->
  (snd (reduce exact o) = false -> Forall2 Qle (o_step o) (o_min o)) /\ (snd (reduce exact o) = true -> ~ Forall2 Qle (o_step o) (o_min o)).
Proof.
  destruct o as [ps st mn]. unfold reduce. cbn [o_step o_min snd]. revert mn. induction st as [|s st IH]; intros [|m mn] L; try discriminate L.
  - split; [constructor|discriminate].
  - cbn [combine map existsb fst snd]. destruct (IH mn ltac:(cbn in L; lia)) as [I1 I2]. unfold reduce_one at 1 3. destruct (qle_cases s m) as [[-> H]|[-> H]]; cbn [snd orb].
    + split; [intros E; constructor; [exact H|now apply I1]|]. intros E K. inversion K; subst. now apply I2.
    + split; [discriminate|]. intros _ K. inversion K as [|? ? ? ? Ha]; subst. apply Qle_not_lt in Ha. contradiction.
Qed.

(** after [n] reductions all widths are minimal *)
Lemma reduce_pow (o : optimizer) n : length (o_step o) = length (o_min o) -> Forall (Qlt 0) (o_min o) ->
  Forall2 (fun s m => s <= m * inject_Z (2 ^ Z.of_nat (S n))) (o_step o) (o_min o) ->
  Forall2 (fun s m => s <= m * inject_Z (2 ^ Z.of_nat n)) (o_step (fst (reduce exact o))) (o_min o).
Proof.
  destruct o as [ps st mn]. unfold reduce. cbn [o_step o_min fst]. intros L H0 H. rewrite map_map. clear L. induction H as [|s m st mn H _ IH]; [constructor|]. cbn [combine map fst snd].
  pose proof (Forall_inv H0) as Hm. constructor; [|apply IH; exact (Forall_inv_tail H0)].
  assert (H1 : 1 <= inject_Z (2 ^ Z.of_nat n)) by (change 1 with (inject_Z 1); rewrite <- Zle_Qle; pose proof (Z.pow_pos_nonneg 2 (Z.of_nat n)); lia).
  rewrite Nat2Z.inj_succ, Z.pow_succ_r, inject_Z_mult in H by lia. set (t := inject_Z (2 ^ Z.of_nat n)) in *. clearbody t. change (inject_Z 2) with 2 in H.
  assert (H2 : m <= m * t) by nra. unfold reduce_one. destruct (qle_cases s m) as [[-> K]|[-> K]]; [exact H2|]. cbv zeta. cbn [fst].
  destruct (qle_cases (a_div exact s (a_ofZ exact 2)) m) as [[-> K']|[-> K']]; [exact H2|]. cbn. unfold Qdiv. change (/ inject_Z 2) with (1#2). lra.
Qed.

Lemma pow_exists (st mn : list Q) : length st = length mn -> Forall (Qlt 0) mn -> exists n, Forall2 (fun s m => s <= m * inject_Z (2 ^ Z.of_nat n)) st mn.
Proof.
  intros L H0. assert (Hone : forall s m : Q, 0 < m -> exists n, forall k, (n <= k)%nat -> s <= m * inject_Z (2 ^ Z.of_nat k)).
  { intros s m Hm. exists (Z.to_nat (Qceiling (s / m))). intros k Hk. pose proof (Qle_ceiling (s / m)) as H.
    assert (H2 : s / m <= inject_Z (2 ^ Z.of_nat k)).
    { eapply Qle_trans; [exact H|]. rewrite <- Zle_Qle. pose proof (Z.pow_gt_lin_r 2 (Z.of_nat k)). lia. }
    assert (E : s == m * (s / m)) by (field; lra). rewrite E. setoid_replace (m * (s / m)) with ((s / m) * m) by ring. rewrite (Qmult_comm m (inject_Z _)). apply Qmult_le_compat_r; [exact H2|lra]. }
  assert (Hall : exists n, forall k, (n <= k)%nat -> Forall2 (fun s m => s <= m * inject_Z (2 ^ Z.of_nat k)) st mn).
  { revert mn L H0. induction st as [|s st IH]; intros [|m mn] L H0; try discriminate L; [exists 0%nat; constructor|].
    destruct (IH mn ltac:(cbn in L; lia) (Forall_inv_tail H0)) as [n Hn]. destruct (Hone s m (Forall_inv H0)) as [n' Hn']. exists (max n n'). intros k Hk. constructor; [apply Hn'; lia|apply Hn; lia]. }
  destruct Hall as [n Hn]. exists n. apply Hn. lia.
Qed.

(** a round without progress, in the end *)
Lemma round_stuck eval o middle maxPos fitness log pattern st : Forall2 Qle (o_step o) (o_min o) -> best eval middle fitness log -> came o middle maxPos log ->
  gen_pattern exact o middle = Some pattern -> get_max_pos exact eval pattern maxPos fitness log = Some st -> length (o_step o) = length middle -> s_pos st = 0%nat -> stuck eval (o_min o) middle (s_fitness st) (s_log st).
Proof.
  intros Hr Hb Hc Ep Es L E0. destruct (gen_pattern_head o middle pattern Ep) as [Hp0 Hp].
  assert (Es' : max_pos_from exact eval middle maxPos 1 (skipn 1 pattern) (mkSearch 0 fitness log) = Some st) by (rewrite Hp in Es; exact Es).
  destruct (max_pos_log _ _ _ _ _ _ _ Es') as (I1 & _ & _ & I4 & _ & _).
  (* the place skipped *)
  exists (o_step o), (if Nat.even maxPos then ((maxPos - 1) / 2, true)%nat else (maxPos / 2, false)%nat). split; [exact Hr|].
  intros i w up q p p' Hw Hq Hp1 Hp2. set (k := (2 * i + if up then 0 else 1)%nat).
  assert (Hk : (k / 2 = i)%nat) by (unfold k; destruct up; [rewrite Nat.add_0_r, Nat.mul_comm; apply Nat.div_mul; lia|rewrite Nat.add_comm, Nat.mul_comm, Nat.div_add by lia; reflexivity]).
  assert (Hev : Nat.even k = up) by (unfold k; destruct up; [rewrite Nat.add_0_r; apply Nat.even_spec; exists i; lia|rewrite Nat.add_1_r, Nat.even_succ; rewrite <- Nat.negb_even; apply negb_false_iff; apply Nat.even_spec; exists i; lia]).
  assert (Hlen : (i < length middle)%nat) by (apply nth_error_Some; congruence).
  assert (Hk2 : nth_error (skipn 1 pattern) k = Some q).
  { pose proof (gen_pattern_length o middle pattern Ep) as Lp. destruct (nth_error pattern (S k)) as [q2|] eqn:E2; [|apply nth_error_None in E2; unfold k in E2; destruct up; lia].
    destruct (pattern_places o middle pattern k q2 Ep E2) as (w2 & H1 & H2). rewrite Hk in H1, H2. assert (w2 = w) as -> by congruence. rewrite Hev in H2.
    apply moved_step_at in H2, Hq. rewrite Hp in E2. cbn [nth_error] in E2. rewrite E2. congruence. }
  destruct (I4 k q Hk2) as [K|[K|K]].
  - left. replace (1 + k - 1)%nat with k in K by lia. rewrite Hk in K. unfold same_value in K. rewrite Hp1, Hp2 in K. cbn [obind option_map] in K.
    destruct (qle_cases (p_value exact p) (p_value exact p')) as [[E1 K1]|[E1 K1]]; rewrite E1 in K; [|discriminate K].
    destruct (qle_cases (p_value exact p') (p_value exact p)) as [[E2 K2]|[E2 K2]]; rewrite E2 in K; [|discriminate K]. lra.
  - right. right. replace (1 + k - 1)%nat with k in K by lia. change (1 + k)%nat with (S k) in K. rewrite Nat.even_succ, <- Nat.negb_even, Hev in K. apply orb_prop in K.
    assert (Hmp : maxPos = if up then S (S k) else k).
    { destruct K as [K|K]; apply andb_prop in K; destruct K as [K1 K2]; apply Nat.eqb_eq in K2; destruct up; try discriminate K1; lia. }
    clear K. split.
    + rewrite Hmp. destruct up.
      * change (Nat.even (S (S k))) with (Nat.even k). rewrite Hev. cbn [Nat.sub].
        f_equal. rewrite <- Hk. unfold k. rewrite Nat.add_0_r. change (S (2 * i)) with (1 + 2 * i)%nat. rewrite (Nat.mul_comm 2 i). rewrite Nat.div_add by lia. rewrite Nat.div_mul by lia. reflexivity.
      * rewrite Hev. congruence.
    + destruct Hc as [Hc|(m & pat & Hin & Hpat & Hmid)]; [rewrite Hc in Hmp; unfold k in Hmp; destruct up; lia|]. exists m. split; [now apply I1|].
      assert (Hplace : exists n, maxPos = S n /\ (n / 2 = i)%nat /\ Nat.even n = negb up).
      { destruct up; [exists (S k)|exists (k - 1)%nat]; (split; [unfold k in *; lia|]).
        - split; [|now rewrite Nat.even_succ, <- Nat.negb_even, Hev]. unfold k. rewrite Nat.add_0_r. change (S (2 * i)) with (1 + 2 * i)%nat. rewrite (Nat.mul_comm 2 i). rewrite Nat.div_add by lia. reflexivity.
        - assert (k - 1 = 2 * i)%nat as -> by (unfold k; lia). split; [rewrite Nat.mul_comm; apply Nat.div_mul; lia|]. apply Nat.even_spec. exists i. lia. }
      destruct Hplace as (n & -> & Hn1 & Hn2). destruct (pattern_places o m pat n middle Hpat Hmid) as (w2 & W1 & W2). rewrite Hn1 in W1, W2. rewrite Hn2 in W2. assert (w2 = w) as -> by congruence.
      destruct up; exact W2.
  - right. now left.
Qed.

Lemma loop_stuck eval ps mn : Forall (Qlt 0) mn -> length mn = length ps -> forall n o middle maxPos fitness log r f, o_min o = mn -> length (o_step o) = length mn -> fits ps middle -> best eval middle fitness log -> came o middle maxPos log ->
  Forall2 (fun s m => s <= m * inject_Z (2 ^ Z.of_nat n)) (o_step o) mn ->
  (forall k, opt_loop exact eval k o middle maxPos fitness log = Some (r, f, log)) -> stuck eval mn r f log.
Proof.
  intros H0 Lmn. induction n as [|n IH]; intros o middle maxPos fitness log r f Hmin Lst Hm Hb Hcame Hpow E.
  all: destruct (gen_pattern_fits ps o middle Hm ltac:(congruence)) as (pattern & Ep & Fp).
  all: destruct (gen_pattern_head o middle pattern Ep) as [Hp0 Hp].
  all: pose proof (E 1%nat) as E1; cbn [opt_loop] in E1; rewrite Ep in E1; cbn [obind] in E1.
  all: destruct (get_max_pos exact eval pattern maxPos fitness log) as [st|] eqn:Es; [|discriminate E1]; cbn [obind] in E1.
  all: assert (Es' : max_pos_from exact eval middle maxPos 1 (skipn 1 pattern) (mkSearch 0 fitness log) = Some st) by (rewrite Hp in Es; exact Es).
  all: destruct (max_pos_log _ _ _ _ _ _ _ Es') as (_ & _ & _ & _ & I5 & _); cbn [s_pos s_log] in I5.
  all: assert (Hlog : s_log st = log /\ r = middle /\ f = s_fitness st /\ s_pos st = 0%nat).
  1, 3: (destruct (Nat.eqb_spec (s_pos st) 0) as [Ez|Ez]; [destruct (reduce exact o) as [o' again]; destruct again; cbn [opt_loop] in E1; repeat split; congruence|]);
    exfalso; destruct I5 as [I5|[_ I5]]; [congruence|]; destruct (nth_error pattern (s_pos st)); [|discriminate E1]; cbn [obind opt_loop] in E1; assert (s_log st = log) by congruence; congruence || (rewrite H in I5; lia).
  all: destruct Hlog as (L1 & -> & -> & Ez).
  all: destruct (reduce_again o ltac:(congruence)) as [R1 R2].
  - rewrite <- Hmin, <- L1. eapply round_stuck; try eassumption; [|rewrite Lst, Lmn; symmetry; now apply fits_length].
    rewrite Hmin. clear - Hpow. induction Hpow as [|a b st mn H _ IH]; constructor; [|exact IH]. cbn in H. change (inject_Z 1) with 1 in H. lra.
  - destruct (reduce exact o) as [o' again] eqn:Er. cbn [snd] in R1, R2. destruct again.
    + assert (Hpow' := reduce_pow o n ltac:(congruence) ltac:(now rewrite Hmin) ltac:(rewrite Hmin; exact Hpow)). rewrite Er in Hpow'. cbn [fst] in Hpow'.
      assert (Hf : s_fitness st = fitness).
      { destruct (max_pos_best eval pattern middle maxPos Hp0 (skipn 1 pattern) 1 (mkSearch 0 fitness log) st eq_refl) as [(b & K1 & K2) _]; [exists middle; split; [exact Hp0|exact Hb]|exact Es'|].
        rewrite Ez, Hp0 in K1. assert (b = middle) as -> by congruence. destruct K2 as [-> _]. destruct Hb as [-> _]. reflexivity. }
      assert (Hmo : o_min o' = mn) by (unfold reduce in Er; assert (o' = mkOptimizer (o_params o) (o_step o') (o_min o)) as -> by (inversion Er; reflexivity); exact Hmin).
      assert (Hlo : length (o_step o') = length mn) by (destruct (reduce_lengths o ltac:(congruence)) as [_ K]; rewrite Er in K; cbn [fst] in K; congruence).
      rewrite Hf. eapply (IH o' middle 0%nat fitness log); [exact Hmo|exact Hlo|exact Hm|exact Hb|now left|rewrite <- Hmin; exact Hpow'|].
      intros k. specialize (E (S k)). cbn [opt_loop] in E. rewrite Ep in E. cbn [obind] in E. rewrite Es in E. cbn [obind] in E. rewrite Ez, Er in E. cbn [Nat.eqb] in E. rewrite Hf, L1 in E. exact E.
    + rewrite <- Hmin, <- L1. eapply round_stuck; try eassumption; [now apply R1|rewrite Lst, Lmn; symmetry; now apply fits_length].
Qed.

Lemma run_stuck eval ps mn : Forall (Qlt 0) mn -> length mn = length ps -> forall steps o middle maxPos fitness log r f l, o_min o = mn -> length (o_step o) = length mn -> fits ps middle -> best eval middle fitness log -> came o middle maxPos log ->
  (forall k, opt_loop exact eval (steps + k) o middle maxPos fitness log = Some (r, f, l)) -> stuck eval mn r f l.
Proof.
  intros H0 Lmn. induction steps as [|k IH]; intros o middle maxPos fitness log r f l Hmin Lst Hm Hb Hcame E.
  - pose proof (E 0%nat) as E0. cbn in E0. assert (l = log) as -> by congruence. destruct (pow_exists (o_step o) mn Lst H0) as [n Hn]. exact (loop_stuck eval ps mn H0 Lmn n o middle maxPos fitness log r f Hmin Lst Hm Hb Hcame Hn E).
  - cbn [Nat.add] in E. destruct (gen_pattern_fits ps o middle Hm ltac:(congruence)) as (pattern & Ep & Fp). destruct (gen_pattern_head o middle pattern Ep) as [Hp0 Hp].
    pose proof (E 0%nat) as E1. cbn [opt_loop] in E1. rewrite Ep in E1. cbn [obind] in E1. destruct (get_max_pos exact eval pattern maxPos fitness log) as [st|] eqn:Es; [|discriminate E1]. cbn [obind] in E1.
    assert (Es' : max_pos_from exact eval middle maxPos 1 (skipn 1 pattern) (mkSearch 0 fitness log) = Some st) by (rewrite Hp in Es; exact Es).
    destruct (max_pos_best eval pattern middle maxPos Hp0 (skipn 1 pattern) 1 (mkSearch 0 fitness log) st eq_refl) as [(b & K1 & K2) _]; [exists middle; split; [exact Hp0|exact Hb]|exact Es'|].
    assert (Fb : fits ps b) by (rewrite Forall_forall in Fp; apply Fp; eapply nth_error_In; exact K1).
    destruct (Nat.eqb_spec (s_pos st) 0) as [Ez|Ez].
    + rewrite Ez, Hp0 in K1. assert (b = middle) as -> by congruence. destruct (reduce_again o ltac:(congruence)) as [R1 R2]. destruct (reduce exact o) as [o' again] eqn:Er. cbn [snd] in R1, R2. destruct again.
      * assert (Hmo : o_min o' = mn) by (unfold reduce in Er; assert (o' = mkOptimizer (o_params o) (o_step o') (o_min o)) as -> by (inversion Er; reflexivity); exact Hmin).
        assert (Hlo : length (o_step o') = length mn) by (destruct (reduce_lengths o ltac:(congruence)) as [_ K]; rewrite Er in K; cbn [fst] in K; congruence).
        apply (IH o' middle 0%nat (s_fitness st) (s_log st) r f l Hmo Hlo Hm K2 (or_introl eq_refl)). intros j. specialize (E j). cbn [opt_loop] in E. rewrite Ep in E. cbn [obind] in E. rewrite Es in E. cbn [obind] in E. rewrite Ez, Er in E. exact E.
      * assert (r = middle /\ f = s_fitness st /\ l = s_log st) as (-> & -> & ->) by (repeat split; congruence). rewrite <- Hmin. eapply (round_stuck eval o middle maxPos fitness log); try eassumption; [now apply R1|rewrite Lst, Lmn; symmetry; now apply fits_length].
    + apply (IH o b (s_pos st) (s_fitness st) (s_log st) r f l Hmin Lst Fb K2); [right; exists middle, pattern; split; [|split; assumption]; destruct (max_pos_log _ _ _ _ _ _ _ Es') as (I1 & _); apply I1; apply Hb|]. intros j. specialize (E j). cbn [opt_loop] in E. rewrite Ep in E. cbn [obind] in E. rewrite Es in E. cbn [obind] in E.
      destruct (Nat.eqb_spec (s_pos st) 0); [contradiction|]. rewrite K1 in E. exact E.
Qed.

Lemma make_fits ps step mn o : Forall made ps -> opt_make exact ps step mn = Some (Some o) -> fits ps (o_params o) /\ length (o_step o) = length ps /\ length (o_min o) = length ps.
Proof.
  intros Hm E.
  assert (Hw : fits ps ps) by (clear E; induction Hm as [|p ps Hp _ IH]; constructor; [|exact IH]; split; [apply same_domain_refl|now apply made_wf]).
  assert (Hmid : exists qs, omap (fun p => p_set exact p (a_div exact (a_sub exact (p_max exact p) (a_ofZ exact 0)) (a_ofZ exact 2))) ps = Some qs /\ fits ps qs).
  { clear Hw E. induction Hm as [|p ps Hp _ IH]; [exists []; split; [reflexivity|constructor]|]. destruct IH as (l & E & F). cbn [omap].
    destruct (op_wf p (OSet (a_div exact (a_sub exact (p_max exact p) (a_ofZ exact 0)) (a_ofZ exact 2))) (made_wf p Hp)) as (p2 & E2 & W2 & D2).
    cbn [p_op] in E2. rewrite E2. cbn [obind]. rewrite E. eexists. split; [reflexivity|]. constructor; [split; assumption|exact F]. }
  assert (Hfin : forall o', fits ps (o_params o') -> Some (if (length (o_step o') =? length ps)%nat && (length (o_min o') =? length ps)%nat then Some o' else None) = Some (Some o) ->
    fits ps (o_params o) /\ length (o_step o) = length ps /\ length (o_min o) = length ps).
  { intros o' Hf E'. destruct (Nat.eqb_spec (length (o_step o')) (length ps)); [|discriminate E'].
    destruct (Nat.eqb_spec (length (o_min o')) (length ps)); [|discriminate E']. cbn in E'. assert (o' = o) as <- by congruence. split; [exact Hf|]. split; assumption. }
  unfold opt_make in E. destruct step as [|s0 step]; destruct mn as [|m0 mn]; cbn [obind] in E; try (eapply Hfin; [|exact E]; exact Hw).
  destruct Hmid as (qs & Eq & Fq). rewrite Eq in E. cbn [option_map obind] in E. eapply Hfin; [|exact E]. exact Fq.
Qed.

(** If further steps do not change anything any more, there are step widths
    of at most the minimum for which no neighbour of the result is better.
    Neighbours whose value does not differ are not looked at, and one more
    neighbour need not be, which is opposite to the step by which the result
    was reached (see C89). *)
Theorem C47_stops_at_minimum : forall (eval : params -> Q) steps ps step mn o r f log, Forall made ps -> opt_make exact ps step mn = Some (Some o) ->
  (forall m, In m (o_min o) -> 0 < m) -> (forall k, opt_run exact eval (steps + k) o = Some (r, f, log)) ->
  exists ws skipped, Forall2 Qle ws (o_min o) /\
    forall i w (up : bool) p p', nth_error ws i = Some w -> nth_error r i = Some p -> p_add exact p (if up then w else w * (-1)) = Some p' ->
      p_value exact p' == p_value exact p \/ eval (firstn i r ++ p' :: skipn (S i) r) <= f \/
      (i, up) = skipped /\ exists m p0, In m log /\ nth_error m i = Some p0 /\ p_add exact p0 (if up then w * (-1) else w) = Some p /\ m = firstn i r ++ p0 :: skipn (S i) r.
Proof.
  intros eval steps ps step mn o r f log Hm Ho H0 E. destruct (make_fits ps step mn o Hm Ho) as (Hf & L1 & L2).
  assert (Hs : stuck eval (o_min o) r f log).
  { eapply (run_stuck eval ps (o_min o) ltac:(apply Forall_forall; exact H0) L2 steps o (o_params o) 0 (eval (o_params o)) [o_params o]); [reflexivity|congruence|exact Hf| |now left|].
    - split; [reflexivity|]. split; [now left|]. intros x [<-|[]]; apply Qle_refl.
    - intros k. specialize (E k). unfold opt_run in E. destruct (gen_pattern exact o (o_params o)); [|discriminate E]. exact E. }
  destruct Hs as (ws & sk & H1 & H2). exists ws, sk. split; [exact H1|]. intros i w up p p' Hw Hp Hadd.
  assert (Li : (i < length r)%nat) by (apply nth_error_Some; congruence).
  destruct (H2 i w up (firstn i r ++ p' :: skipn (S i) r) p p') as [K|[K|(K & m & Hin & (p0 & p1 & M1 & M2 & M3))]]; auto.
  - exists p, p'. split; [exact Hp|]. split; [exact Hadd|reflexivity].
  - rewrite nth_error_app2; rewrite firstn_length_le by lia; [|lia]. now rewrite Nat.sub_diag.
  - right. right. split; [exact K|]. exists m, p0. split; [exact Hin|]. split; [exact M1|]. assert (Lm : (i < length m)%nat) by (apply nth_error_Some; congruence).
    assert (p1 = p) as ->. { rewrite M3 in Hp. rewrite nth_error_app2 in Hp by (rewrite firstn_length_le; lia). rewrite firstn_length_le, Nat.sub_diag in Hp by lia. cbn in Hp. congruence. }
    split; [exact M2|]. clear - M1 M3. revert m r M1 M3. induction i as [|i IH]; intros [|a m] r M1 M3; try discriminate M1.
    + cbn in M1, M3. rewrite M3. cbn. congruence.
    + cbn in M1. rewrite M3. cbn. f_equal. now apply IH.
Qed.
Print Assumptions C47_stops_at_minimum.

Example C47_stops_example :
  let ps := [PInterval (iv_make exact TInt (-10) 30 1); PDiscrete (mkDiscrete [1; 2; 4; 8] 0 1)] in
  let eval (q : params) := match q with [x; y] => - ((p_current x - 13) * (p_current x - 13)) - (p_current y - 4) * (p_current y - 4) | _ => 0 end in
  exists o r log, opt_make exact ps [] [] = Some (Some o) /\ (forall m, In m (o_min o) -> 0 < m) /\ length (o_step o) = length (o_min o) /\
    (forall i s m, nth_error (o_step o) i = Some s -> nth_error (o_min o) i = Some m -> 0 <= m <= s) /\
    (forall k, opt_run exact eval (12 + k) o = Some (r, 0, log)) /\ length log = 35%nat.
Proof.
  cbv zeta. eexists. eexists. eexists. split; [vm_compute; reflexivity|]. split; [|split; [|split; [|split]]].
  - intros m [<-|[<-|[]]]; reflexivity.
  - reflexivity.
  - intros [|[|i]] s m Hs Hm; cbn in Hs, Hm; try (destruct i; discriminate); injection Hs as <-; injection Hm as <-; split; discriminate.
  - intros k. vm_compute. reflexivity.
  - vm_compute. reflexivity.
Qed.

(** ** C89: stopping next to a better point *)

(** The point opposite to the last move is taken for the former middle and
    skipped, though the move may have been cut short at the border of the
    domain. Here the search leaves 8 for 9 in steps of 3 and stops there, even
    though 6 is better; no step width has been changed. *)
Theorem C89_stops_early_refuted : exists (eval : params -> Q) p o r f log q pattern,
  p_ops exact (PInterval (iv_make exact TInt 0 10 1)) [OSet 8] = Some p /\ made (PInterval (iv_make exact TInt 0 10 1)) /\
  opt_make exact [p] [3] [3] = Some (Some o) /\
  (forall k, opt_run exact eval (2 + k) o = Some (r, f, log)) /\ gen_pattern exact o r = Some pattern /\ In q pattern /\ f < eval q.
Proof.
  exists (fun q => match q with [x] => if Qeq_bool (p_current x) 9 then 1 else if Qeq_bool (p_current x) 6 then 5 else 0 | _ => 0 end).
  eexists. eexists. eexists. eexists. eexists. eexists. eexists. split; [vm_compute; reflexivity|].
  split; [constructor; [reflexivity|discriminate|intros _; split; eexists; reflexivity]|]. split; [vm_compute; reflexivity|].
  split; [intros k; vm_compute; reflexivity|]. split; [vm_compute; reflexivity|]. split; [right; right; left; reflexivity|]. vm_compute. reflexivity.
Qed.
Print Assumptions C89_stops_early_refuted.
