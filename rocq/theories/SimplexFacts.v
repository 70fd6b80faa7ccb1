(** Facts on simplex search. *)
From Coq Require Import ZArith QArith Qround List Bool Lia.
From Verif Require Import Base RegionOpsModel UpdateModel UpdateFacts ParamModel ParamSpec ParamFacts SimplexModel SimplexSpec.
From Coq Require Import Lqa.
Import ListNotations.
Open Scope Q_scope.

(** ** Choosing vertices *)

Lemma min_from_lt (vs : list (vertex Q)) : forall i mn k, (k < i + length vs)%nat -> (min_from exact vs i mn k < i + length vs)%nat.
Proof.
  induction vs as [|v vs IH]; intros i mn k H; cbn [min_from length] in *; [exact H|].
  rewrite <- Nat.add_succ_comm. destruct (a_le exact (v_fitness v) mn); apply IH; lia.
Qed.

Lemma max_from_lt (vs : list (vertex Q)) : forall i mx k, (k < i + length vs)%nat -> (max_from exact vs i mx k < i + length vs)%nat.
Proof.
  induction vs as [|v vs IH]; intros i mx k H; cbn [max_from length] in *; [exact H|].
  rewrite <- Nat.add_succ_comm. destruct (a_le exact mx (v_fitness v)); apply IH; lia.
Qed.

Lemma min_in_nth dmax (vs : list (vertex Q)) : vs <> [] -> exists v, nth_error vs (min_in exact dmax vs) = Some v.
Proof.
  intros H. destruct vs as [|v0 vs0]; [congruence|]. pose proof (min_from_lt (v0 :: vs0) 0 dmax 0 ltac:(cbn; lia)) as L. cbn [Nat.add] in L.
  destruct (nth_error _ _) as [v|] eqn:E; [now exists v|]. apply nth_error_None in E. unfold min_in in E. lia.
Qed.

Lemma max_in_nth dmin (vs : list (vertex Q)) : vs <> [] -> exists v, nth_error vs (max_in exact dmin vs) = Some v.
Proof.
  intros H. destruct vs as [|v0 vs0]; [congruence|]. pose proof (max_from_lt (v0 :: vs0) 0 dmin 0 ltac:(cbn; lia)) as L. cbn [Nat.add] in L.
  destruct (nth_error _ _) as [v|] eqn:E; [now exists v|]. apply nth_error_None in E. unfold max_in in E. lia.
Qed.

(** ** New points; [P] is whatever setValue keeps *)

Section Keep.
Context (P : param (N := Q) -> Prop).
Hypothesis P_set : forall p v, P p -> exists p', p_set exact p v = Some p' /\ P p' /\ same_domain p p'.

Definition fitting (ps q : params) : Prop := Forall2 (fun p p' => same_domain p p' /\ P p') ps q.

Lemma fitting_length ps q : fitting ps q -> length q = length ps.
Proof. induction 1 as [|? ? ? ? _ _ IH]; [reflexivity|cbn; now rewrite IH]. Qed.

Lemma set_from_fits f ps q : fitting ps q -> forall j, (forall k, (k < length q)%nat -> exists v, f (j + k)%nat = Some v) ->
  exists q', set_from exact q j f = Some q' /\ fitting ps q'.
Proof using P_set.
  induction 1 as [|p p' ps q [D W] H IH]; intros j Hf; cbn [set_from].
  - exists []. split; [reflexivity|constructor].
  - destruct (Hf 0%nat ltac:(cbn; lia)) as [v Ev]. rewrite Nat.add_0_r in Ev. rewrite Ev. cbn [obind].
    destruct (P_set p' v W) as (p2 & -> & W2 & D2). cbn [obind]. destruct (IH (S j)) as (q' & -> & F).
    + intros k Hk. destruct (Hf (S k) ltac:(cbn; lia)) as [u Eu]. exists u. rewrite <- Eu. f_equal. lia.
    + cbn [option_map]. eexists. split; [reflexivity|]. constructor; [|exact F]. split; [eapply same_domain_trans; eauto|exact W2].
Qed.

Lemma set_all_fits f ps q : fitting ps q -> (forall k, (k < length ps)%nat -> exists v, f k = Some v) ->
  exists q', set_all exact q f = Some q' /\ fitting ps q'.
Proof using P_set. intros H Hf. apply set_from_fits; [exact H|]. intros k Hk. apply Hf. now rewrite (fitting_length _ _ H) in Hk. Qed.

Lemma par_at_some ps q k : fitting ps q -> (k < length ps)%nat -> exists v, par_at exact q k = Some v.
Proof.
  intros H Hk. rewrite <- (fitting_length _ _ H) in Hk. unfold par_at. destruct (nth_error q k) eqn:E; [eexists; reflexivity|]. apply nth_error_None in E. lia.
Qed.

Lemma merge_fits ps a b : fitting ps a -> fitting ps b -> exists c, merge exact a b = Some c /\ fitting ps c.
Proof using P_set.
  intros Ha Hb. apply set_all_fits; [exact Ha|]. intros k Hk. destruct (par_at_some _ _ _ Ha Hk) as [x ->], (par_at_some _ _ _ Hb Hk) as [y ->].
  eexists. reflexivity.
Qed.

(** Vertices of a simplex. *)
Definition shaped (ps : params) (vs : list (vertex Q)) : Prop := length vs = S (length ps) /\ Forall (fun v => fitting ps (v_params v)) vs.

Lemma shaped_nth ps vs k v : shaped ps vs -> nth_error vs k = Some v -> fitting ps (v_params v).
Proof. intros [_ H] E. rewrite Forall_forall in H. apply H. eapply nth_error_In; eauto. Qed.

Lemma shaped_nonempty ps vs : shaped ps vs -> vs <> [].
Proof. intros [H _] ->. discriminate. Qed.

Lemma sum_from_some ps vs w j : Forall (fun v => fitting ps (v_params v)) vs -> (j < length ps)%nat -> forall i acc, exists s, sum_from exact vs i w j acc = Some s.
Proof.
  intros H Hj. induction H as [|v vs Hv H IH]; intros i acc; cbn [sum_from]; [eexists; reflexivity|].
  destruct (Nat.eqb i w); [apply IH|]. destruct (par_at_some _ _ _ Hv Hj) as [x Ex]. unfold par_at in Ex. unfold value_at. rewrite Ex. cbn [obind]. apply IH.
Qed.

Lemma centre_some ps vs w j : shaped ps vs -> (j < length ps)%nat -> exists c, centre exact vs w j = Some c.
Proof. intros [_ H] Hj. unfold centre. destruct (sum_from_some ps vs w j H Hj 0 (zero exact)) as [s ->]. eexists. reflexivity. Qed.

Lemma reflection_fits dmax ps vs : shaped ps vs -> exists t1 t2, reflection exact dmax vs = Some (t1, t2) /\ fitting ps t1 /\ fitting ps t2.
Proof using P_set.
  intros H. unfold reflection. destruct (min_in_nth dmax vs (shaped_nonempty _ _ H)) as [vw Ew]. rewrite Ew.
  destruct vs as [|v0 vs0]; [destruct (shaped_nonempty _ _ H eq_refl)|]. cbn [nth_error obind].
  assert (H0 : fitting ps (v_params v0)) by (apply (shaped_nth _ _ 0 _ H); reflexivity). assert (Hw := shaped_nth _ _ _ _ H Ew).
  set (w := min_in exact dmax (v0 :: vs0)) in *. destruct (set_all_fits (centre exact (v0 :: vs0) w) ps (v_params v0) H0) as (t1 & -> & F1).
  { intros k Hk. now apply (centre_some ps). }
  cbn [obind].
  match goal with |- context [set_all exact (v_params v0) ?f] => destruct (set_all_fits f ps (v_params v0) H0) as (t2 & -> & F2) end.
  { intros k Hk. destruct (centre_some ps _ w k H Hk) as [c ->]. cbn [obind]. destruct (par_at_some _ _ _ Hw Hk) as [x Ex]. unfold par_at in Ex. unfold value_at. rewrite Ex.
    eexists. reflexivity. }
  cbn [option_map]. exists t1, t2. auto.
Qed.

Lemma expansion_fits dmax ps vs : shaped ps vs -> exists e, expansion exact dmax vs = Some e /\ fitting ps e.
Proof using P_set.
  intros H. unfold expansion. destruct (reflection_fits dmax ps vs H) as (t1 & t2 & -> & F1 & F2). cbn [obind fst snd].
  destruct vs as [|v0 vs0]; [destruct (shaped_nonempty _ _ H eq_refl)|]. cbn [nth_error obind]. apply set_all_fits; [apply (shaped_nth _ _ 0 _ H); reflexivity|].
  intros k Hk. destruct (par_at_some _ _ _ F2 Hk) as [b ->], (par_at_some _ _ _ F1 Hk) as [a ->]. eexists. reflexivity.
Qed.

Lemma outside_fits dmax ps vs : shaped ps vs -> exists e, outside exact dmax vs = Some e /\ fitting ps e.
Proof using P_set. intros H. unfold outside. destruct (reflection_fits dmax ps vs H) as (t1 & t2 & -> & F1 & F2). cbn [obind fst snd]. now apply merge_fits. Qed.

Lemma inside_fits dmax ps vs : shaped ps vs -> exists e, inside exact dmax vs = Some e /\ fitting ps e.
Proof using P_set.
  intros H. unfold inside. destruct (reflection_fits dmax ps vs H) as (t1 & t2 & -> & F1 & F2). destruct (min_in_nth dmax vs (shaped_nonempty _ _ H)) as [vw Ew]. rewrite Ew.
  cbn [obind fst]. apply merge_fits; [exact F1|]. eapply shaped_nth; eauto.
Qed.

Lemma contraction_fits dmin ps vs : shaped ps vs -> exists vs', contraction exact dmin vs = Some vs' /\ shaped ps vs' /\
  forall b, nth_error vs (max_in exact dmin vs) = Some b -> Forall2 (fun v v' => option_map (fresh exact) (merge exact (v_params b) (v_params v)) = Some v') vs vs'.
Proof using P_set.
  intros H. unfold contraction. destruct (max_in_nth dmin vs (shaped_nonempty _ _ H)) as [b Eb]. rewrite Eb. cbn [obind]. pose proof (shaped_nth _ _ _ _ H Eb) as Fb.
  assert (K : forall l, Forall (fun v => fitting ps (v_params v)) l -> exists l', omap (fun v => option_map (fresh exact) (merge exact (v_params b) (v_params v))) l = Some l' /\
    length l' = length l /\ Forall (fun v => fitting ps (v_params v)) l' /\ Forall2 (fun v v' => option_map (fresh exact) (merge exact (v_params b) (v_params v)) = Some v') l l').
  { induction 1 as [|v l Hv Hl IH]; cbn [omap]; [exists []; repeat split; constructor|]. destruct (merge_fits ps _ _ Fb Hv) as (c & Ec & Fc). rewrite Ec. cbn [option_map obind].
    destruct IH as (l' & -> & L & F & G). eexists. split; [reflexivity|]. split; [cbn; now rewrite L|]. split; [constructor; [exact Fc|exact F]|]. constructor; [now rewrite Ec|exact G]. }
  destruct H as [L H]. destruct (K vs H) as (vs' & -> & L' & F & G). exists vs'. split; [reflexivity|]. split; [split; [congruence|exact F]|].
  intros b' E'. assert (b' = b) as -> by congruence. exact G.
Qed.

Lemma alter_fits f ps q : fitting ps q -> (forall p, P p -> exists p', f p = Some p' /\ P p' /\ same_domain p p') -> forall i, (i < length ps)%nat ->
  exists q', alter q i f = Some q' /\ fitting ps q'.
Proof.
  intros H Hf. induction H as [|p p' ps q [D W] H IH]; intros i Hi; [cbn in Hi; lia|]. destruct i as [|i]; cbn [alter].
  - destruct (Hf p' W) as (p2 & -> & W2 & D2). eexists. split; [reflexivity|]. constructor; [|exact H]. split; [eapply same_domain_trans; eauto|exact W2].
  - destruct (IH i ltac:(cbn in Hi; lia)) as (q' & -> & F). eexists. split; [reflexivity|]. constructor; [split; assumption|exact F].
Qed.

Lemma init_fits mult sizes ps q : fitting ps q -> length sizes = length ps -> exists vs, init exact mult sizes q = Some (fresh exact q :: vs) /\ shaped ps (fresh exact q :: vs) /\
  Forall (fun v => v_fitness v = inject_Z (-1)) vs.
Proof using P_set.
  intros H L. unfold init. rewrite (fitting_length _ _ H).
  assert (K : forall l, (forall i, In i l -> (i < length ps)%nat) -> exists vs, omap (init_vertex exact mult sizes q) l = Some vs /\ length vs = length l /\
    Forall (fun v => fitting ps (v_params v)) vs /\ Forall (fun v => v_fitness v = inject_Z (-1)) vs).
  { induction l as [|i l IH]; intros Hl; cbn [omap]; [exists []; repeat split; constructor|]. unfold init_vertex at 1.
    assert (Hi := Hl i (or_introl eq_refl)). destruct (nth_error sizes i) as [s|] eqn:Es; [|apply nth_error_None in Es; lia]. cbn [obind].
    match goal with |- context [alter q i ?f] => destruct (alter_fits f ps q H) with (i := i) as (q' & -> & F) end; [|exact Hi|].
    { intros p W. destruct (P_set p (a_add exact (p_value exact p) (a_mul exact mult s)) W) as (p1 & -> & W1 & D1). cbn [obind].
      destruct (same exact (p_value exact p1) (p_value exact p)); [|exists p1; auto].
      destruct (P_set p1 (a_sub exact (p_value exact p) (a_mul exact mult s)) W1) as (p2 & -> & W2 & D2). exists p2. split; [reflexivity|]. split; [exact W2|]. eapply same_domain_trans; eauto. }
    cbn [option_map obind]. destruct IH as (vs & -> & L' & F1 & F2); [intros; apply Hl; now right|]. eexists. split; [reflexivity|]. split; [cbn; now rewrite L'|].
    split; constructor; auto. }
  destruct (K (seq 0 (length ps))) as (vs & -> & L' & F1 & F2); [intros i Hi; apply in_seq in Hi; lia|]. rewrite seq_length in L'. cbn [option_map]. exists vs.
  split; [reflexivity|]. split; [|exact F2]. split; [cbn; now rewrite L'|]. constructor; [exact H|exact F1].
Qed.

(** ** Searching *)

Context (dmin dmax : Q) (eval : params -> Q).

Definition known (vs : list (vertex Q)) : Prop := Forall (fun v => v_fitness v = eval (v_params v)) vs.

(** Reset or evaluated. *)
Definition tracked (vs : list (vertex Q)) : Prop := Forall (fun v => v_fitness v = inject_Z (-1) \/ v_fitness v = eval (v_params v)) vs.

Lemma eval_simplex_spec ps vs vs' log : eval_simplex exact eval vs = (vs', log) -> shaped ps vs -> tracked vs ->
  shaped ps vs' /\ known vs' /\ map v_params vs' = map v_params vs /\ Forall (fitting ps) log /\ (length log <= length vs)%nat /\
  incl log (map v_params vs) /\ forall v, In v vs -> (v_fitness v = eval (v_params v) \/ In (v_params v) log).
Proof.
  unfold eval_simplex. intros E [L H] T. assert (vs' = map (fun v => if unknown exact v then evaluated eval (v_params v) else v) vs /\ log = map v_params (filter (unknown exact) vs)) as [-> ->] by (split; congruence).
  assert (U : forall v, v_fitness v = inject_Z (-1) -> unknown exact v = true) by (intros v Ev; unfold unknown; rewrite Ev; reflexivity).
  split; [|split; [|split; [|split; [|split; [|split]]]]].
  - split; [now rewrite map_length|]. apply Forall_forall. intros v Hv. apply in_map_iff in Hv. destruct Hv as (u & <- & Hu). rewrite Forall_forall in H. specialize (H u Hu).
    destruct (unknown exact u); exact H.
  - apply Forall_forall. intros v Hv. apply in_map_iff in Hv. destruct Hv as (u & <- & Hu). unfold tracked in T. rewrite Forall_forall in T. destruct (T u Hu) as [Eu|Eu].
    + rewrite (U u Eu). reflexivity.
    + destruct (unknown exact u); [reflexivity|exact Eu].
  - rewrite map_map. apply map_ext. intros v. destruct (unknown exact v); reflexivity.
  - apply Forall_forall. intros q Hq. apply in_map_iff in Hq. destruct Hq as (u & <- & Hu). apply filter_In in Hu. rewrite Forall_forall in H. apply H, Hu.
  - rewrite map_length. clear. induction vs as [|v vs IH]; cbn [filter length]; [lia|]. destruct (unknown exact v); cbn [length]; lia.
  - intros q Hq. apply in_map_iff in Hq. destruct Hq as (u & <- & Hu). apply filter_In in Hu. now apply in_map.
  - intros v Hv. unfold tracked in T. rewrite Forall_forall in T. destruct (T v Hv) as [Ev|Ev]; [|now left]. right. apply in_map, filter_In. split; [exact Hv|now apply U].
Qed.

Lemma put_Forall (R : vertex Q -> Prop) vs i v : Forall R vs -> R v -> Forall R (put vs i v).
Proof.
  intros H Hv. unfold put. apply Forall_app. split; [|constructor; [exact Hv|]].
  - apply Forall_forall. intros x Hx. rewrite Forall_forall in H. apply H. rewrite <- (firstn_skipn i vs). apply in_or_app. now left.
  - apply Forall_forall. intros x Hx. rewrite Forall_forall in H. apply H. rewrite <- (firstn_skipn (S i) vs). apply in_or_app. now right.
Qed.

Lemma put_length (vs : list (vertex Q)) i v : (i < length vs)%nat -> length (put vs i v) = length vs.
Proof. intros H. unfold put. rewrite app_length. cbn [length]. rewrite firstn_length, skipn_length. lia. Qed.

Lemma put_shaped ps vs i v : shaped ps vs -> (i < length vs)%nat -> fitting ps (v_params v) -> shaped ps (put vs i v).
Proof. intros [L H] Hi Hv. split; [now rewrite put_length|]. now apply put_Forall. Qed.

(** What's known after evaluating [log]. *)
Definition step_ok (ps : params) (vs vs' : list (vertex Q)) (log : list params) : Prop :=
  shaped ps vs' /\ known vs' /\ Forall (fitting ps) log /\ incl (map v_params vs') (map v_params vs ++ log).

Lemma put_step ps vs i e log : shaped ps vs -> known vs -> (i < length vs)%nat -> Forall (fitting ps) log -> In e log -> step_ok ps vs (put vs i (evaluated eval e)) log.
Proof.
  intros S K Hi F He. assert (Fe : fitting ps e) by (rewrite Forall_forall in F; now apply F). split; [now apply put_shaped|]. split; [now apply put_Forall|]. split; [exact F|].
  intros q Hq. apply in_map_iff in Hq. destruct Hq as (v & <- & Hv). 
  assert (G : Forall (fun v => In (v_params v) (map v_params vs ++ log)) (put vs i (evaluated eval e))).
  { apply put_Forall; [apply Forall_forall; intros x Hx; apply in_or_app; left; now apply in_map|]. apply in_or_app. now right. }
  rewrite Forall_forall in G. now apply G.
Qed.

Lemma keep_step ps vs log : shaped ps vs -> known vs -> Forall (fitting ps) log -> step_ok ps vs vs log.
Proof. intros S K F. split; [exact S|]. split; [exact K|]. split; [exact F|]. apply incl_appl, incl_refl. Qed.

Lemma fresh_tracked vs : Forall (fun v => v_fitness v = inject_Z (-1)) vs -> tracked vs.
Proof. apply Forall_impl. intros v ->. now left. Qed.

Lemma fresh_step ps vs0 vs vs' log : shaped ps vs -> Forall (fun v => v_fitness v = inject_Z (-1)) vs -> eval_simplex exact eval vs = (vs', log) ->
  step_ok ps vs0 vs' log /\ (length log <= length vs)%nat /\ map v_params vs' = map v_params vs.
Proof.
  intros S R E. destruct (eval_simplex_spec ps vs vs' log E S (fresh_tracked _ R)) as (S' & K & M & F & L & I & A). split; [|split; assumption].
  split; [exact S'|]. split; [exact K|]. split; [exact F|]. intros q Hq. apply in_or_app. right. rewrite M in Hq. apply in_map_iff in Hq. destruct Hq as (v & <- & Hv).
  unfold eval_simplex in E. assert (log = map v_params (filter (unknown exact) vs)) as -> by congruence. apply in_map, filter_In. split; [exact Hv|]. rewrite Forall_forall in R.
  unfold unknown. rewrite (R v Hv). reflexivity.
Qed.

Lemma move_spec ps vs : shaped ps vs -> known vs -> exists vs' log, move exact dmin dmax eval vs = Some (vs', log) /\ step_ok ps vs vs' log /\
  (length log <= 2 + length vs)%nat.
Proof using P_set.
  intros S K. unfold move. destruct (reflection_fits dmax ps vs S) as (t1 & t2 & -> & F1 & F2). cbn [obind fst snd].
  destruct (min_in_nth dmax vs (shaped_nonempty _ _ S)) as [vw Ew]. destruct (max_in_nth dmin vs (shaped_nonempty _ _ S)) as [vb Eb]. rewrite Ew, Eb. cbn [obind].
  assert (Hw : (min_in exact dmax vs < length vs)%nat) by (apply nth_error_Some; congruence).
  set (w := min_in exact dmax vs) in *. set (c := compare_with exact vs _).
  destruct (Z.eqb c (-1)).
  - destruct (expansion_fits dmax ps vs S) as (e & -> & Fe). cbn [option_map]. eexists _, _. split; [reflexivity|]. split; [|cbn; lia].
    destruct (a_lt exact (v_fitness vb) (eval e)); apply put_step; auto; try (repeat constructor; assumption); cbn; auto.
  - destruct (Z.eqb c 1).
    + destruct (outside_fits dmax ps vs S) as (e & -> & Fe). cbn [obind]. destruct (a_le exact _ (eval e)).
      * eexists _, _. split; [reflexivity|]. split; [|cbn; lia]. apply put_step; auto; try (repeat constructor; assumption); cbn; auto.
      * destruct (contraction_fits dmin ps vs S) as (vs1 & -> & S1 & G). cbn [option_map]. destruct (eval_simplex exact eval vs1) as [vs2 log] eqn:E2.
        assert (R : Forall (fun v => v_fitness v = inject_Z (-1)) vs1).
        { specialize (G vb Eb). clear -G. induction G as [|v v' l l' H G IH]; constructor; [|exact IH]. destruct (merge _ _ _); cbn in H; [|discriminate H].
          assert (v' = fresh exact l0) as -> by congruence. reflexivity. }
        destruct (fresh_step ps vs vs1 vs2 log S1 R E2) as ((Sa & Sb & Sc & Sd) & L & _). eexists _, _. split; [reflexivity|]. split.
        -- split; [exact Sa|]. split; [exact Sb|]. split; [repeat constructor; assumption|]. intros q Hq. specialize (Sd q Hq). apply in_app_or in Sd. apply in_or_app. destruct Sd; [now left|]. right. now right; right.
        -- destruct S1 as [L1 _], S as [L0 _]. cbn [length]. lia.
    + destruct (Z.eqb c 0).
      * destruct (inside_fits dmax ps vs S) as (e & -> & Fe). cbn [option_map]. eexists _, _. split; [reflexivity|]. split; [|cbn; lia].
        destruct (a_le exact _ (eval e)); [apply put_step|apply keep_step]; auto; try (repeat constructor; assumption); cbn; auto.
      * eexists _, _. split; [reflexivity|]. split; [|cbn; lia].
        destruct (a_lt exact _ (eval t1)); [apply put_step|apply keep_step]; auto; try (repeat constructor; assumption); cbn; auto.
Qed.

Lemma restart_spec mult sizes ps vs : shaped ps vs -> length sizes = length ps -> exists vs' log, restart exact dmin eval mult sizes vs = Some (vs', log) /\ step_ok ps vs vs' log /\
  (length log <= length vs)%nat /\ forall b, nth_error vs (max_in exact dmin vs) = Some b -> In (evaluated eval (v_params b)) vs'.
Proof using P_set.
  intros S L. unfold restart. destruct (max_in_nth dmin vs (shaped_nonempty _ _ S)) as [b Eb]. rewrite Eb. cbn [obind].
  destruct (init_fits mult sizes ps (v_params b) (shaped_nth _ _ _ _ S Eb) L) as (vs1 & -> & S1 & R). cbn [option_map]. destruct (eval_simplex exact eval _) as [vs2 log] eqn:E.
  destruct (fresh_step ps vs _ vs2 log S1) with (2 := E) as (A & B & C); [constructor; [reflexivity|exact R]|]. exists vs2, log. split; [reflexivity|]. split; [exact A|]. split.
  - destruct S1 as [L1 _], S as [L0 _]. lia.
  - intros b' Eb'. assert (b' = b) as -> by congruence. unfold eval_simplex in E. assert (vs2 = map (fun v => if unknown exact v then evaluated eval (v_params v) else v) (fresh exact (v_params b) :: vs1)) as -> by congruence.
    left. reflexivity.
Qed.

Lemma all_o_some l : Forall (fun x => x <> None) l -> exists b, all_o l = Some b.
Proof. induction 1 as [|x l Hx H IH]; cbn [all_o]; [eexists; reflexivity|]. destruct x as [[|]|]; [exact IH|exists false; reflexivity|congruence]. Qed.

Lemma same_vertices_some ps a b : shaped ps a -> shaped ps b -> exists e, same_vertices exact a b = Some e.
Proof.
  intros Sa Sb. apply all_o_some. apply Forall_forall. intros x Hx. apply in_map_iff in Hx. destruct Hx as (i & <- & Hi). apply in_seq in Hi.
  destruct (nth_error a i) as [u|] eqn:Eu; [|apply nth_error_None in Eu; lia]. destruct (nth_error b i) as [v|] eqn:Ev; [|apply nth_error_None in Ev; destruct Sa, Sb; lia]. cbn [obind].
  pose proof (shaped_nth _ _ _ _ Sa Eu) as Fu. pose proof (shaped_nth _ _ _ _ Sb Ev) as Fv.
  destruct (all_o_some (map (fun j => obind (par_at exact (v_params u) j) (fun x => option_map (same exact x) (par_at exact (v_params v) j))) (seq 0 (length (v_params u))))) as [e E].
  - apply Forall_forall. intros y Hy. apply in_map_iff in Hy. destruct Hy as (j & <- & Hj). apply in_seq in Hj. rewrite (fitting_length _ _ Fu) in Hj.
    destruct (par_at_some _ _ j Fu ltac:(lia)) as [p ->], (par_at_some _ _ j Fv ltac:(lia)) as [q ->]. discriminate.
  - unfold same_params. rewrite E. discriminate.
Qed.

Lemma settle_spec s ps old vs : shaped ps old -> shaped ps vs -> known vs -> length (x_sizes s) = length ps -> exists vs' mult log stop,
  settle exact dmin eval s old vs = Some (vs', mult, log, stop) /\ step_ok ps vs vs' log /\ (length log <= length vs)%nat /\
  forall b, nth_error vs (max_in exact dmin vs) = Some b -> In b vs'.
Proof using P_set.
  intros So S K L. unfold settle.
  assert (Same : forall mult stop, exists vs' mult' log stop', Some (vs, mult : Q, @nil params, stop : bool) = Some (vs', mult', log, stop') /\ step_ok ps vs vs' log /\ (length log <= length vs)%nat /\
    forall b, nth_error vs (max_in exact dmin vs) = Some b -> In b vs').
  { intros mult stop. exists vs, mult, [], stop. split; [reflexivity|]. split; [apply keep_step; auto; constructor|]. split; [cbn; lia|]. intros b Eb. eapply nth_error_In; eauto. }
  assert (Best : forall vs' b, nth_error vs (max_in exact dmin vs) = Some b -> In (evaluated eval (v_params b)) vs' -> In b vs').
  { intros vs' b Eb Hb. unfold known in K. rewrite Forall_forall in K. pose proof (K b (nth_error_In _ _ Eb)) as Kb. unfold evaluated in Hb. rewrite <- Kb in Hb. destruct b. exact Hb. }
  destruct (a_lt exact (zero exact) (x_epsilon s)).
  - destruct (converged exact (x_epsilon s) vs); [|apply Same]. destruct (restart_spec (x_mult s) (x_sizes s) ps vs S L) as (vs' & log & -> & A & B & C). cbn [option_map fst snd].
    eexists _, _, _, _. split; [reflexivity|]. split; [exact A|]. split; [exact B|]. intros b Eb. apply Best; auto.
  - destruct (same_vertices_some ps old vs So S) as [[|] ->]; cbn [obind]; [|apply Same]. destruct (a_le exact _ (x_mult s)); [|apply Same].
    destruct (restart_spec (a_mul exact (x_mult s) (half exact)) (x_sizes s) ps vs S L) as (vs' & log & -> & A & B & C). cbn [option_map fst snd].
    eexists _, _, _, _. split; [reflexivity|]. split; [exact A|]. split; [exact B|]. intros b Eb. apply Best; auto.
Qed.
End Keep.
