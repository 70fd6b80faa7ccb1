(** Simplex search doesn't lose its best vertex. *)
From Coq Require Import ZArith QArith Qround List Bool Lia.
From Verif Require Import Base RegionOpsModel UpdateModel UpdateFacts ParamModel ParamSpec ParamFacts SimplexModel SimplexSpec SimplexFacts.
From Coq Require Import Lqa.
Import ListNotations.
Open Scope Q_scope.

(** ** Regular parameters stay on their grid *)

Definition on_grid (p : param (N := Q)) : Prop :=
  wf p /\ regular p /\ match p with PInterval i => exists k, iv_index i == inject_Z k * iv_gran i | PDiscrete _ => True end.

Lemma is_int_mul k g : is_int g -> is_int (inject_Z k * g).
Proof. intros [z Hz]. exists (k * z)%Z. rewrite inject_Z_mult. now rewrite Hz. Qed.

Lemma snap_grid i x : on_grid (PInterval i) -> exists y k, iv_snap exact i x = Some y /\ y == inject_Z k * iv_gran i.
Proof.
  intros (W & [[m Hm] Hg] & _). pose proof W as (H1 & H2 & _). unfold iv_snap. destruct (conv_some (iv_type i) x) as [x1 ->]. cbn [obind exact a_trunc a_div a_mul a_ofZ]. fold exact.
  set (st := qtrunc (x1 / iv_gran i)). destruct (conv_exact (iv_type i) (inject_Z st * iv_gran i)) as (x2 & -> & X2); [intros E; apply is_int_mul, Hg, E|]. cbn [obind].
  unfold iv_sanitize, iv_getMax. cbn [exact a_sub]. fold exact.
  assert (Z : exists k, sanitize exact (iv_max i - iv_min i) (iv_gran i) x2 == inject_Z k * iv_gran i).
  { unfold sanitize. cbn [exact a_ofZ a_sub]. fold exact. change (inject_Z 0) with 0.
    assert (Q1 : exists k, (if a_lt exact x2 0 then 0 else x2) == inject_Z k * iv_gran i) by (destruct (a_lt exact x2 0); [exists 0%Z; change (inject_Z 0) with 0; ring|now exists st]).
    destruct (a_le exact _ _); [|exact Q1]. exists (m - 1)%Z. rewrite Hm. unfold Z.sub. rewrite inject_Z_plus. change (inject_Z (- (1))) with (-1). ring. }
  destruct Z as [k Hk]. destruct (conv_exact (iv_type i) (sanitize exact (iv_max i - iv_min i) (iv_gran i) x2)) as (y & -> & Y).
  { intros E. destruct (is_int_mul k (iv_gran i) (Hg E)) as [z Hz]. exists z. now rewrite Hk. }
  exists y, k. split; [reflexivity|]. now rewrite Y.
Qed.

Lemma regular_domain p p' : same_domain p p' -> regular p -> regular p'.
Proof. destruct p as [i|s], p' as [i'|s']; cbn; try tauto. intros (-> & -> & -> & ->). auto. Qed.

Lemma op_grid p o : on_grid p -> exists p', p_op exact p o = Some p' /\ on_grid p' /\ same_domain p p'.
Proof.
  intros G. pose proof G as (W & R & _). destruct (op_wf p o W) as (p' & E & W' & D). exists p'. split; [exact E|]. split; [|exact D]. split; [exact W'|]. split; [eapply regular_domain; eauto|].
  destruct p as [i|s], p' as [i'|s']; try destruct D; auto. destruct o as [v|v]; cbn [p_op p_set p_add] in E; unfold iv_set, iv_add in E; rewrite (gran_pos i W) in E.
  - destruct (snap_grid i v G) as (y & k & Ey & Y). rewrite Ey in E. cbn [option_map] in E. assert (i' = iv_put exact i y) as -> by congruence. exists k. exact Y.
  - destruct (snap_grid i (a_add exact (iv_index i) v) G) as (y & k & Ey & Y). rewrite Ey in E. cbn [option_map] in E. assert (i' = iv_put exact i y) as -> by congruence. exists k. exact Y.
Qed.

Lemma set_grid p v : on_grid p -> exists p', p_set exact p v = Some p' /\ on_grid p' /\ same_domain p p'.
Proof. intros H. exact (op_grid p (OSet v) H). Qed.

Lemma set_wf p v : wf p -> exists p', p_set exact p v = Some p' /\ wf p' /\ same_domain p p'.
Proof. intros H. exact (op_wf p (OSet v) H). Qed.

Lemma made_grid p : made p -> regular p -> on_grid p.
Proof. intros M R. split; [now apply made_wf|]. split; [exact R|]. destruct M; auto. exists 0%Z. cbn. change (inject_Z 0) with 0. ring. Qed.

Lemma ops_grid os : forall p p', on_grid p -> p_ops exact p os = Some p' -> on_grid p'.
Proof.
  induction os as [|o os IH]; intros p p' G E; cbn [p_ops] in E; [congruence|]. destruct (op_grid p o G) as (p1 & E1 & G1 & _). rewrite E1 in E. cbn [obind] in E. eauto.
Qed.

Lemma ops_domain os : forall p p', wf p -> p_ops exact p os = Some p' -> same_domain p p' /\ wf p'.
Proof. intros p p' W E. destruct (ops_wf os p W) as (p1 & E1 & W1 & D1). assert (p1 = p') as -> by congruence. auto. Qed.

Lemma same_domain_sym p p' : same_domain p p' -> same_domain p' p.
Proof. destruct p, p'; cbn; try tauto; intros; intuition congruence. Qed.

Lemma prepared_wf p : prepared p -> wf p.
Proof. intros (p0 & os & M & E). apply (ops_domain os p0 p (made_wf _ M) E). Qed.

Lemma prepared_grid p : prepared p -> regular p -> on_grid p.
Proof.
  intros (p0 & os & M & E) R. apply (ops_grid os p0 p); [|exact E]. apply made_grid; [exact M|]. destruct (ops_domain os p0 p (made_wf _ M) E) as [D _].
  eapply regular_domain; [apply same_domain_sym; exact D|exact R].
Qed.

(** Assigning a parameter its own value changes nothing. *)
Lemma set_same p v : on_grid p -> v == p_value exact p -> exists p', p_set exact p v = Some p' /\ alike p p'.
Proof.
  intros (W & R & G) Hv. destruct p as [i|s].
  - cbn [p_value] in Hv. unfold iv_getValue in Hv. destruct R as [_ Hg], G as [k Hk]. pose proof W as (H1 & H2 & H3 & H4 & H5 & H6). cbn [p_set]. unfold iv_set. rewrite (gran_pos i W). unfold iv_snap.
    assert (Hint : iv_type i = TInt -> is_int v) by (intros E; destruct (H6 E) as [z Hz]; exists z; now rewrite Hv).
    destruct (conv_exact (iv_type i) v Hint) as (x1 & -> & X1). cbn [obind exact a_trunc a_div a_mul a_ofZ]. fold exact.
    assert (Hq : qtrunc (x1 / iv_gran i) = k).
    { apply qtrunc_Z. rewrite X1, Hv, Hk. field. intros Hz. rewrite Hz in H1. now apply Qlt_irrefl in H1. }
    rewrite Hq. destruct (conv_exact (iv_type i) (inject_Z k * iv_gran i)) as (x2 & -> & X2); [intros E; apply is_int_mul, Hg, E|]. cbn [obind].
    assert (X2' : x2 == iv_index i) by now rewrite X2, Hk.
    unfold iv_sanitize, iv_getMax. cbn [exact a_sub]. fold exact. rewrite sanitize_id by (rewrite X2'; exact H5).
    destruct (conv_exact (iv_type i) x2) as (x3 & -> & X3); [intros E; destruct (H6 E) as [z Hz]; exists z; now rewrite X2'|]. cbn [option_map]. eexists. split; [reflexivity|].
    split; [repeat split|]. split.
    + change (iv_index i == x3). now rewrite X3, X2'.
    + change (iv_current i == iv_min i + x3). now rewrite H4, X3, X2'.
  - destruct W as [W1 W2]. cbn [p_set]. unfold ds_set, ds_put. cbn [exact a_ofZ a_trunc obind]. fold exact.
    rewrite sanitize_id. 2:{ change 0 with (inject_Z 0). rewrite <- Zle_Qle, <- Zlt_Qlt. exact W1. }
    rewrite qtrunc_int. destruct (Z.ltb_spec (ds_index s) 0); [lia|]. rewrite W2. cbn [option_map]. eexists. split; [reflexivity|]. repeat split; reflexivity.
Qed.

Lemma set_from_same f q : Forall on_grid q -> forall j, (forall k p, nth_error q k = Some p -> exists v, f (j + k)%nat = Some v /\ v == p_value exact p) ->
  exists q', set_from exact q j f = Some q' /\ Forall2 alike q q'.
Proof.
  induction 1 as [|p q G H IH]; intros j Hf; cbn [set_from]; [exists []; split; [reflexivity|constructor]|].
  destruct (Hf 0%nat p eq_refl) as (v & Ev & Hv). rewrite Nat.add_0_r in Ev. rewrite Ev. cbn [obind]. destruct (set_same p v G Hv) as (p' & -> & A). cbn [obind].
  destruct (IH (S j)) as (q' & -> & F).
  - intros k x Hk. destruct (Hf (S k) x Hk) as (u & Eu & Hu). exists u. split; [|exact Hu]. rewrite <- Eu. f_equal. lia.
  - eexists. split; [reflexivity|]. now constructor.
Qed.

Lemma merge_same ps q : fitting on_grid ps q -> exists c, merge exact q q = Some c /\ Forall2 alike q c.
Proof.
  intros H. apply set_from_same.
  - clear -H. induction H as [|? ? ? ? [_ G] _ IH]; constructor; assumption.
  - intros k p Hk. cbn [Nat.add]. unfold par_at. rewrite Hk. cbn [option_map obind]. eexists. split; [reflexivity|]. unfold half. cbn [exact a_mul a_add a_div a_ofZ].
    change (inject_Z 1) with 1. change (inject_Z 2) with 2. field.
Qed.

(** ** Choosing vertices *)

Section Best.
Context (dmin dmax : Q) (eval : params -> Q) (Hp : proper dmin dmax eval).

Lemma known_bounds vs v : known eval vs -> In v vs -> (v_fitness v == 0 \/ dmin <= v_fitness v) /\ v_fitness v <= dmax.
Proof using Hp. intros K Hv. unfold known in K. rewrite Forall_forall in K. rewrite (K v Hv). apply Hp. Qed.

Lemma max_from_best all : (forall v, In v all -> v_fitness v == 0 \/ dmin <= v_fitness v) -> forall post pre mx k b, all = pre ++ post ->
  (k = 0%nat /\ mx = dmin /\ (forall v, In v pre -> v_fitness v == 0) \/
   dmin <= mx /\ exists u, nth_error all k = Some u /\ v_fitness u = mx /\ forall v, In v pre -> v_fitness v <= mx) ->
  nth_error all (max_from exact post (length pre) mx k) = Some b -> forall v, In v all -> v_fitness v <= v_fitness b.
Proof using Hp.
  intros Hall. induction post as [|w post IH]; intros pre mx k b E Hinv Hb v Hv; cbn [max_from] in Hb.
  - rewrite app_nil_r in E. subst pre. destruct Hinv as [(-> & _ & Z)|(_ & u & Eu & <- & M)].
    + rewrite (Z v Hv), (Z b (nth_error_In _ _ Hb)). apply Qle_refl.
    + assert (b = u) as -> by congruence. now apply M.
  - assert (Hw : In w all) by (rewrite E; apply in_elt). assert (Ew : nth_error all (length pre) = Some w) by (rewrite E, nth_error_app2, Nat.sub_diag by lia; reflexivity).
    assert (E' : all = (pre ++ [w]) ++ post) by (rewrite <- app_assoc; exact E). assert (L' : S (length pre) = length (pre ++ [w])) by (rewrite app_length; cbn; lia).
    rewrite L' in Hb. destruct (qle_cases mx (v_fitness w)) as [[C K]|[C K]]; rewrite C in Hb.
    + refine (IH (pre ++ [w]) _ _ b E' _ Hb v Hv). right. destruct Hp as (Hd & _). split.
      * destruct Hinv as [(_ & -> & _)|(K2 & _)]; lra.
      * exists w. split; [exact Ew|]. split; [reflexivity|]. intros x Hx. apply in_app_or in Hx. destruct Hx as [Hx|[<-|[]]]; [|apply Qle_refl].
        destruct Hinv as [(_ & -> & Z)|(K2 & u & _ & _ & M)]; [rewrite (Z x Hx); lra|]. eapply Qle_trans; [now apply M|exact K].
    + refine (IH (pre ++ [w]) _ _ b E' _ Hb v Hv). destruct Hinv as [(-> & -> & Z)|(K2 & u & Eu & Fu & M)].
      * left. split; [reflexivity|]. split; [reflexivity|]. intros x Hx. apply in_app_or in Hx. destruct Hx as [Hx|[<-|[]]]; [now apply Z|]. destruct (Hall w Hw); [assumption|lra].
      * right. split; [exact K2|]. exists u. split; [exact Eu|]. split; [exact Fu|]. intros x Hx. apply in_app_or in Hx. destruct Hx as [Hx|[<-|[]]]; [now apply M|]. now apply Qlt_le_weak.
Qed.

Lemma max_in_best vs b : known eval vs -> nth_error vs (max_in exact dmin vs) = Some b -> forall v, In v vs -> v_fitness v <= v_fitness b.
Proof using Hp.
  intros K Hb v Hv. apply (max_from_best vs) with (post := vs) (pre := []) (mx := dmin) (k := 0%nat); auto.
  - intros x Hx. apply (known_bounds vs x K Hx).
  - left. split; [reflexivity|]. split; [reflexivity|]. intros x [].
Qed.

Lemma min_from_worst all : forall post pre mn k b, all = pre ++ post ->
  (exists u, nth_error all k = Some u /\ v_fitness u = mn /\ forall v, In v pre -> mn <= v_fitness v) ->
  nth_error all (min_from exact post (length pre) mn k) = Some b -> forall v, In v all -> v_fitness b <= v_fitness v.
Proof.
  induction post as [|w post IH]; intros pre mn k b E Hinv Hb v Hv; cbn [min_from] in Hb.
  - rewrite app_nil_r in E. subst pre. destruct Hinv as (u & Eu & <- & M). assert (b = u) as -> by congruence. now apply M.
  - assert (Ew : nth_error all (length pre) = Some w) by (rewrite E, nth_error_app2, Nat.sub_diag by lia; reflexivity).
    assert (E' : all = (pre ++ [w]) ++ post) by (rewrite <- app_assoc; exact E). assert (L' : S (length pre) = length (pre ++ [w])) by (rewrite app_length; cbn; lia).
    rewrite L' in Hb. destruct Hinv as (u & Eu & Fu & M). destruct (qle_cases (v_fitness w) mn) as [[C K]|[C K]]; rewrite C in Hb; refine (IH (pre ++ [w]) _ _ b E' _ Hb v Hv).
    + exists w. split; [exact Ew|]. split; [reflexivity|]. intros x Hx. apply in_app_or in Hx. destruct Hx as [Hx|[<-|[]]]; [|apply Qle_refl]. eapply Qle_trans; [exact K|now apply M].
    + exists u. split; [exact Eu|]. split; [exact Fu|]. intros x Hx. apply in_app_or in Hx. destruct Hx as [Hx|[<-|[]]]; [now apply M|now apply Qlt_le_weak].
Qed.

Lemma min_in_worst vs b : known eval vs -> nth_error vs (min_in exact dmax vs) = Some b -> forall v, In v vs -> v_fitness b <= v_fitness v.
Proof using Hp.
  intros K Hb v Hv. destruct vs as [|w vs]; [destruct Hv|]. unfold min_in in Hb. cbn [min_from] in Hb.
  destruct (known_bounds _ w K (or_introl eq_refl)) as [_ Kw]. destruct (qle_cases (v_fitness w) dmax) as [[C _]|[C L]]; [|lra]. rewrite C in Hb.
  apply (min_from_worst (w :: vs) vs [w] (v_fitness w) 0%nat b); auto. exists w. split; [reflexivity|]. split; [reflexivity|]. intros x [<-|[]]. apply Qle_refl.
Qed.

(** ** Comparing *)

Definition compare_step (f : Q) (r : Z) (v : vertex Q) : Z :=
  let r1 := if same exact (v_fitness v) f && (r =? -1)%Z then (r + 1)%Z else r in
  if a_lt exact f (v_fitness v) then (r1 + 1)%Z else r1.

Lemma compare_step_bounds f r v : (r <= compare_step f r v <= r + 1)%Z /\ (compare_step f (-1) v = (-1)%Z -> v_fitness v < f).
Proof.
  unfold compare_step, same. cbv zeta. destruct (qlt_cases f (v_fitness v)) as [[-> A]|[-> A]].
  - destruct (qle_cases (v_fitness v) f) as [[-> B]|[-> B]]; [lra|]. cbn [andb]. split; [lia|]. intros; lia.
  - destruct (qle_cases (v_fitness v) f) as [[-> B]|[-> B]]; [|lra]. cbn [andb]. destruct (qle_cases f (v_fitness v)) as [[-> C]|[-> C]]; cbn [andb].
    + split; [destruct (r =? -1)%Z; lia|]. cbn. intros; lia.
    + split; [lia|]. intros _. exact C.
Qed.

Lemma compare_bounds f vs : forall r, (r <= fold_left (compare_step f) vs r <= r + Z.of_nat (length vs))%Z.
Proof.
  induction vs as [|v vs IH]; intros r; cbn [fold_left length]; [lia|]. specialize (IH (compare_step f r v)). destruct (compare_step_bounds f r v) as [B _]. lia.
Qed.

Lemma compare_better vs f : compare_with exact vs f = (-1)%Z -> forall v, In v vs -> v_fitness v < f.
Proof.
  change (compare_with exact vs f) with (fold_left (compare_step f) vs (-1)%Z). induction vs as [|w vs IH]; intros E v Hv; [destruct Hv|]; cbn [fold_left] in E; destruct Hv as [<-|Hv].
  - destruct (compare_step_bounds f (-1) w) as [B1 B2]. apply B2. pose proof (compare_bounds f vs (compare_step f (-1) w)). lia.
  - destruct (compare_step_bounds f (-1) w) as [B1 B2]. pose proof (compare_bounds f vs (compare_step f (-1) w)). assert (E0 : compare_step f (-1) w = (-1)%Z) by lia.
    rewrite E0 in E. now apply IH.
Qed.

Lemma compare_many vs f : compare_with exact vs f = 1%Z -> (2 <= length vs)%nat.
Proof. change (compare_with exact vs f) with (fold_left (compare_step f) vs (-1)%Z). intros E. pose proof (compare_bounds f vs (-1)). lia. Qed.

(** ** One step *)

Lemma put_new (vs : list (vertex Q)) i v : In v (put vs i v).
Proof. unfold put. apply in_elt. Qed.

Lemma put_other (vs : list (vertex Q)) : forall i k v u, nth_error vs k = Some u -> k <> i -> In u (put vs i v).
Proof.
  induction vs as [|w vs IH]; intros i k v u E N; [destruct k; discriminate|]. unfold put. destruct i as [|i], k as [|k]; cbn in *; try congruence.
  - right. eapply nth_error_In; eauto.
  - left. congruence.
  - right. apply (IH i k v u E). lia.
Qed.

Lemma move_best ps vs vs' log b : shaped on_grid ps vs -> known eval vs -> move exact dmin dmax eval vs = Some (vs', log) -> nth_error vs (max_in exact dmin vs) = Some b ->
  exists v, In v vs' /\ v_fitness b <= v_fitness v.
Proof using Hp.
  intros S K E Eb. pose proof (max_in_best vs b K Eb) as Mb. unfold move in E. destruct (reflection_fits on_grid set_grid dmax ps vs S) as (t1 & t2 & Er & F1 & F2). rewrite Er in E. cbn [obind fst snd] in E.
  destruct (min_in_nth dmax vs (shaped_nonempty _ _ _ S)) as [vw Ew]. rewrite Ew, Eb in E. cbn [obind] in E. pose proof (min_in_worst vs vw K Ew) as Mw.
  set (w := min_in exact dmax vs) in *. set (m := max_in exact dmin vs) in *. cbv zeta in E.
  (* replacing the worst one by one which isn't worse, or which isn't the best one *)
  assert (Rep : forall e, v_fitness vw <= eval e -> exists v, In v (put vs w (evaluated eval e)) /\ v_fitness b <= v_fitness v).
  { intros e He. destruct (Nat.eq_dec w m) as [->|N].
    - assert (vw = b) as -> by congruence. exists (evaluated eval e). split; [apply put_new|exact He].
    - exists b. split; [apply (put_other vs w m); auto|apply Qle_refl]. }
  assert (Same : exists v, In v vs /\ v_fitness b <= v_fitness v) by (exists b; split; [eapply nth_error_In; eauto|apply Qle_refl]).
  change (v_fitness (evaluated eval t2)) with (eval t2) in E. set (c := compare_with exact vs (eval t2)) in *.
  destruct (Z.eqb_spec c (-1)) as [Ec|_].
  - destruct (expansion exact dmax vs) as [e|]; [|discriminate E]. cbn [option_map] in E.
    assert (vs' = put vs w (if a_lt exact (v_fitness b) (eval e) then evaluated eval e else evaluated eval t2)) as -> by congruence.
    eexists. split; [apply put_new|]. destruct (qlt_cases (v_fitness b) (eval e)) as [[-> L]|[-> L]]; [apply Qlt_le_weak; exact L|].
    apply Qlt_le_weak. exact (compare_better vs (eval t2) Ec b (nth_error_In _ _ Eb)).
  - destruct (Z.eqb_spec c 1) as [Ec|_].
    + pose proof (compare_many vs (eval t2) Ec) as L2. destruct (outside exact dmax vs) as [e|]; [|discriminate E]. cbn [obind] in E. destruct (a_le exact (eval t2) (eval e)).
      * assert (vs' = put vs w (evaluated eval e)) as -> by congruence. destruct (Nat.eq_dec w m) as [Ewm|N].
        -- assert (vw = b) as -> by congruence. set (k := if (w =? 0)%nat then 1%nat else 0%nat).
           assert (Hk : (k < length vs)%nat /\ k <> w) by (unfold k; destruct (Nat.eqb_spec w 0); lia). destruct (nth_error vs k) as [u|] eqn:Eu; [|apply nth_error_None in Eu; lia].
           exists u. split; [apply (put_other vs w k); [exact Eu|apply Hk]|]. apply Mw. eapply nth_error_In; eauto.
        -- exists b. split; [apply (put_other vs w m); auto|apply Qle_refl].
      * destruct (contraction_fits on_grid set_grid dmin ps vs S) as (vs1 & E1 & S1 & G). rewrite E1 in E. cbn [option_map] in E. destruct (eval_simplex exact eval vs1) as [vs2 log'] eqn:E2.
        assert (vs' = vs2) as -> by congruence. specialize (G b Eb). unfold eval_simplex in E2. assert (vs2 = map (fun v => if unknown exact v then evaluated eval (v_params v) else v) vs1) as -> by congruence.
        destruct (merge_same ps (v_params b) (shaped_nth _ _ _ _ _ S Eb)) as (q & Eq & Aq).
        assert (I1 : In (fresh exact q) vs1).
        { clear -G Eb Eq. clearbody m. revert m Eb. induction G as [|v v' l l' H G IH]; intros m Eb; [destruct m; discriminate|]. destruct m as [|m]; cbn in Eb.
          - assert (v = b) as -> by congruence. rewrite Eq in H. cbn in H. left. congruence.
          - right. now apply (IH m). }
        exists (evaluated eval q). split.
        -- apply in_map_iff. exists (fresh exact q). split; [|exact I1]. reflexivity.
        -- cbn [evaluated v_fitness]. pose proof K as K'. unfold known in K'. rewrite Forall_forall in K'. rewrite (K' b (nth_error_In _ _ Eb)).
           destruct Hp as (_ & Hext & _). rewrite (Hext _ _ Aq). apply Qle_refl.
    + destruct (Z.eqb_spec c 0) as [Ec|_].
      * destruct (inside exact dmax vs) as [e|]; [|discriminate E]. cbn [option_map] in E. destruct (qle_cases (v_fitness vw) (eval e)) as [[Cle L]|[Cle L]]; rewrite Cle in E.
        -- assert (vs' = put vs w (evaluated eval e)) as -> by congruence. now apply Rep.
        -- assert (vs' = vs) as -> by congruence. exact Same.
      * destruct (qlt_cases (v_fitness vw) (eval t1)) as [[Clt L]|[Clt L]]; rewrite Clt in E.
        -- assert (vs' = put vs w (evaluated eval t1)) as -> by congruence. apply Rep. now apply Qlt_le_weak.
        -- assert (vs' = vs) as -> by congruence. exact Same.
Qed.
End Best.
