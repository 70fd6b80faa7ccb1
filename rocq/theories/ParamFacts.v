(** Facts on parameters, computed exactly. *)
From Coq Require Import ZArith QArith Qround List Lia.
From Verif Require Import Base RegionOpsModel ParamModel ParamSpec.
From Coq Require Import Lqa.
Import ListNotations.
Open Scope Q_scope.

Lemma qlt_spec a b : a_lt exact a b = true <-> a < b.
Proof. cbn. rewrite Bool.negb_true_iff, <- Bool.not_true_iff_false, Qle_bool_iff. split; intros H; [now apply Qnot_le_lt|now apply Qlt_not_le]. Qed.

Lemma qle_spec a b : a_le exact a b = true <-> a <= b.
Proof. cbn. apply Qle_bool_iff. Qed.

Lemma qlt_cases a b : (a_lt exact a b = true /\ a < b) \/ (a_lt exact a b = false /\ b <= a).
Proof. destruct (a_lt exact a b) eqn:E; [left|right]; (split; [reflexivity|]); [now apply qlt_spec|]. apply Qnot_lt_le. intros H. apply qlt_spec in H. congruence. Qed.

Lemma qle_cases a b : (a_le exact a b = true /\ a <= b) \/ (a_le exact a b = false /\ b < a).
Proof. destruct (a_le exact a b) eqn:E; [left|right]; (split; [reflexivity|]); [now apply qle_spec|]. apply Qnot_le_lt. intros H. apply qle_spec in H. congruence. Qed.

Lemma qtrunc_nonneg q : 0 <= q -> qtrunc q = Qfloor q.
Proof. intros H. unfold qtrunc. apply Qle_bool_iff in H. now rewrite H. Qed.

Lemma qtrunc_bounds q : 0 <= q -> 0 <= inject_Z (qtrunc q) <= q.
Proof.
  intros H. rewrite (qtrunc_nonneg q H). split; [|apply Qfloor_le]. change 0 with (inject_Z 0). rewrite <- Zle_Qle.
  change 0%Z with (Qfloor 0). now apply Qfloor_resp_le.
Qed.

Lemma qtrunc_Z q z : q == inject_Z z -> qtrunc q = z.
Proof.
  intros E. unfold qtrunc. destruct (Qle_bool 0 q).
  - rewrite (Qfloor_comp _ _ E). apply Qfloor_Z.
  - assert (E' : - q == inject_Z (- z)) by (rewrite E; now rewrite inject_Z_opp). rewrite (Qfloor_comp _ _ E'), Qfloor_Z. apply Z.opp_involutive.
Qed.

Lemma conv_bounds ty x : 0 <= x -> exists y, conv exact ty x = Some y /\ 0 <= y <= x /\ (ty = TInt -> is_int y).
Proof.
  intros H. destruct ty; cbn [conv exact a_ofZ a_trunc option_map].
  - eexists. split; [reflexivity|]. split; [now apply qtrunc_bounds|]. intros _. eexists. reflexivity.
  - exists x. split; [reflexivity|]. split; [split; [exact H|apply Qle_refl]|discriminate].
Qed.

Lemma conv_some ty x : exists y, conv exact ty x = Some y.
Proof. destruct ty; cbn; eexists; reflexivity. Qed.

Lemma conv_exact ty x : (ty = TInt -> is_int x) -> exists y, conv exact ty x = Some y /\ y == x.
Proof.
  intros H. destruct ty; cbn [conv exact a_ofZ a_trunc option_map].
  - destruct (H eq_refl) as [z Ez]. eexists. split; [reflexivity|]. rewrite (qtrunc_Z x z Ez). now symmetry.
  - exists x. split; [reflexivity|reflexivity].
Qed.

Lemma sanitize_bounds mx gran x : 0 < gran -> gran <= mx -> 0 <= sanitize exact mx gran x < mx.
Proof.
  intros H1 H2. unfold sanitize. cbn [a_ofZ exact]. change (inject_Z 0) with 0.
  destruct (qlt_cases x 0) as [[-> H]|[-> H]]; destruct (qle_cases mx (if a_lt exact x 0 then 0 else x)) as [[E K]|[E K]].
  all: try (destruct (qle_cases mx 0) as [[-> K']|[-> K']]); try (destruct (qle_cases mx x) as [[-> K']|[-> K']]); cbn [exact a_sub]; try lra.
Qed.

Lemma sanitize_id mx gran x : 0 <= x < mx -> sanitize exact mx gran x = x.
Proof.
  intros [H1 H2]. unfold sanitize. cbn [a_ofZ exact]. change (inject_Z 0) with 0. destruct (qlt_cases x 0) as [[-> H]|[-> H]]; [lra|].
  destruct (qle_cases mx x) as [[-> K']|[-> K']]; [lra|reflexivity].
Qed.

(** What stays true of the parameters. *)
Definition wf (p : param (N := Q)) : Prop :=
  match p with
  | PInterval i => 0 < iv_gran i /\ iv_gran i <= iv_max i - iv_min i /\ (iv_type i = TInt -> is_int (iv_min i) /\ is_int (iv_max i)) /\
      iv_current i == iv_min i + iv_index i /\ 0 <= iv_index i < iv_max i - iv_min i /\ (iv_type i = TInt -> is_int (iv_index i))
  | PDiscrete s => (0 <= ds_index s < Z.of_nat (length (ds_elements s)))%Z /\ nth_error (ds_elements s) (Z.to_nat (ds_index s)) = Some (ds_current s)
  end.

Lemma is_int_add a b : is_int a -> is_int b -> is_int (a + b).
Proof. intros [x Hx] [y Hy]. exists (x + y)%Z. rewrite inject_Z_plus. now rewrite Hx, Hy. Qed.

Lemma wf_domain p : wf p -> in_domain p.
Proof.
  destruct p as [i|s]; cbn [wf in_domain p_value p_max p_current].
  - intros (H1 & H2 & H3 & H4 & H5 & H6). unfold iv_getValue, iv_getMax. cbn [exact a_sub]. split; [exact H5|].
    change (iv_min i <= iv_current i < iv_max i /\ iv_current i == iv_min i + iv_index i /\ (iv_type i = TInt -> is_int (iv_current i))). split; [lra|]. split; [exact H4|].
    intros E. destruct (is_int_add (iv_min i) (iv_index i)) as [z Hz]; [now apply H3|now apply H6|]. exists z. now rewrite H4.
  - intros [H1 H2]. unfold ds_getValue. cbn [exact a_ofZ]. split.
    + change (inject_Z 0 <= inject_Z (ds_index s) < inject_Z (Z.of_nat (length (ds_elements s)))). rewrite <- Zle_Qle, <- Zlt_Qlt. exact H1.
    + exists (Z.to_nat (ds_index s)). rewrite Z2Nat.id by lia. split; [reflexivity|]. exact H2.
Qed.

Lemma iv_sanitized i x : wf (PInterval i) -> exists y, iv_sanitize exact i x = Some y /\ 0 <= y < iv_max i - iv_min i /\ (iv_type i = TInt -> is_int y).
Proof.
  intros (H1 & H2 & _). unfold iv_sanitize, iv_getMax. cbn [exact a_sub]. pose proof (sanitize_bounds (iv_max i - iv_min i) (iv_gran i) x H1 H2) as Hb.
  destruct (conv_bounds (iv_type i) (sanitize exact (iv_max i - iv_min i) (iv_gran i) x)) as (y & E & K1 & K2); [lra|]. exists y. split; [exact E|]. split; [lra|exact K2].
Qed.

Lemma iv_snapped i x : wf (PInterval i) -> exists y, iv_snap exact i x = Some y /\ 0 <= y < iv_max i - iv_min i /\ (iv_type i = TInt -> is_int y).
Proof.
  intros Hw. unfold iv_snap. destruct (conv_some (iv_type i) x) as [x1 ->]. cbn [obind exact a_trunc]. 
  destruct (conv_some (iv_type i) (a_mul exact (a_ofZ exact (qtrunc (a_div exact x1 (iv_gran i)))) (iv_gran i))) as [x2 E2]. cbn [exact a_mul a_div a_ofZ] in *. rewrite E2. cbn [obind].
  now apply iv_sanitized.
Qed.

Lemma put_wf i y : wf (PInterval i) -> 0 <= y < iv_max i - iv_min i -> (iv_type i = TInt -> is_int y) -> wf (PInterval (iv_put exact i y)).
Proof. intros (H1 & H2 & H3 & H4 & H5 & H6) K1 K2. cbn. repeat split; auto; try apply K1; try (now apply H3); try reflexivity. Qed.

Lemma gran_pos i : wf (PInterval i) -> a_lt exact (a_ofZ exact 0) (iv_gran i) = true.
Proof. intros (H1 & _). apply qlt_spec. exact H1. Qed.

Lemma qtrunc_int z : qtrunc (inject_Z z) = z.
Proof. now apply qtrunc_Z. Qed.

Lemma ds_put_wf s x : wf (PDiscrete s) -> exists s', ds_put exact s x = Some s' /\ wf (PDiscrete s') /\ ds_elements s' = ds_elements s.
Proof.
  intros [H1 H2]. unfold ds_put. cbn [exact a_ofZ a_trunc obind].
  assert (Hp : (1 <= Z.of_nat (length (ds_elements s)))%Z) by lia.
  assert (Hm : inject_Z 1 <= inject_Z (Z.of_nat (length (ds_elements s)))) by (rewrite <- Zle_Qle; exact Hp).
  pose proof (sanitize_bounds (inject_Z (Z.of_nat (length (ds_elements s)))) (inject_Z 1) x ltac:(reflexivity) Hm) as Hb.
  fold exact. set (y := sanitize exact (inject_Z (Z.of_nat (length (ds_elements s)))) (inject_Z 1) x) in *.
  destruct (qtrunc_bounds y) as [B1 B2]; [apply Hb|]. change 0 with (inject_Z 0) in B1. rewrite <- Zle_Qle in B1.
  assert (B3 : (qtrunc y < Z.of_nat (length (ds_elements s)))%Z) by (rewrite Zlt_Qlt; lra).
  destruct (Z.ltb_spec (qtrunc y) 0); [lia|]. destruct (nth_error (ds_elements s) (Z.to_nat (qtrunc y))) as [e|] eqn:E; [|apply nth_error_None in E; lia].
  cbn [option_map]. eexists. split; [reflexivity|]. split; [|reflexivity]. cbn. split; [lia|exact E].
Qed.

Lemma op_wf p o : wf p -> exists p', p_op exact p o = Some p' /\ wf p' /\ same_domain p p'.
Proof.
  intros Hw. destruct p as [i|s], o as [v|v]; cbn [p_op p_set p_add].
  - unfold iv_set. rewrite (gran_pos i Hw). destruct (iv_snapped i v Hw) as (y & -> & K1 & K2). cbn [option_map]. eexists. split; [reflexivity|].
    split; [now apply put_wf|repeat split].
  - unfold iv_add. rewrite (gran_pos i Hw). destruct (iv_snapped i (a_add exact (iv_index i) v) Hw) as (y & -> & K1 & K2). cbn [option_map]. eexists. split; [reflexivity|].
    split; [now apply put_wf|repeat split].
  - unfold ds_set. destruct (ds_put_wf s (a_ofZ exact (ds_index s)) Hw) as (s' & -> & K1 & K2). eexists. split; [reflexivity|]. split; [exact K1|exact K2].
  - unfold ds_add. cbn [exact a_trunc obind]. fold exact. match goal with |- context [ds_put exact s ?x] => destruct (ds_put_wf s x Hw) as (s' & -> & K1 & K2) end.
    eexists. split; [reflexivity|]. split; [exact K1|exact K2].
Qed.

Lemma same_domain_trans p q r : same_domain p q -> same_domain q r -> same_domain p r.
Proof. destruct p, q, r; cbn; try tauto; intros; intuition congruence. Qed.

Lemma ops_wf os : forall p, wf p -> exists p', p_ops exact p os = Some p' /\ wf p' /\ same_domain p p'.
Proof.
  induction os as [|o os IH]; intros p Hw.
  - exists p. split; [reflexivity|]. split; [exact Hw|]. destruct p; cbn; auto.
  - destruct (op_wf p o Hw) as (p1 & E1 & W1 & D1). destruct (IH p1 W1) as (p2 & E2 & W2 & D2). exists p2. cbn [p_ops]. rewrite E1. cbn [obind].
    split; [exact E2|]. split; [exact W2|]. eapply same_domain_trans; eauto.
Qed.

Lemma made_wf p : made p -> wf p.
Proof.
  intros [ty mn mx gran H1 H2 H3|es s E].
  - cbn. change (inject_Z 0) with 0. repeat split; auto; try (now apply H3); try lra; try (exists 0%Z; reflexivity).
  - destruct es as [|e es]; [discriminate|]. cbn in E. assert (s = mkDiscrete (e :: es) 0 e) as -> by congruence. cbn. split; [lia|reflexivity].
Qed.
