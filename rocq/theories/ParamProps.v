(** Optimizable parameters: C46 and what doesn't hold, C85 to C88. *)
From Coq Require Import ZArith QArith Qround List Lia.
From Coq.Floats Require Import SpecFloat.
From Verif Require Import Base RegionOpsModel ParamModel ParamSpec ParamFacts.
From Coq Require Import Lqa.
Import ListNotations.
Open Scope Q_scope.

(** ** C46 *)

(** Whatever an optimizer does, each value lies in the declared domain. *)
Theorem C46_domain : forall p os, made p -> exists p', p_ops exact p os = Some p' /\ same_domain p p' /\ in_domain p'.
Proof.
  intros p os Hm. destruct (ops_wf os p (made_wf p Hm)) as (p' & E & W & D). exists p'. split; [exact E|]. split; [exact D|]. now apply wf_domain.
Qed.
Print Assumptions C46_domain.

(** Multiples of the granularity are assigned as they are. *)
Theorem C46_grid_points : forall p os ty mn mx gran p' v k, made p -> p = PInterval (iv_make exact ty mn mx gran) -> p_ops exact p os = Some p' ->
  v == inject_Z k * gran -> 0 <= v < mx - mn -> (ty = TInt -> is_int v) ->
  exists p2, p_set exact p' v = Some p2 /\ p_value exact p2 == v /\ p_current p2 == mn + v.
Proof.
  intros p os ty mn mx gran p' v k Hm Ep E Hv Hb Hint. destruct (ops_wf os p (made_wf p Hm)) as (p1 & E1 & W & D). assert (p1 = p') as -> by congruence. subst p.
  destruct p' as [i|s]; [|destruct D]. cbn in D. destruct D as (D1 & D2 & D3 & D4). pose proof W as (H1 & H2 & _). cbn [p_set]. unfold iv_set. rewrite (gran_pos i W).
  unfold iv_snap. rewrite D1. destruct (conv_exact ty v Hint) as (x1 & -> & X1). cbn [obind exact a_trunc a_div a_mul a_ofZ]. fold exact.
  assert (Hq : qtrunc (x1 / iv_gran i) = k).
  { apply qtrunc_Z. rewrite X1, Hv, D4. field. rewrite <- D4. intros Hz. rewrite Hz in H1. now apply Qlt_irrefl in H1. }
  rewrite Hq. destruct (conv_exact ty (inject_Z k * iv_gran i)) as (x2 & -> & X2).
  { intros Ei. destruct (Hint Ei) as [z Hz]. exists z. now rewrite D4, <- Hv. }
  cbn [obind]. unfold iv_sanitize, iv_getMax. cbn [exact a_sub]. fold exact. rewrite D1, D2, D3, D4 in *.
  rewrite sanitize_id by (rewrite X2, <- Hv; exact Hb). destruct (conv_exact ty x2) as (x3 & -> & X3).
  { intros Ei. destruct (Hint Ei) as [z Hz]. exists z. now rewrite X2, <- Hv. }
  cbn [option_map]. eexists. split; [reflexivity|]. assert (EX : x3 == v) by now rewrite X3, X2, <- Hv. split.
  - exact EX.
  - change (iv_min i + x3 == mn + v). now rewrite D2, EX.
Qed.
Print Assumptions C46_grid_points.

Example C46_example :
  made (PInterval (iv_make exact TDouble (1#2) (17#2) (3#2))) /\
  exists p', p_ops exact (PInterval (iv_make exact TDouble (1#2) (17#2) (3#2))) [OAdd (16#5); OSet (-7); OAdd 100; OSet (9#2)] = Some p' /\
    p_value exact p' == 9#2 /\ p_current p' == 5.
Proof.
  split; [constructor; [reflexivity|discriminate|discriminate]|]. eexists. split; [vm_compute; reflexivity|]. split; vm_compute; reflexivity.
Qed.

(** ** C85: setValue of DiscreteSet *)

Theorem C85_discrete_set_refuted : exists es s v s', ds_make es = Some s /\ v == inject_Z 1 /\ (1 < length es)%nat /\
  ds_set exact s v = Some s' /\ ~ ds_getValue exact s' == v.
Proof.
  exists [10; 20; 30], (mkDiscrete [10; 20; 30] 0 10), 1, (mkDiscrete [10; 20; 30] 0 10). split; [reflexivity|]. split; [reflexivity|]. split; [cbn; lia|].
  split; [vm_compute; reflexivity|]. vm_compute. discriminate.
Qed.
Print Assumptions C85_discrete_set_refuted.

(** ** C86: granularities which are zero or too large *)

Theorem C86_granularity_refuted :
  (exists mn mx v i, mn < mx /\ iv_set exact (iv_make exact TDouble mn mx 0) v = Some i /\ ~ iv_current i < mx) /\
  (exists mn mx gran v i, mn < mx /\ 0 < gran /\ iv_set exact (iv_make exact TInt mn mx gran) v = Some i /\ iv_current i < mn).
Proof.
  split.
  - exists 0, 1, 2. eexists. split; [reflexivity|]. split; [vm_compute; reflexivity|]. vm_compute. discriminate.
  - exists 0, 5, 10, 12. eexists. split; [reflexivity|]. split; [reflexivity|]. split; [vm_compute; reflexivity|]. vm_compute. reflexivity.
Qed.
Print Assumptions C86_granularity_refuted.

(** ** C87, C88: doubles *)

(** The number 0.7; assigning 3 * 0.7 yields 2 * 0.7, as 3 * 0.7 / 0.7 is
    slightly less than 3. *)
Definition f07 : spec_float := S754_finite false 6305039478318694 (-53).

Theorem C87_double_grid_points_refuted : exists mx gran v i, v = a_mul ieee (a_ofZ ieee 3) gran /\
  SFltb (a_ofZ ieee 0) gran = true /\ SFltb v mx = true /\
  iv_set ieee (iv_make ieee TDouble (a_ofZ ieee 0) mx gran) v = Some i /\ SFeqb (iv_getValue i) v = false.
Proof.
  exists (a_ofZ ieee 10), f07, (a_mul ieee (a_ofZ ieee 3) f07). eexists. split; [reflexivity|]. split; [vm_compute; reflexivity|]. split; [vm_compute; reflexivity|].
  split; [vm_compute; reflexivity|]. vm_compute. reflexivity.
Qed.
Print Assumptions C87_double_grid_points_refuted.

(** The upper bound is excluded from intervals, but the granularity may be too
    small to make a difference. *)
Theorem C88_double_domain_refuted : exists mx gran v i,
  SFltb (a_ofZ ieee 0) gran = true /\ SFltb gran mx = true /\
  iv_set ieee (iv_make ieee TDouble (a_ofZ ieee 0) mx gran) v = Some i /\ SFltb (iv_current i) mx = false.
Proof.
  exists (a_ofZ ieee (2 ^ 55)), (a_ofZ ieee 1), (a_ofZ ieee (2 ^ 55)). eexists. split; [vm_compute; reflexivity|]. split; [vm_compute; reflexivity|].
  split; [vm_compute; reflexivity|]. vm_compute. reflexivity.
Qed.
Print Assumptions C88_double_domain_refuted.
