(** Facts on cuts in double precision. *)
From Coq Require Import ZArith Reals Floats.SpecFloat Lia Lra Psatz List.
From Flocq Require Import Core.Core IEEE754.BinarySingleNaN Calc.Round Relative.
From Verif Require Import ParamModel FloatFacts BisectDoubleModel BisectDoubleSpec.
Import ListNotations.

Section Double.
Notation bf := (binary_float 53 1024).
Notation fexp := (SpecFloat.fexp 53 1024).
Notation rnd := (round radix2 fexp ZnearestE).
Local Instance Hp : Prec_gt_0 53 := eq_refl.
Local Instance Hm : Prec_lt_emax 53 1024 := eq_refl.
Local Existing Instance valid.
Notation fine := (fine 53 1024).
Notation of_int := (of_int 53 1024 Hp Hm).

Lemma mono x y : (x <= y -> rnd x <= rnd y)%R.
Proof. apply (rnd_mono 53 1024 Hp). Qed.

Lemma rnd_pos x : (0 <= x -> 0 <= rnd x)%R.
Proof. intros H. rewrite <- (round_0 radix2 fexp ZnearestE). now apply mono. Qed.

(** The conversion of unsigned integers, which rounds *)
Lemma of_size_spec z : (0 <= z <= 2 ^ 64)%Z -> fine (of_int z) /\ B2R (of_int z) = rnd (IZR z).
Proof.
  intros Hz. pose proof (binary_normalize_correct 53 1024 Hp Hm mode_NE z 0 false) as H. cbv zeta in H.
  assert (F : F2R (Float radix2 z 0) = IZR z) by (unfold F2R; cbn [Fnum Fexp]; simpl; ring). rewrite F in H. cbn [round_mode] in H.
  assert (P : (0 <= IZR z)%R) by (apply IZR_le; lia).
  rewrite Rlt_bool_true in H.
  - destruct H as (A & B & _). unfold FloatFacts.fine, FloatFacts.of_int. rewrite A. repeat split; [exact B|now apply rnd_pos].
  - rewrite Rabs_pos_eq by now apply rnd_pos. apply Rle_lt_trans with (bpow radix2 64); [|apply bpow_lt; lia].
    replace (bpow radix2 64) with (rnd (bpow radix2 64)).
    + apply mono. rewrite <- IZR_Zpower by lia. apply IZR_le. change (Zpower radix2 64) with (2 ^ 64)%Z. lia.
    + apply round_generic; [typeclasses eauto|]. apply generic_format_bpow. unfold fexp, SpecFloat.fexp, emin. lia.
Qed.

Lemma round_spec (b : bf) : fine b -> sf_round (B2SF b) = Some (Zfloor (B2R b + / 2)).
Proof.
  intros (F & P). destruct b as [s|s| |s m e B]; try discriminate.
  - cbn. f_equal. symmetry. apply (Zfloor_imp 0). simpl. lra.
  - cbn [B2SF sf_round B2R] in *. destruct s.
    + exfalso. unfold F2R in P. cbn [Fnum Fexp cond_Zopp] in P. pose proof (bpow_gt_0 radix2 e) as G. assert (L : (IZR (Z.neg m) < 0)%R) by (apply IZR_lt; reflexivity).
      apply (Rmult_lt_compat_r _ _ _ G) in L. rewrite Rmult_0_l in L. apply (Rlt_irrefl 0). eapply Rle_lt_trans; [exact P|exact L].
    + f_equal. unfold F2R. cbn [Fnum Fexp cond_Zopp]. destruct (Z.leb_spec 0 e) as [He|He].
      * rewrite <- IZR_Zpower by exact He. rewrite <- mult_IZR. symmetry. apply Zfloor_imp. rewrite plus_IZR. cbn [radix_val radix2]. lra.
      * symmetry. assert (K : (0 < 2 ^ (- e))%Z) by (apply Z.pow_pos_nonneg; lia). rewrite <- Zfloor_div by lia. f_equal.
        replace e with (- (- e))%Z at 1 by lia. rewrite bpow_opp. rewrite <- IZR_Zpower by lia. change (Zpower radix2 (- e)) with (2 ^ (- e))%Z.
        rewrite plus_IZR, !mult_IZR. apply IZR_lt in K. change (Z.pos m) with (Zpos m). field. lra.
Qed.

(** The position of a cut *)
Section Cut.
Variables num den n : Z.
Hypothesis Hnum : (0 <= num <= den)%Z.
Hypothesis Hden : (0 < den <= 2 ^ 64)%Z.
Hypothesis Hn : (0 <= n <= 2 ^ 31)%Z.

Definition ratio : R := rnd (rnd (IZR num) / rnd (IZR den)).

Lemma rnd_one : rnd 1 = 1%R.
Proof. apply (rnd_int 53 1024 Hp Hm 1). lia. Qed.

Lemma den_ge : (1 <= rnd (IZR den))%R.
Proof. rewrite <- rnd_one at 1. apply mono. apply IZR_le. lia. Qed.

Lemma quot_bounds : (0 <= rnd (IZR num) / rnd (IZR den) <= 1)%R.
Proof.
  pose proof den_ge as D. assert (N : (0 <= rnd (IZR num))%R) by (apply rnd_pos, IZR_le; lia).
  assert (L : (rnd (IZR num) <= rnd (IZR den))%R) by (apply mono, IZR_le; lia).
  unfold Rdiv. split; [apply Rmult_le_pos; [exact N|left; apply Rinv_0_lt_compat; lra]|].
  apply Rmult_le_reg_r with (rnd (IZR den)); [lra|]. rewrite Rmult_assoc, Rinv_l by lra. lra.
Qed.

Lemma ratio_bounds : (0 <= ratio <= 1)%R.
Proof.
  pose proof quot_bounds as (Q0 & Q1). unfold ratio. split; [now apply rnd_pos|]. rewrite <- rnd_one. now apply mono.
Qed.

Lemma product_bounds : (0 <= ratio * IZR n <= IZR n)%R.
Proof.
  pose proof ratio_bounds. assert (N : (0 <= IZR n)%R) by (apply IZR_le; lia). split; [apply Rmult_le_pos; lra|].
  rewrite <- (Rmult_1_l (IZR n)) at 2. apply Rmult_le_compat_r; lra.
Qed.

Lemma round_double_spec : round_double num den n = Zfloor (rnd (ratio * IZR n) + / 2).
Proof.
  unfold round_double. cbn [a_div a_mul a_ofZ ieee].
  rewrite !(normalize_equiv 53 1024 Hp Hm). fold (of_int 1) (of_int num) (of_int den) (of_int n).
  destruct (of_int_spec 53 1024 Hp Hm 1 ltac:(lia)) as (F1 & V1).
  destruct (of_size_spec num ltac:(lia)) as (Fa & Va). destruct (of_size_spec den ltac:(lia)) as (Fd & Vd).
  destruct (of_int_spec 53 1024 Hp Hm n ltac:(lia)) as (Fn & Vn).
  assert (Pa : (0 <= rnd (IZR num) <= bpow radix2 64)%R).
  { split; [apply rnd_pos, IZR_le; lia|]. replace (bpow radix2 64) with (rnd (bpow radix2 64)).
    - apply mono. rewrite <- IZR_Zpower by lia. apply IZR_le. change (Zpower radix2 64) with (2 ^ 64)%Z. lia.
    - apply round_generic; [typeclasses eauto|]. apply generic_format_bpow. unfold fexp, SpecFloat.fexp, emin. lia. }
  rewrite (mul_equiv 53 1024 Hp Hm).
  assert (M : fine (Bmult mode_NE (of_int 1) (of_int num)) /\ B2R (Bmult mode_NE (of_int 1) (of_int num)) = rnd (IZR num)).
  { pose proof (Bmult_correct 53 1024 Hp Hm mode_NE (of_int 1) (of_int num)) as C. cbn [round_mode] in C.
    assert (E : rnd (B2R (of_int 1) * B2R (of_int num)) = rnd (IZR num)).
    { rewrite V1, Va, Rmult_1_l. apply round_generic; [typeclasses eauto|]. apply generic_format_round; typeclasses eauto. }
    rewrite E in C. rewrite Rlt_bool_true in C.
    - destruct C as (A & B & _). destruct F1 as (F1 & _), Fa as (Fa & _). unfold FloatFacts.fine. rewrite A, B, F1, Fa. repeat split. apply Pa.
    - rewrite Rabs_pos_eq by apply Pa. apply Rle_lt_trans with (bpow radix2 64); [apply Pa|apply bpow_lt; lia]. }
  destruct M as (Fm & Vm). rewrite (div_equiv 53 1024 Hp Hm).
  destruct (div_spec 53 1024 Hp Hm _ (of_int den) Fm Fd) as (Fq & Vq).
  { rewrite Vd. pose proof den_ge. lra. }
  { rewrite Vm, Vd. apply Rle_trans with 1%R; [apply quot_bounds|]. apply IZR_le. lia. }
  rewrite Vm, Vd in Vq. fold ratio in Vq.
  rewrite (mul_equiv 53 1024 Hp Hm). destruct (mult_spec 53 1024 Hp Hm _ (of_int n) Fq Fn) as (Fp & Vp).
  { rewrite Vq, Vn. apply Rle_trans with (IZR n); [apply product_bounds|]. apply IZR_le. lia. }
  rewrite Vq, Vn in Vp. rewrite round_spec by exact Fp. now rewrite Vp.
Qed.

Lemma cut_bounds : (0 <= round_double num den n <= n)%Z.
Proof.
  rewrite round_double_spec. pose proof product_bounds as (P0 & P1).
  assert (U : (rnd (ratio * IZR n) <= IZR n)%R).
  { rewrite <- (rnd_int 53 1024 Hp Hm n) at 2 by lia. now apply mono. }
  apply rnd_pos in P0. split.
  - apply Zfloor_lub. lra.
  - assert (K : (Zfloor (rnd (ratio * IZR n) + / 2) < n + 1)%Z); [|lia]. apply lt_IZR. rewrite plus_IZR.
    pose proof (Zfloor_lb (rnd (ratio * IZR n) + / 2)). lra.
Qed.

Definition u : R := bpow radix2 (-53).

(** Rounding changes numbers by a tiny fraction only. *)
Lemma relative x : (bpow radix2 (-900) <= x \/ x = 0)%R -> exists e, (Rabs e <= u)%R /\ rnd x = (x * (1 + e))%R.
Proof.
  intros [Hx| ->].
  - assert (Hx' : (bpow radix2 (3 - 1024 - 53 + 53 - 1) <= Rabs x)%R).
    { pose proof (bpow_gt_0 radix2 (-900)). rewrite Rabs_pos_eq by lra. apply Rle_trans with (2 := Hx). apply bpow_le. lia. }
    destruct (relative_error_N_FLT_ex radix2 (3 - 1024 - 53) 53 eq_refl (fun n => negb (Z.even n)) x Hx') as (e & B & E).
    exists e. split; [|exact E]. eapply Rle_trans; [exact B|]. unfold u. replace (bpow radix2 (-53)) with (/ 2 * bpow radix2 (- (53) + 1))%R; [apply Rle_refl|].
    change (/ 2)%R with (bpow radix2 (-1)). rewrite <- bpow_plus. reflexivity.
  - exists 0%R. rewrite Rabs_R0. split; [apply bpow_ge_0|]. rewrite round_0 by typeclasses eauto. ring.
Qed.

Lemma int_relative z : (0 <= z)%Z -> exists e, (Rabs e <= u)%R /\ rnd (IZR z) = (IZR z * (1 + e))%R.
Proof.
  intros Hz. apply relative. destruct (Z.eq_dec z 0) as [->|]; [now right|]. left. apply Rle_trans with 1%R; [|apply IZR_le; lia].
  change 1%R with (bpow radix2 0). apply bpow_le. lia.
Qed.
Lemma u_small : (0 < u <= / 1024)%R.
Proof. unfold u. split; [apply bpow_gt_0|]. change (/ 1024)%R with (bpow radix2 (-10)). apply bpow_le. lia. Qed.

Lemma factors e1 e2 e3 e4 : (Rabs e1 <= u)%R -> (Rabs e2 <= u)%R -> (Rabs e3 <= u)%R -> (Rabs e4 <= u)%R ->
  (Rabs ((1 + e1) * (1 + e3) * (1 + e4) / (1 + e2) - 1) <= 5 * u)%R.
Proof.
  intros H1 H2 H3 H4. apply Rabs_le_inv in H1, H2, H3, H4. pose proof u_small as (U0 & U1).
  assert (A : ((1 - u) * (1 - u) <= (1 + e1) * (1 + e3) <= (1 + u) * (1 + u))%R) by (split; apply Rmult_le_compat; lra).
  assert (B : ((1 - u) * (1 - u) * (1 - u) <= (1 + e1) * (1 + e3) * (1 + e4) <= (1 + u) * (1 + u) * (1 + u))%R).
  { split; (apply Rmult_le_compat; try lra); [apply Rmult_le_pos; lra|]. apply Rmult_le_pos; lra. }
  set (w := ((1 + e1) * (1 + e3) * (1 + e4))%R) in *. clearbody w.
  assert (L : ((1 - 5 * u) * (1 + e2) <= w <= (1 + 5 * u) * (1 + e2))%R).
  { assert (S : (0 <= u * u <= u * / 1024)%R) by (split; [apply Rmult_le_pos; lra|apply Rmult_le_compat_l; lra]).
    assert (S3 : (0 <= u * u * u <= u * / 1024)%R).
    { split; [apply Rmult_le_pos; lra|]. apply Rle_trans with (u * u * 1)%R; [apply Rmult_le_compat_l; lra|lra]. }
    split.
    - apply Rle_trans with ((1 - 5 * u) * (1 + u))%R; [apply Rmult_le_compat_l; lra|]. apply Rle_trans with (2 := proj1 B).
      replace ((1 - u) * (1 - u) * (1 - u))%R with (1 - 3 * u + 3 * (u * u) - u * u * u)%R by ring.
      replace ((1 - 5 * u) * (1 + u))%R with (1 - 4 * u - 5 * (u * u))%R by ring. lra.
    - apply Rle_trans with ((1 + 5 * u) * (1 - u))%R; [|apply Rmult_le_compat_l; lra]. apply Rle_trans with (1 := proj2 B).
      replace ((1 + u) * (1 + u) * (1 + u))%R with (1 + 3 * u + 3 * (u * u) + u * u * u)%R by ring.
      replace ((1 + 5 * u) * (1 - u))%R with (1 + 4 * u - 5 * (u * u))%R by ring. lra. }
  assert (V : (0 < 1 + e2)%R) by lra. unfold Rdiv.
  apply Rabs_le. split.
  - assert (K : (1 - 5 * u <= w * / (1 + e2))%R); [|lra]. apply Rmult_le_reg_r with (1 + e2)%R; [exact V|]. rewrite Rmult_assoc, Rinv_l by lra. lra.
  - assert (K : (w * / (1 + e2) <= 1 + 5 * u)%R); [|lra]. apply Rmult_le_reg_r with (1 + e2)%R; [exact V|]. rewrite Rmult_assoc, Rinv_l by lra. lra.
Qed.

Lemma quot_low : (1 <= num)%Z -> (bpow radix2 (-64) <= rnd (IZR num) / rnd (IZR den))%R.
Proof.
  intros H. pose proof den_ge as D. assert (A : (1 <= rnd (IZR num))%R) by (rewrite <- rnd_one at 1; apply mono, IZR_le; lia).
  assert (U : (rnd (IZR den) <= bpow radix2 64)%R).
  { replace (bpow radix2 64) with (rnd (bpow radix2 64)).
    - apply mono. rewrite <- IZR_Zpower by lia. apply IZR_le. change (Zpower radix2 64) with (2 ^ 64)%Z. lia.
    - apply round_generic; [typeclasses eauto|]. apply generic_format_bpow. unfold fexp, SpecFloat.fexp, emin. lia. }
  change (-64)%Z with (- (64))%Z. rewrite bpow_opp. unfold Rdiv. rewrite <- (Rmult_1_l (/ bpow radix2 64)).
  apply Rmult_le_compat; try lra; [left; apply Rinv_0_lt_compat, bpow_gt_0|]. apply Rinv_le; lra.
Qed.

Lemma ratio_low : (1 <= num)%Z -> (bpow radix2 (-64) <= ratio)%R.
Proof.
  intros H. unfold ratio. replace (bpow radix2 (-64)) with (rnd (bpow radix2 (-64))); [apply mono, quot_low, H|].
  apply round_generic; [typeclasses eauto|]. apply generic_format_bpow. unfold fexp, SpecFloat.fexp, emin. lia.
Qed.

Lemma product_near : (Rabs (rnd (ratio * IZR n) - IZR num * IZR n / IZR den) <= / IZR (2 ^ 19))%R.
Proof.
  assert (D : (1 <= IZR den)%R) by (apply IZR_le; lia). pose proof den_ge as D'.
  assert (N : (0 <= IZR n <= bpow radix2 31)%R).
  { rewrite <- IZR_Zpower by lia. change (Zpower radix2 31) with (2 ^ 31)%Z. split; apply IZR_le; lia. }
  assert (X : (0 <= IZR num <= IZR den)%R) by (split; apply IZR_le; lia).
  destruct (int_relative num ltac:(lia)) as (e1 & B1 & E1). destruct (int_relative den ltac:(lia)) as (e2 & B2 & E2).
  assert (Q : exists e3, (Rabs e3 <= u)%R /\ ratio = (rnd (IZR num) / rnd (IZR den) * (1 + e3))%R).
  { apply relative. destruct (Z.eq_dec num 0) as [E0|E0].
    - right. rewrite E1, E0. unfold Rdiv. ring.
    - left. apply Rle_trans with (bpow radix2 (-64)); [apply bpow_le; lia|]. apply quot_low. lia. }
  destruct Q as (e3 & B3 & E3).
  assert (P : exists e4, (Rabs e4 <= u)%R /\ rnd (ratio * IZR n) = (ratio * IZR n * (1 + e4))%R).
  { apply relative. destruct (Z.eq_dec num 0) as [E0|E0].
    - right. rewrite E3, E1, E0. unfold Rdiv. ring.
    - destruct (Z.eq_dec n 0) as [Z0|Z0]; [right; rewrite Z0; ring|]. left.
      apply Rle_trans with (bpow radix2 (-64) * 1)%R; [rewrite Rmult_1_r; apply bpow_le; lia|].
      pose proof (ratio_low ltac:(lia)) as RL. apply Rmult_le_compat; [apply bpow_ge_0|lra|exact RL|apply IZR_le; lia]. }
  destruct P as (e4 & B4 & E4).
  pose proof (factors e1 e2 e3 e4 B1 B2 B3 B4) as F.
  assert (V : (0 < 1 + e2)%R) by (apply Rabs_le_inv in B2; pose proof u_small; lra).
  rewrite E4, E3, E1, E2.
  replace (IZR num * (1 + e1) / (IZR den * (1 + e2)) * (1 + e3) * IZR n * (1 + e4) - IZR num * IZR n / IZR den)%R
    with (IZR num / IZR den * IZR n * ((1 + e1) * (1 + e3) * (1 + e4) / (1 + e2) - 1))%R by (field; lra).
  rewrite Rabs_mult.
  assert (T : (0 <= IZR num / IZR den <= 1)%R).
  { unfold Rdiv. split; [apply Rmult_le_pos; [lra|left; apply Rinv_0_lt_compat; lra]|].
    apply Rmult_le_reg_r with (IZR den); [lra|]. rewrite Rmult_assoc, Rinv_l by lra. lra. }
  assert (T2 : (0 <= IZR num / IZR den * IZR n <= bpow radix2 31)%R).
  { split; [apply Rmult_le_pos; lra|]. rewrite <- (Rmult_1_l (bpow radix2 31)). apply Rmult_le_compat; lra. }
  rewrite (Rabs_pos_eq (_ * IZR n)) by lra.
  apply Rle_trans with (bpow radix2 31 * (5 * u))%R; [apply Rmult_le_compat; try lra; apply Rabs_pos|].
  apply Rle_trans with (bpow radix2 31 * (bpow radix2 3 * u))%R.
  - apply Rmult_le_compat_l; [apply bpow_ge_0|]. pose proof u_small. apply Rmult_le_compat_r; [lra|]. simpl. lra.
  - unfold u. rewrite <- !bpow_plus. change (2 ^ 19)%Z with (Zpower radix2 19). rewrite IZR_Zpower by lia. rewrite <- bpow_opp. apply bpow_le. lia.
Qed.

Lemma cut_near : nearest_cut num den n (round_double num den n).
Proof.
  unfold nearest_cut. rewrite round_double_spec. pose proof product_near as H. set (p := rnd (ratio * IZR n)) in *. clearbody p.
  assert (D : (1 <= IZR den)%R) by (apply IZR_le; lia).
  pose proof (Zfloor_lb (p + / 2)) as L. pose proof (Zfloor_ub (p + / 2)) as U. set (c := Zfloor (p + / 2)) in *. clearbody c.
  apply le_IZR. rewrite !mult_IZR, plus_IZR, abs_IZR, minus_IZR, !mult_IZR.
  set (t := (IZR num * IZR n / IZR den)%R) in *. assert (T : (IZR num * IZR n = t * IZR den)%R) by (unfold t; field; lra). rewrite T. clearbody t.
  assert (K : (Rabs (IZR c - t) <= / 2 + / IZR (2 ^ 19))%R) by (apply Rabs_le_inv in H; apply Rabs_le; lra).
  rewrite <- Rmult_minus_distr_r, Rabs_mult, (Rabs_pos_eq (IZR den)) by lra.
  rewrite <- Rmult_assoc. apply Rmult_le_compat_r; [lra|].
  change (2 ^ 19)%Z with 524288%Z in *. change (2 ^ 18)%Z with 262144%Z. lra.
Qed.
End Cut.
End Double.
