(** Rounding quotients up in double precision *)
From Coq Require Import ZArith Reals Floats.SpecFloat Lia Lra Psatz.
From Flocq Require Import Core.Core IEEE754.BinarySingleNaN Calc.Round.
From Verif Require Import ParamModel FloatFacts SetupFacts RandomDoubleFacts CeilModel.
Open Scope Z_scope.

Section Double.
Notation bf := (binary_float 53 1024).
Notation fexp := (SpecFloat.fexp 53 1024).
Notation rnd := (round radix2 fexp ZnearestE).
Local Existing Instance SetupFacts.Hp.
Local Existing Instance SetupFacts.Hm.
Local Existing Instance valid.
Notation of_int := (of_int 53 1024 SetupFacts.Hp SetupFacts.Hm).

(** [b] has the value [x]. *)
Definition has (b : bf) (x : R) : Prop := is_finite b = true /\ B2R b = x.

Lemma small_max x : (Rabs x <= IZR (2 ^ 53))%R -> (Rabs (rnd x) < bpow radix2 1024)%R.
Proof. apply (below_max 53 1024 SetupFacts.Hp SetupFacts.Hm). Qed.

Lemma abs_int z : Z.abs z <= 2 ^ 53 -> (Rabs (IZR z) <= IZR (2 ^ 53))%R.
Proof. intros H. rewrite <- abs_IZR. now apply IZR_le. Qed.

Lemma has_int z : Z.abs z <= 2 ^ 53 -> has (of_int z) (IZR z).
Proof.
  intros Hz. pose proof (binary_normalize_correct 53 1024 SetupFacts.Hp SetupFacts.Hm mode_NE z 0 false) as H. cbv zeta in H.
  assert (F : F2R (Float radix2 z 0) = IZR z) by (unfold F2R; cbn [Fnum Fexp]; simpl; ring). rewrite F in H. cbn [round_mode] in H.
  rewrite Rlt_bool_true in H by (apply small_max; now apply abs_int). destruct H as (A & B & _). split; [exact B|].
  unfold FloatFacts.of_int. rewrite A. now apply (rnd_int 53 1024 SetupFacts.Hp SetupFacts.Hm).
Qed.

Lemma has_mul x y m n : has x (IZR m) -> has y (IZR n) -> Z.abs (m * n) <= 2 ^ 53 -> has (Bmult mode_NE x y) (IZR (m * n)).
Proof.
  intros (Fx & Ex) (Fy & Ey) H. pose proof (Bmult_correct 53 1024 SetupFacts.Hp SetupFacts.Hm mode_NE x y) as C. cbn [round_mode] in C.
  rewrite Ex, Ey, <- mult_IZR in C. rewrite Rlt_bool_true in C by (apply small_max; now apply abs_int). destruct C as (A & B & _).
  split; [now rewrite B, Fx, Fy|]. rewrite A. now apply (rnd_int 53 1024 SetupFacts.Hp SetupFacts.Hm).
Qed.

Lemma has_add x y m n : has x (IZR m) -> has y (IZR n) -> Z.abs (m + n) <= 2 ^ 53 -> has (Bplus mode_NE x y) (IZR (m + n)).
Proof.
  intros (Fx & Ex) (Fy & Ey) H. pose proof (Bplus_correct 53 1024 SetupFacts.Hp SetupFacts.Hm mode_NE x y Fx Fy) as C. cbn [round_mode] in C.
  rewrite Ex, Ey, <- plus_IZR in C. rewrite Rlt_bool_true in C by (apply small_max; now apply abs_int). destruct C as (A & B & _).
  split; [exact B|]. rewrite A. now apply (rnd_int 53 1024 SetupFacts.Hp SetupFacts.Hm).
Qed.

Lemma quot_small a b : Z.abs a <= 2 ^ 53 -> 1 <= b -> (Rabs (IZR a / IZR b) <= IZR (2 ^ 53))%R.
Proof.
  intros Ha Hb. assert (B1 : (1 <= IZR b)%R) by (now apply IZR_le). pose proof (abs_int a Ha) as A. unfold Rdiv. rewrite Rabs_mult, (Rabs_pos_eq (/ IZR b)).
  - apply Rle_trans with (Rabs (IZR a) * 1)%R; [|lra]. apply Rmult_le_compat_l; [apply Rabs_pos|]. rewrite <- Rinv_1. apply Rinv_le_contravar; lra.
  - left. apply Rinv_0_lt_compat. lra.
Qed.

Lemma has_div x y a b : has x (IZR a) -> has y (IZR b) -> Z.abs a <= 2 ^ 53 -> 1 <= b -> has (Bdiv mode_NE x y) (rnd (IZR a / IZR b)).
Proof.
  intros (Fx & Ex) (Fy & Ey) Ha Hb. assert (B1 : (1 <= IZR b)%R) by (now apply IZR_le).
  pose proof (Bdiv_correct 53 1024 SetupFacts.Hp SetupFacts.Hm mode_NE x y ltac:(rewrite Ey; lra)) as C. cbn [round_mode] in C. rewrite Ex, Ey in C.
  rewrite Rlt_bool_true in C by (apply small_max; now apply quot_small). destruct C as (A & B & _). split; [now rewrite B|exact A].
Qed.

Lemma ceil_spec (b : bf) x : has b x -> sf_ceil (B2SF b) = Some (Zceil x).
Proof.
  intros (F & <-). destruct b as [s|s| |s m e B]; try discriminate.
  - cbn. f_equal. symmetry. apply (Zceil_IZR 0).
  - cbn [B2SF sf_ceil B2R]. f_equal. unfold F2R. cbn [Fnum Fexp].
    change (cond_Zopp s (Z.pos m)) with (if s then Z.neg m else Z.pos m). set (z := if s then Z.neg m else Z.pos m).
    destruct (Z.leb_spec 0 e) as [He|He].
    + rewrite <- IZR_Zpower by exact He. rewrite <- mult_IZR. symmetry. apply Zceil_IZR.
    + unfold Zceil. f_equal. rewrite <- Zfloor_div by (apply Z.pow_nonzero; lia). f_equal. rewrite opp_IZR. unfold Rdiv.
      rewrite <- Ropp_mult_distr_l. f_equal. f_equal. replace e with (- (- e)) at 2 by lia. rewrite bpow_opp. f_equal. rewrite <- IZR_Zpower by lia. reflexivity.
Qed.

(** Numbers with few digits *)
Lemma short n m : Z.abs n < 2 ^ 53 -> 0 <= m <= 1000 -> generic_format radix2 fexp (IZR n * bpow radix2 (- m)).
Proof.
  intros Hn Hm. change fexp with (FLT_exp (3 - 1024 - 53) 53). apply generic_format_FLT. exists (Float radix2 n (- m)); [reflexivity|exact Hn|cbn [Fexp]; lia].
Qed.

Lemma exact_ceil a b : Z.abs a <= 2 ^ 40 -> 1 <= b <= 2 ^ 40 -> Zceil (rnd (IZR a / IZR b)) = - ((- a) / b).
Proof.
  intros Ha Hb. set (k := - ((- a) / b)).
  assert (K : (k - 1) * b < a <= k * b).
  { unfold k. pose proof (Z.div_mod (- a) b ltac:(lia)). pose proof (Z.mod_pos_bound (- a) b ltac:(lia)). nia. }
  assert (Ka : Z.abs k <= 2 ^ 40 + 1) by nia. clearbody k.
  assert (B1 : (1 <= IZR b)%R) by (apply IZR_le; lia).
  assert (U : (IZR a / IZR b <= IZR k)%R).
  { apply Rmult_le_reg_r with (IZR b); [lra|]. unfold Rdiv. rewrite Rmult_assoc, Rinv_l, Rmult_1_r by lra. rewrite <- mult_IZR. apply IZR_le. lia. }
  assert (U' : (rnd (IZR a / IZR b) <= IZR k)%R).
  { rewrite <- (rnd_int 53 1024 SetupFacts.Hp SetupFacts.Hm k) by lia. now apply SetupFacts.mono. }
  set (m := Z.log2_up b). assert (M : 0 <= m <= 40).
  { split; [apply Z.log2_up_nonneg|]. change 40 with (Z.log2_up (2 ^ 40)). apply Z.log2_up_le_mono. lia. }
  assert (Mb : b <= 2 ^ m < 2 * b).
  { destruct (Z.eq_dec b 1) as [->|Hb1]; [unfold m; cbn; lia|]. pose proof (Z.log2_up_spec b ltac:(lia)) as (L1 & L2). fold m in L1, L2. split; [lia|].
    assert (m <> 0) by (intros E; rewrite E in L2; lia). replace m with (Z.succ (Z.pred m)) by lia. rewrite Z.pow_succ_r by lia. lia. }
  set (n := (k - 1) * 2 ^ m + 1).
  assert (G : generic_format radix2 fexp (IZR n * bpow radix2 (- m))).
  { apply short; [|lia]. unfold n. assert (Z.abs ((k - 1) * 2 ^ m) <= 2 * (2 ^ 40 + 2 * 2 ^ 40)).
    { rewrite Z.abs_mul, (Z.abs_eq (2 ^ m)) by lia.
      assert (Z.abs (k - 1) * b <= 2 ^ 40 + b) by nia. nia. }
    lia. }
  assert (P : (IZR n * bpow radix2 (- m) = IZR (k - 1) + / IZR (2 ^ m))%R).
  { rewrite bpow_opp, <- IZR_Zpower by lia. change (Zpower radix2 m) with (2 ^ m). unfold n. rewrite plus_IZR, mult_IZR.
    assert ((0 < IZR (2 ^ m))%R) by (apply IZR_lt; lia). field. lra. }
  assert (M0 : (0 < IZR (2 ^ m))%R) by (apply IZR_lt; lia).
  assert (L : (IZR n * bpow radix2 (- m) <= IZR a / IZR b)%R).
  { rewrite P. apply Rle_trans with (IZR (k - 1) + / IZR b)%R.
    - apply Rplus_le_compat_l. apply Rinv_le_contravar; [lra|]. apply IZR_le. lia.
    - apply Rmult_le_reg_r with (IZR b); [lra|]. rewrite Rmult_plus_distr_r. unfold Rdiv. rewrite Rmult_assoc, !Rinv_l, Rmult_1_r by lra.
      rewrite <- mult_IZR, <- (plus_IZR _ 1). apply IZR_le. lia. }
  apply SetupFacts.mono in L. rewrite round_generic in L by (try exact G; typeclasses eauto). rewrite P in L.
  apply Zceil_imp. split; [|exact U']. apply Rlt_le_trans with (2 := L). pose proof (Rinv_0_lt_compat _ M0). rewrite minus_IZR in *. lra.
Qed.

Lemma quot_ceil (x y : bf) a b : has x (IZR a) -> has y (IZR b) -> Z.abs a <= 2 ^ 40 -> 1 <= b <= 2 ^ 40 -> sf_ceil (SFdiv 53 1024 (B2SF x) (B2SF y)) = Some (- ((- a) / b)).
Proof.
  intros Hx Hy Ha Hb. rewrite (div_equiv 53 1024 SetupFacts.Hp SetupFacts.Hm). rewrite (ceil_spec _ (rnd (IZR a / IZR b))).
  - now rewrite exact_ceil.
  - apply has_div; auto; lia.
Qed.

Lemma cuda_ceil_ok n block : Z.abs n <= 2 ^ 40 -> 1 <= block <= 2 ^ 40 -> cuda_ceil n block = Some (- ((- n) / block)).
Proof.
  intros Hn Hb. unfold cuda_ceil. rewrite !ofZ_equiv. cbn [a_mul a_div ieee]. rewrite (mul_equiv 53 1024 SetupFacts.Hp SetupFacts.Hm).
  apply quot_ceil; auto; [|apply has_int; lia]. replace (IZR n) with (IZR (1 * n)) by (f_equal; lia). apply has_mul; try apply has_int; lia.
Qed.

Lemma plot_ceil_ok origin dim cell : Z.abs origin <= 2 ^ 39 -> Z.abs dim <= 2 ^ 39 -> 1 <= cell <= 2 ^ 40 -> plot_ceil origin dim cell = Some (- ((- (origin + dim)) / cell)).
Proof.
  intros Ho Hd Hc. unfold plot_ceil. rewrite !ofZ_equiv. cbn [a_add a_div ieee]. rewrite add_equiv.
  apply quot_ceil; auto; [|apply has_int; lia|lia]. apply has_add; try apply has_int; lia.
Qed.
End Double.
