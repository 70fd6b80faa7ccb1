(** The standard library's floating-point numbers are those of Flocq; hence
    what is known about rounding holds for them. *)
From Coq Require Import ZArith Reals Floats.SpecFloat Lia Lra Psatz.
From Flocq Require Import Core.Core IEEE754.BinarySingleNaN Calc.Round.
From Verif Require Import ParamModel.

Section Float.
Context (prec emax : Z) (Hprec : Prec_gt_0 prec) (Hmax : Prec_lt_emax prec emax).
Notation bf := (binary_float prec emax).
Notation fexp := (SpecFloat.fexp prec emax).
Notation rnd := (round radix2 fexp ZnearestE).

Lemma round_nearest_even_equiv s m l : round_nearest_even m l = choice_mode mode_NE s m l.
Proof. case l; [reflexivity|intro c]. case c; [|reflexivity..]. now simpl; unfold Round.cond_incr; case Z.even. Qed.

Lemma round_aux_equiv sx mx ex lx : SpecFloat.binary_round_aux prec emax sx mx ex lx = BinarySingleNaN.binary_round_aux prec emax mode_NE sx mx ex lx.
Proof. unfold SpecFloat.binary_round_aux, BinarySingleNaN.binary_round_aux. set (mrse' := shr_fexp _ _ _ _ _). case mrse'; intros mrs' e'; simpl. now rewrite (round_nearest_even_equiv sx). Qed.

Lemma round_equiv s m e : SpecFloat.binary_round prec emax s m e = BinarySingleNaN.binary_round prec emax mode_NE s m e.
Proof. unfold SpecFloat.binary_round, BinarySingleNaN.binary_round, shl_align_fexp. set (mez := shl_align _ _ _); case mez as [mz ez]. apply round_aux_equiv. Qed.

Lemma normalize_equiv m e szero : SpecFloat.binary_normalize prec emax m e szero = B2SF (BinarySingleNaN.binary_normalize prec emax Hprec Hmax mode_NE m e szero).
Proof. case m as [|p|p]; [reflexivity|..]; simpl; rewrite B2SF_SF2B; apply round_equiv. Qed.

Lemma mul_equiv (x y : bf) : SFmul prec emax (B2SF x) (B2SF y) = B2SF (Bmult mode_NE x y).
Proof.
  case x as [sx|sx| |sx mx ex Bx]; case y as [sy|sy| |sy my ey By]; try reflexivity. simpl. rewrite B2SF_SF2B. apply round_aux_equiv.
Qed.

Lemma div_equiv (x y : bf) : SFdiv prec emax (B2SF x) (B2SF y) = B2SF (Bdiv mode_NE x y).
Proof.
  case x as [sx|sx| |sx mx ex Bx]; case y as [sy|sy| |sy my ey By]; try reflexivity. simpl. rewrite B2SF_SF2B.
  set (melz := SFdiv_core_binary _ _ _ _ _ _). case melz as [[mz ez] lz]. apply round_aux_equiv.
Qed.

Lemma valid : Valid_exp fexp.
Proof. apply (fexp_correct prec emax Hprec). Qed.
Local Existing Instance valid.

Lemma rnd_mono x y : (x <= y -> rnd x <= rnd y)%R.
Proof. apply round_le; typeclasses eauto. Qed.

(** Integers of up to [prec] bits are numbers. *)
Lemma format_int n : (Z.abs n <= 2 ^ prec)%Z -> generic_format radix2 fexp (IZR n).
Proof.
  intros Hn. unfold Prec_gt_0, Prec_lt_emax in *. change fexp with (FLT_exp (3 - emax - prec) prec).
  destruct (Z.eq_dec (Z.abs n) (2 ^ prec)) as [E|E].
  - assert (F : generic_format radix2 (FLT_exp (3 - emax - prec) prec) (bpow radix2 prec)).
    { apply generic_format_bpow. unfold FLT_exp. lia. }
    assert (P : IZR (2 ^ prec) = bpow radix2 prec) by (rewrite <- IZR_Zpower by lia; reflexivity).
    destruct (Z.abs_eq_or_opp n) as [A|A]; rewrite A in E.
    + rewrite E, P. exact F.
    + replace n with (- 2 ^ prec)%Z by lia. rewrite opp_IZR, P. now apply generic_format_opp.
  - apply generic_format_FLT. exists (Float radix2 n 0).
    + unfold F2R. cbn [Fnum Fexp]. simpl. ring.
    + cbn [Fnum]. change (radix_val radix2) with 2%Z. lia.
    + cbn [Fexp]. lia.
Qed.

Lemma rnd_int n : (Z.abs n <= 2 ^ prec)%Z -> rnd (IZR n) = IZR n.
Proof. intros H. apply round_generic; [typeclasses eauto|now apply format_int]. Qed.

Lemma below_max x : (Rabs x <= IZR (2 ^ prec))%R -> (Rabs (rnd x) < bpow radix2 emax)%R.
Proof.
  intros H. unfold Prec_gt_0, Prec_lt_emax in *. assert (P : IZR (2 ^ prec) = bpow radix2 prec) by (rewrite <- IZR_Zpower by lia; reflexivity).
  apply Rle_lt_trans with (IZR (2 ^ prec)).
  - assert (R : rnd (IZR (2 ^ prec)) = IZR (2 ^ prec)) by (apply rnd_int; lia).
    apply Rabs_le_inv in H. apply Rabs_le. split.
    + rewrite <- R, <- round_NE_opp. apply rnd_mono. lra.
    + rewrite <- R. apply rnd_mono. lra.
  - rewrite P. apply bpow_lt. exact Hmax.
Qed.

(** Numbers which are finite and not negative *)
Definition fine (b : bf) : Prop := is_finite b = true /\ (0 <= B2R b)%R.

Definition of_int (z : Z) : bf := BinarySingleNaN.binary_normalize prec emax Hprec Hmax mode_NE z 0 false.

Lemma of_int_spec z : (0 <= z <= 2 ^ prec)%Z -> fine (of_int z) /\ B2R (of_int z) = IZR z.
Proof.
  intros Hz. pose proof (binary_normalize_correct prec emax Hprec Hmax mode_NE z 0 false) as H. cbv zeta in H.
  assert (F : F2R (Float radix2 z 0) = IZR z) by (unfold F2R; cbn [Fnum Fexp]; simpl; ring). rewrite F in H. cbn [round_mode] in H.
  rewrite Rlt_bool_true in H.
  - destruct H as (A & B & _). rewrite rnd_int in A by lia. unfold fine, of_int. rewrite A. repeat split; [exact B|]. apply IZR_le. lia.
  - apply below_max. rewrite <- abs_IZR. apply IZR_le. lia.
Qed.

Lemma mult_spec x y : fine x -> fine y -> (B2R x * B2R y <= IZR (2 ^ prec))%R ->
  fine (Bmult mode_NE x y) /\ B2R (Bmult mode_NE x y) = rnd (B2R x * B2R y).
Proof.
  intros (Fx & Px) (Fy & Py) H. pose proof (Bmult_correct prec emax Hprec Hmax mode_NE x y) as C. cbn [round_mode] in C.
  assert (P : (0 <= B2R x * B2R y)%R) by now apply Rmult_le_pos. rewrite Rlt_bool_true in C by (apply below_max; rewrite Rabs_pos_eq; assumption).
  destruct C as (A & B & _). unfold fine. rewrite A, B, Fx, Fy. repeat split. rewrite <- (round_0 radix2 fexp ZnearestE). now apply rnd_mono.
Qed.

Lemma div_spec x y : fine x -> fine y -> (0 < B2R y)%R -> (B2R x / B2R y <= IZR (2 ^ prec))%R ->
  fine (Bdiv mode_NE x y) /\ B2R (Bdiv mode_NE x y) = rnd (B2R x / B2R y).
Proof.
  intros (Fx & Px) (Fy & _) Py H. pose proof (Bdiv_correct prec emax Hprec Hmax mode_NE x y ltac:(lra)) as C. cbn [round_mode] in C.
  assert (P : (0 <= B2R x / B2R y)%R). { unfold Rdiv. apply Rmult_le_pos; [exact Px|]. left. now apply Rinv_0_lt_compat. }
  rewrite Rlt_bool_true in C by (apply below_max; rewrite Rabs_pos_eq; assumption).
  destruct C as (A & B & _). unfold fine. rewrite A, B, Fx. repeat split. rewrite <- (round_0 radix2 fexp ZnearestE). now apply rnd_mono.
Qed.

(** Conversion to integers *)
Lemma trunc_spec b : fine b -> sf_trunc (B2SF b) = Some (Zfloor (B2R b)).
Proof.
  intros (F & P). destruct b as [s|s| |s m e B]; try discriminate.
  - cbn. f_equal. symmetry. apply (Zfloor_IZR 0).
  - cbn [B2SF sf_trunc B2R] in *. destruct s.
    + exfalso. unfold F2R in P. cbn [Fnum Fexp cond_Zopp] in P. pose proof (bpow_gt_0 radix2 e) as G. assert (L : (IZR (Z.neg m) < 0)%R) by (apply IZR_lt; reflexivity).
      apply (Rmult_lt_compat_r _ _ _ G) in L. rewrite Rmult_0_l in L. apply (Rlt_irrefl 0). eapply Rle_lt_trans; [exact P|exact L].
    + f_equal. unfold F2R. cbn [Fnum Fexp cond_Zopp]. destruct (Z.leb_spec 0 e) as [He|He].
      * rewrite <- IZR_Zpower by exact He. rewrite <- mult_IZR. symmetry. apply Zfloor_IZR.
      * symmetry. rewrite <- Zfloor_div by (apply Z.pow_nonzero; lia). f_equal. unfold Rdiv. f_equal.
        replace e with (- (- e))%Z at 1 by lia. rewrite bpow_opp. f_equal. rewrite <- IZR_Zpower by lia. reflexivity.
Qed.
End Float.
