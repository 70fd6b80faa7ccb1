(** Distributed partitioning: slices. *)
From Coq Require Import ZArith Reals Floats.SpecFloat QArith Qround Lia Lra.
From Flocq Require Import Core.Core IEEE754.BinarySingleNaN.
From Verif Require Import Base RegionOpsModel ParamModel DistScotchModel DistScotchSpec FloatFacts.
From Coq Require Import Lia Lra.
Local Open Scope Z_scope.

Local Instance prec24 : Prec_gt_0 24 := eq_refl.
Local Instance prec24_lt : Prec_lt_emax 24 128 := eq_refl.
Local Notation rnd32 := (round radix2 (SpecFloat.fexp 24 128) ZnearestE).

(** What the sizes of the slices are, in single precision *)
Definition bound32 (num : nat) (cells r : Z) : Z := Zfloor (rnd32 (rnd32 (IZR r / IZR (Z.of_nat num)) * IZR cells)).

Lemma quotient (num : nat) r : 0 <= r <= Z.of_nat num -> (1 <= num)%nat -> (0 <= IZR r / IZR (Z.of_nat num) <= 1)%R.
Proof.
  intros Hr Hn. assert (P : (0 < IZR (Z.of_nat num))%R) by (apply IZR_lt; lia). split.
  - unfold Rdiv. apply Rmult_le_pos; [apply IZR_le; lia|]. left. now apply Rinv_0_lt_compat.
  - apply Rmult_le_reg_r with (IZR (Z.of_nat num)); [exact P|]. unfold Rdiv. rewrite Rmult_assoc, Rinv_l by lra. rewrite Rmult_1_l, Rmult_1_r. apply IZR_le. lia.
Qed.

Lemma rnd_quotient (num : nat) r : 0 <= r <= Z.of_nat num -> (1 <= num)%nat -> (0 <= rnd32 (IZR r / IZR (Z.of_nat num)) <= 1)%R.
Proof.
  intros Hr Hn. destruct (quotient num r Hr Hn) as (A & B). split.
  - rewrite <- (rnd_int 24 128 _ _ 0) by lia. now apply rnd_mono.
  - rewrite <- (rnd_int 24 128 _ _ 1) by lia. now apply rnd_mono.
Qed.

Lemma bound32_spec (num : nat) cells r : 0 <= r <= Z.of_nat num -> (1 <= num)%nat -> Z.of_nat num <= 2 ^ 24 -> 0 <= cells <= 2 ^ 24 ->
  slice_bound single num cells r = Some (bound32 num cells r).
Proof.
  intros Hr Hn Hn2 Hc. unfold slice_bound, single. cbn [a_trunc a_mul a_div a_ofZ].
  destruct (of_int_spec 24 128 _ _ r ltac:(lia)) as (F1 & E1). destruct (of_int_spec 24 128 _ _ (Z.of_nat num) ltac:(lia)) as (F2 & E2). destruct (of_int_spec 24 128 _ _ cells ltac:(lia)) as (F3 & E3).
  rewrite !(normalize_equiv 24 128 _ _). fold (of_int 24 128 _ _ r) (of_int 24 128 _ _ (Z.of_nat num)) (of_int 24 128 _ _ cells).
  rewrite (div_equiv 24 128 _ _), (mul_equiv 24 128 _ _).
  destruct (quotient num r Hr Hn) as (Q1 & Q2). destruct (rnd_quotient num r Hr Hn) as (R1 & R2).
  assert (Big : (1 <= IZR (2 ^ 24))%R) by (apply IZR_le; lia). assert (Cp : (0 <= IZR cells)%R) by (apply IZR_le; lia). assert (Cb : (IZR cells <= IZR (2 ^ 24))%R) by (apply IZR_le; lia).
  destruct (div_spec 24 128 _ _ _ _ F1 F2) as (F4 & E4).
  { rewrite E2. apply IZR_lt. lia. }
  { rewrite E1, E2. lra. }
  rewrite E1, E2 in E4.
  destruct (mult_spec 24 128 _ _ _ _ F4 F3) as (F5 & E5).
  { rewrite E3, E4. apply Rle_trans with (1 * IZR cells)%R; [now apply Rmult_le_compat_r|lra]. }
  rewrite (trunc_spec 24 128 _ F5). rewrite E5, E4, E3. reflexivity.
Qed.

Lemma bound32_cut (num : nat) cells : (1 <= num)%nat -> 0 <= cells <= 2 ^ 24 -> cut cells num (bound32 num cells).
Proof.
  intros Hn Hc. assert (P : (0 < IZR (Z.of_nat num))%R) by (apply IZR_lt; lia). unfold cut, bound32. split; [|split].
  - unfold Rdiv. rewrite Rmult_0_l, round_0, Rmult_0_l, round_0 by typeclasses eauto. apply (Zfloor_IZR 0).
  - replace (IZR (Z.of_nat num) / IZR (Z.of_nat num))%R with 1%R by (unfold Rdiv; now rewrite Rinv_r by lra). rewrite (rnd_int 24 128 _ _ 1) by lia. rewrite Rmult_1_l, (rnd_int 24 128 _ _ cells) by lia. apply Zfloor_IZR.
  - intros r Hr. apply Zfloor_le. apply (rnd_mono 24 128 _). apply Rmult_le_compat_r; [apply IZR_le; lia|]. apply (rnd_mono 24 128 _). unfold Rdiv. apply Rmult_le_compat_r; [left; now apply Rinv_0_lt_compat|]. apply IZR_le. lia.
Qed.

(** Exact arithmetic *)
Lemma exact_bound (num : nat) cells r : 0 <= r -> (1 <= num)%nat -> 0 <= cells -> slice_bound exact num cells r = Some (r * cells / Z.of_nat num).
Proof.
  intros Hr Hn Hc. unfold slice_bound, exact. cbn [a_trunc a_mul a_div a_ofZ]. f_equal.
  assert (E : (inject_Z r / inject_Z (Z.of_nat num) * inject_Z cells == (r * cells) # (Pos.of_nat num))%Q).
  { rewrite (Qmake_Qdiv (r * cells)). rewrite inject_Z_mult. replace (Z.pos (Pos.of_nat num)) with (Z.of_nat num) by lia. field. intros K. change 0%Q with (inject_Z 0) in K. apply (proj1 (inject_Z_injective _ _)) in K. lia. }
  unfold qtrunc. assert (P : Qle_bool 0 (inject_Z r / inject_Z (Z.of_nat num) * inject_Z cells) = true).
  { apply Qle_bool_iff. rewrite E. unfold Qle. cbn [Qnum Qden]. nia. }
  rewrite P, E. unfold Qfloor. cbn [Qnum Qden]. f_equal. lia.
Qed.

Lemma exact_cut (num : nat) cells : (1 <= num)%nat -> 0 <= cells -> cut cells num (fun r => r * cells / Z.of_nat num).
Proof.
  intros Hn Hc. split; [|split].
  - apply Z.div_0_l. lia.
  - rewrite Z.mul_comm. apply Z.div_mul. lia.
  - intros r Hr. apply Z.div_le_mono; nia.
Qed.

(** A cut means that each cell is in exactly one slice. *)
Lemma cut_mono cells num b : cut cells num b -> forall m r, 0 <= r -> r + Z.of_nat m <= Z.of_nat num -> b r <= b (r + Z.of_nat m).
Proof.
  intros (_ & _ & H). induction m as [|m IH]; intros r Hr Hm; [replace (r + Z.of_nat 0) with r by lia; lia|].
  specialize (IH r Hr ltac:(lia)). specialize (H (r + Z.of_nat m) ltac:(lia)). replace (r + Z.of_nat (S m)) with (r + Z.of_nat m + 1) by lia. lia.
Qed.

Lemma cut_find cells num b : cut cells num b -> forall i, 0 <= i < cells -> exists r, (r < num)%nat /\ b (Z.of_nat r) <= i < b (Z.of_nat r + 1).
Proof.
  intros (H0 & Hn & _) i Hi. assert (G : forall m, (m <= num)%nat -> i < b (Z.of_nat m) -> exists r, (r < m)%nat /\ b (Z.of_nat r) <= i < b (Z.of_nat r + 1)).
  { induction m as [|m IH]; intros Hm Hb; [cbn in Hb; lia|]. destruct (Z_lt_le_dec i (b (Z.of_nat m))) as [L|L].
    - destruct (IH ltac:(lia) L) as (r & Hr & H). exists r. split; [lia|exact H].
    - exists m. split; [lia|]. replace (Z.of_nat m + 1) with (Z.of_nat (S m)) by lia. lia. }
  apply (G num); [lia|]. lia.
Qed.

Lemma cut_unique cells num b : cut cells num b -> forall i r r', (r < num)%nat -> (r' < num)%nat ->
  b (Z.of_nat r) <= i < b (Z.of_nat r + 1) -> b (Z.of_nat r') <= i < b (Z.of_nat r' + 1) -> r = r'.
Proof.
  intros C i. assert (G : forall r r', (r < r')%nat -> (r' < num)%nat -> b (Z.of_nat r) <= i < b (Z.of_nat r + 1) -> b (Z.of_nat r') <= i < b (Z.of_nat r' + 1) -> False).
  { intros r r' H Hr' H1 H2. pose proof (cut_mono cells num b C (r' - S r) (Z.of_nat r + 1) ltac:(lia) ltac:(lia)) as M. replace (Z.of_nat r + 1 + Z.of_nat (r' - S r)) with (Z.of_nat r') in M by lia. lia. }
  intros r r' Hr Hr' H1 H2. destruct (lt_eq_lt_dec r r') as [[L|L]|L]; [exfalso; eauto|exact L|exfalso; eauto].
Qed.
