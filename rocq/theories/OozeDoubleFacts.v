(** OozeBalancer in double precision: all numbers stay finite. *)
From Coq Require Import ZArith Reals Floats.SpecFloat Lia Lra Psatz List Bool.
From Flocq Require Import Core.Core IEEE754.BinarySingleNaN Calc.Round Relative.
From Verif Require Import ParamModel FloatFacts RegionOpsModel SetupSpec SetupFacts BalancerModel RandomDoubleFacts OozeDoubleModel.
Import ListNotations.

Section Double.
Notation bf := (binary_float 53 1024).
Notation fexp := (SpecFloat.fexp 53 1024).
Notation rnd := (round radix2 fexp ZnearestE).
Local Existing Instance SetupFacts.Hp.
Local Existing Instance SetupFacts.Hm.
Local Existing Instance valid.
Notation fine := (fine 53 1024).
Notation of_int := (of_int 53 1024 SetupFacts.Hp SetupFacts.Hm).

Lemma sub_equiv (x y : bf) : SFsub 53 1024 (B2SF x) (B2SF y) = B2SF (Bminus mode_NE x y).
Proof.
  case x as [sx|sx| |sx mx ex Bx]; case y as [sy|sy| |sy my ey By]; try reflexivity.
  - cbn. now destruct (Bool.eqb sx (negb sy)); destruct sx, sy.
  - cbn. now destruct (Bool.eqb sx (negb sy)); destruct sx, sy.
  - cbn [B2SF SFsub]. unfold Bminus. rewrite (normalize_equiv 53 1024 SetupFacts.Hp SetupFacts.Hm). now destruct sy.
Qed.

(** Doubles between 0 and [hi] *)
Definition within (hi : R) (x : spec_float) : Prop := exists b : bf, B2SF b = x /\ fine b /\ (B2R b <= hi)%R.

Lemma value_unique (b b' : bf) : B2SF b = B2SF b' -> b = b'.
Proof. apply B2SF_inj. Qed.

Lemma within_le a c x : (a <= c)%R -> within a x -> within c x.
Proof. intros H (b & E & F & L). exists b. split; [exact E|]. split; [exact F|lra]. Qed.

Lemma within_int z : (0 <= z <= 2 ^ 53)%Z -> within (IZR z) (a_ofZ ieee z).
Proof. intros H. rewrite ofZ_equiv. destruct (of_int_spec 53 1024 SetupFacts.Hp SetupFacts.Hm z H) as (F & E). exists (of_int z). rewrite E. split; [reflexivity|]. split; [exact F|lra]. Qed.

Lemma rnd_below z x : (0 <= z <= 2 ^ 53)%Z -> (x <= IZR z)%R -> (rnd x <= IZR z)%R.
Proof. intros Hz Hx. rewrite <- (rnd_int 53 1024 SetupFacts.Hp SetupFacts.Hm z) by lia. now apply SetupFacts.mono. Qed.

Lemma int_900 z : (z <= 2 ^ 53)%Z -> (IZR z <= bpow radix2 900)%R.
Proof. intros H. apply Rle_trans with (bpow radix2 53); [|apply bpow_le; lia]. rewrite <- IZR_Zpower by lia. now apply IZR_le. Qed.

Lemma within_add n m x y : (0 <= n)%Z -> (0 <= m)%Z -> (n + m <= 2 ^ 53)%Z -> within (IZR n) x -> within (IZR m) y -> within (IZR (n + m)) (a_add ieee x y).
Proof.
  intros Hn Hm Hs (a & <- & Fa & La) (b & <- & Fb & Lb). cbn [a_add ieee]. rewrite add_equiv.
  assert (L : (B2R a + B2R b <= IZR (n + m))%R) by (rewrite plus_IZR; lra).
  destruct (add_spec a b Fa Fb) as (F & E); [pose proof (int_900 (n + m) Hs); lra|].
  exists (Bplus mode_NE a b). split; [reflexivity|]. split; [exact F|]. rewrite E. apply rnd_below; [lia|exact L].
Qed.

Lemma within_mul n m x y : (0 <= n)%Z -> (0 <= m)%Z -> (n * m <= 2 ^ 53)%Z -> within (IZR n) x -> within (IZR m) y -> within (IZR (n * m)) (a_mul ieee x y).
Proof.
  intros Hn Hm Hs (a & <- & Fa & La) (b & <- & Fb & Lb). cbn [a_mul ieee]. rewrite (mul_equiv 53 1024 SetupFacts.Hp SetupFacts.Hm).
  assert (L : (B2R a * B2R b <= IZR (n * m))%R). { rewrite mult_IZR. destruct Fa as (_ & Pa), Fb as (_ & Pb). apply Rmult_le_compat; lra. }
  destruct (mul_spec a b Fa Fb) as (F & E); [pose proof (int_900 (n * m) Hs); lra|].
  exists (Bmult mode_NE a b). split; [reflexivity|]. split; [exact F|]. rewrite E. apply rnd_below; [nia|exact L].
Qed.

(** Differences *)
Lemma sub_double (x y : bf) : fine x -> fine y -> (B2R y <= B2R x)%R -> (B2R x <= bpow radix2 900)%R ->
  fine (Bminus mode_NE x y) /\ (B2R (Bminus mode_NE x y) <= B2R x)%R.
Proof.
  intros (Fx & Px) (Fy & Py) H L. pose proof (Bminus_correct 53 1024 SetupFacts.Hp SetupFacts.Hm mode_NE x y Fx Fy) as C. cbn [round_mode] in C.
  rewrite Rlt_bool_true in C by (apply no_overflow; lra). destruct C as (A & B & _). unfold FloatFacts.fine. rewrite A, B.
  split; [split; [reflexivity|apply SetupFacts.rnd_pos; lra]|].
  rewrite <- (round_generic radix2 fexp ZnearestE (B2R x)) at 2 by apply generic_format_B2R. apply SetupFacts.mono. lra.
Qed.

Lemma le_double (x y : bf) : fine x -> fine y -> a_le ieee (B2SF x) (B2SF y) = Rle_bool (B2R x) (B2R y).
Proof. intros (Fx & _) (Fy & _). cbn [a_le ieee]. change (SFleb (B2SF x) (B2SF y)) with (Bleb x y). now apply Bleb_correct. Qed.

Lemma within_sub_one x : within 1 x -> within 1 (a_sub ieee (a_ofZ ieee 1) x).
Proof.
  intros (b & <- & Fb & Lb). rewrite ofZ_equiv. cbn [a_sub ieee]. rewrite sub_equiv.
  destruct (of_int_spec 53 1024 SetupFacts.Hp SetupFacts.Hm 1) as (F1 & E1); [lia|].
  destruct (sub_double (of_int 1) b F1 Fb) as (F & L); [rewrite E1; exact Lb|rewrite E1; apply (int_900 1); lia|].
  exists (Bminus mode_NE (of_int 1) b). split; [reflexivity|]. split; [exact F|]. rewrite E1 in L. exact L.
Qed.

(** Sums of fractions *)
Lemma within_sum l : forall n acc, (0 <= n)%Z -> (n + Z.of_nat (length l) <= 2 ^ 53)%Z -> within (IZR n) acc -> Forall (within 1) l ->
  within (IZR (n + Z.of_nat (length l))) (fold_left (a_add ieee) l acc).
Proof.
  induction l as [|x l IH]; intros n acc Hn Hb Ha F; [cbn [length fold_left Z.of_nat]; now rewrite Z.add_0_r|].
  inversion F; subst. cbn [fold_left length] in *. replace (n + Z.of_nat (S (length l)))%Z with (n + 1 + Z.of_nat (length l))%Z by lia.
  apply IH; [lia|lia| |assumption]. apply within_add; auto; lia.
Qed.

(** ** Filling nodes *)

Definition big : R := bpow radix2 460.

Lemma big_900 : (big <= bpow radix2 900)%R.
Proof. apply bpow_le. lia. Qed.

Lemma big_one : (1 <= big)%R.
Proof. change 1%R with (bpow radix2 0). apply bpow_le. lia. Qed.

Lemma zero_double : a_ofZ ieee 0 = B2SF (B754_zero false : bf).
Proof. reflexivity. Qed.

Lemma fine_zero : fine (B754_zero false : bf).
Proof. split; [reflexivity|cbn; lra]. Qed.

Lemma within_zero n : (0 <= n)%R -> within n (a_ofZ ieee 0).
Proof. intros H. rewrite zero_double. exists (B754_zero false). split; [reflexivity|]. split; [apply fine_zero|exact H]. Qed.

Lemma eq_zero (b : bf) : fine b -> n_eq ieee (B2SF b) (a_ofZ ieee 0) = Rle_bool (B2R b) 0.
Proof.
  intros F. unfold n_eq. rewrite zero_double, !le_double by (auto using fine_zero). cbn [B2R]. destruct F as (_ & P). rewrite (Rle_bool_true 0 (B2R b)) by exact P.
  apply andb_true_r.
Qed.

Lemma fill_node_ok fract : forall per m acc rem, (0 <= m)%Z -> (m + Z.of_nat (length fract) <= 2 ^ 53)%Z ->
  within (IZR m) acc -> within big rem -> Forall (within 1) fract -> Forall (within big) per ->
  within (IZR (m + Z.of_nat (length fract))) (fst (n_fill_node ieee acc rem fract per)) /\
  length (snd (n_fill_node ieee acc rem fract per)) = length fract /\ Forall (within 1) (snd (n_fill_node ieee acc rem fract per)).
Proof.
  induction fract as [|f fract IH]; intros per m acc rem Hm Hb Ha Hr Hf Hp.
  - cbn [n_fill_node fst snd length Z.of_nat]. rewrite Z.add_0_r. split; [exact Ha|]. split; [reflexivity|constructor].
  - destruct per as [|p per].
    { cbn [n_fill_node fst snd]. split; [|split; [reflexivity|exact Hf]]. eapply within_le; [|exact Ha]. apply IZR_le. lia. }
    inversion Hf as [|? ? Hf1 Hf2]; subst. inversion Hp as [|? ? Hp1 Hp2]; subst. cbn [length] in *.
    replace (m + Z.of_nat (S (length fract)))%Z with (m + 1 + Z.of_nat (length fract))%Z by lia.
    assert (Up : forall x, within (IZR (m + 1)) x -> within (IZR (m + 1 + Z.of_nat (length fract))) x) by (intros x; apply within_le; apply IZR_le; lia).
    cbn [n_fill_node]. destruct (n_eq ieee f (a_ofZ ieee 0)).
    + destruct (IH per m acc rem Hm ltac:(lia) Ha Hr Hf2 Hp2) as (A & B & C). destruct (n_fill_node ieee acc rem fract per) as [r fs]. cbn [fst snd length] in *.
      split; [eapply within_le; [|exact A]; apply IZR_le; lia|]. split; [now rewrite B|]. constructor; assumption.
    + destruct (a_le ieee (a_mul ieee f p) rem) eqn:El.
      * assert (Ha' : within (IZR (m + 1)) (a_add ieee acc f)) by (apply within_add; auto; lia).
        destruct (n_eq ieee (a_sub ieee rem (a_mul ieee f p)) (a_ofZ ieee 0)).
        { cbn [fst snd length]. split; [now apply Up|]. split; [reflexivity|]. constructor; [apply within_zero; lra|exact Hf2]. }
        assert (Hr' : within big (a_sub ieee rem (a_mul ieee f p))).
        { destruct Hf1 as (bf1 & <- & Ff & Lf). destruct Hp1 as (bp & <- & Fp & Lp). destruct Hr as (br & <- & Fr & Lr).
          cbn [a_mul ieee] in *. rewrite (mul_equiv 53 1024 SetupFacts.Hp SetupFacts.Hm) in *.
          destruct (mul_spec bf1 bp Ff Fp) as (Fl & _).
          { apply Rle_trans with (2 := big_900). destruct Ff as (_ & Pf), Fp as (_ & Pp). nra. }
          cbn [a_sub ieee]. rewrite sub_equiv. rewrite le_double in El by assumption. revert El. case Rle_bool_spec; [intros K _|discriminate].
          destruct (sub_double br (Bmult mode_NE bf1 bp) Fr Fl K) as (F & L); [pose proof big_900; lra|].
          exists (Bminus mode_NE br (Bmult mode_NE bf1 bp)). split; [reflexivity|]. split; [exact F|lra]. }
        destruct (IH per (m + 1)%Z (a_add ieee acc f) _ ltac:(lia) ltac:(lia) Ha' Hr' Hf2 Hp2) as (A & B & C).
        destruct (n_fill_node ieee (a_add ieee acc f) (a_sub ieee rem (a_mul ieee f p)) fract per) as [r fs]. cbn [fst snd length] in *.
        split; [exact A|]. split; [now rewrite B|]. constructor; [apply within_zero; lra|exact C].
      * cbn [fst snd length].
        assert (K : within 1 (a_div ieee rem p) /\ within 1 (a_sub ieee f (a_div ieee rem p))).
        { destruct Hf1 as (bf1 & <- & Ff & Lf). destruct Hp1 as (bp & <- & Fp & Lp). destruct Hr as (br & <- & Fr & Lr).
          cbn [a_mul ieee] in *. rewrite (mul_equiv 53 1024 SetupFacts.Hp SetupFacts.Hm) in *.
          destruct (mul_spec bf1 bp Ff Fp) as (Fl & El').
          { apply Rle_trans with (2 := big_900). destruct Ff as (_ & Pf), Fp as (_ & Pp). nra. }
          rewrite le_double in El by assumption. revert El. case Rle_bool_spec; [discriminate|]. intros K _. rewrite El' in K.
          assert (K2 : (B2R br <= B2R bf1 * B2R bp)%R).
          { apply Rnot_lt_le. intros X. apply (Rlt_irrefl (B2R br)). eapply Rlt_le_trans; [exact K|].
            rewrite <- (round_generic radix2 fexp ZnearestE (B2R br)) at 1 by apply generic_format_B2R. apply SetupFacts.mono. lra. }
          assert (P0 : (0 < B2R bp)%R).
          { destruct Fp as (_ & Pp). destruct Pp as [Pp|Pp]; [exact Pp|]. exfalso. rewrite <- Pp, Rmult_0_r in K. rewrite round_0 in K by typeclasses eauto.
            destruct Fr as (_ & Pr). lra. }
          assert (Q : (B2R br / B2R bp <= B2R bf1)%R).
          { apply Rmult_le_reg_r with (1 := P0). unfold Rdiv. rewrite Rmult_assoc, Rinv_l by lra. lra. }
          cbn [a_div a_sub ieee]. rewrite (div_equiv 53 1024 SetupFacts.Hp SetupFacts.Hm).
          pose proof big_one as B1. pose proof big_900 as B9.
          destruct (div_double br bp Fr Fp P0) as (Fq & Eq); [lra|].
          assert (Q2 : (B2R (Bdiv mode_NE br bp) <= B2R bf1)%R).
          { rewrite Eq. rewrite <- (round_generic radix2 fexp ZnearestE (B2R bf1)) by apply generic_format_B2R. now apply SetupFacts.mono. }
          split; [exists (Bdiv mode_NE br bp); split; [reflexivity|]; split; [exact Fq|lra]|].
          rewrite sub_equiv. destruct (sub_double bf1 (Bdiv mode_NE br bp) Ff Fq Q2) as (F & L); [lra|].
          exists (Bminus mode_NE bf1 (Bdiv mode_NE br bp)). split; [reflexivity|]. split; [exact F|lra]. }
        destruct K as (K1 & K2). split; [apply Up; apply within_add; auto; lia|]. split; [reflexivity|]. constructor; assumption.
Qed.

Lemma fill_nodes_ok n : forall fract per target, (Z.of_nat (length fract) <= 2 ^ 53)%Z -> within big target -> Forall (within 1) fract -> Forall (within big) per ->
  length (fst (n_fill_nodes ieee n target fract per)) = n /\
  Forall (within (IZR (Z.of_nat (length fract)))) (fst (n_fill_nodes ieee n target fract per)) /\
  length (snd (n_fill_nodes ieee n target fract per)) = length fract /\ Forall (within 1) (snd (n_fill_nodes ieee n target fract per)).
Proof.
  induction n as [|n IH]; intros fract per target Hb Ht Hf Hp; [cbn; auto|]. cbn [n_fill_nodes].
  destruct (fill_node_ok fract per 0%Z (a_ofZ ieee 0) target ltac:(lia) ltac:(lia) ltac:(apply within_zero; lra) Ht Hf Hp) as (A & B & C).
  destruct (n_fill_node ieee (a_ofZ ieee 0) target fract per) as [r fract1]. cbn [fst snd] in A, B, C.
  destruct (IH fract1 per target ltac:(lia) Ht C Hp) as (D & E & F & G). destruct (n_fill_nodes ieee n target fract1 per) as [rs fract2]. cbn [fst snd length] in *.
  rewrite B in *. rewrite Z.add_0_l in A. split; [now rewrite D|]. split; [constructor; assumption|]. split; assumption.
Qed.

(** Loads per item *)
Lemma per_item_ok weights : forall loads, Forall (fun w => (0 <= w <= 2 ^ 53)%Z) weights -> Forall speed_ok loads -> Forall (within big) (n_per_item ieee weights loads).
Proof.
  induction weights as [|w weights IH]; intros [|l loads] Hw Hl; cbn [n_per_item]; try constructor. inversion Hw as [|? ? Hw1 Hw2]; subst. inversion Hl as [|? ? Hl1 Hl2]; subst.
  apply Forall_app. split; [|now apply IH]. destruct (Z.eqb_spec w 0) as [|Hz]; [constructor|]. apply Forall_forall. intros x Hx. apply repeat_spec in Hx. subst x.
  destruct (speed_double l Hl1) as (b & <- & Fb & Vb). rewrite ofZ_equiv. cbn [a_div ieee]. rewrite (div_equiv 53 1024 SetupFacts.Hp SetupFacts.Hm).
  destruct (of_int_spec 53 1024 SetupFacts.Hp SetupFacts.Hm w Hw1) as (Fw & Ew).
  assert (W1 : (1 <= B2R (of_int w))%R) by (rewrite Ew; apply IZR_le; lia).
  assert (Ub : (0 <= B2R b <= bpow radix2 400)%R). { split; [apply Fb|]. destruct Vb as [->|Vb]; [apply bpow_ge_0|lra]. }
  assert (Q : (B2R b / B2R (of_int w) <= bpow radix2 400)%R).
  { apply Rle_trans with (B2R b / 1)%R; [|lra]. unfold Rdiv. apply Rmult_le_compat_l; [lra|]. apply Rinv_le_contravar; lra. }
  destruct (div_double b (of_int w) Fb Fw) as (F & E); [lra|apply Rle_trans with (1 := Q); apply bpow_le; lia|].
  exists (Bdiv mode_NE b (of_int w)). split; [reflexivity|]. split; [exact F|]. rewrite E. apply rnd_le; [lia|]. apply Rle_trans with (1 := Q). apply bpow_le. lia.
Qed.

Lemma int_div a n : (0 <= a <= 2 ^ 53)%Z -> (1 <= n <= 2 ^ 53)%Z -> within (IZR a) (a_div ieee (a_ofZ ieee a) (a_ofZ ieee n)).
Proof.
  intros Ha Hn. rewrite !ofZ_equiv. cbn [a_div ieee]. rewrite (div_equiv 53 1024 SetupFacts.Hp SetupFacts.Hm).
  destruct (of_int_spec 53 1024 SetupFacts.Hp SetupFacts.Hm a Ha) as (Fa & Ea). destruct (of_int_spec 53 1024 SetupFacts.Hp SetupFacts.Hm n ltac:(lia)) as (Fn & En).
  assert (A0 : (0 <= IZR a)%R) by (apply IZR_le; lia). assert (N1 : (1 <= IZR n)%R) by (apply IZR_le; lia).
  assert (Q : (IZR a / IZR n <= IZR a)%R). { apply Rle_trans with (IZR a / 1)%R; [|lra]. unfold Rdiv. apply Rmult_le_compat_l; [lra|]. apply Rinv_le_contravar; lra. }
  destruct (div_double (of_int a) (of_int n) Fa Fn) as (F & E); [lra|rewrite Ea, En; pose proof (int_900 a ltac:(lia)); lra|].
  exists (Bdiv mode_NE (of_int a) (of_int n)). split; [reflexivity|]. split; [exact F|]. rewrite E, Ea, En. now apply rnd_below.
Qed.

Lemma target_ok loads n : (1 <= n)%nat -> length loads = n -> (Z.of_nat n <= 2 ^ 53)%Z -> Forall speed_ok loads ->
  within big (a_div ieee (n_sum ieee loads) (a_ofZ ieee (Z.of_nat n))).
Proof.
  intros Hn Ln Hb Hl. destruct (speeds_double loads Hl) as (bs & <- & F). rewrite map_length in Ln. unfold n_sum. rewrite zero_double. change (a_add ieee) with (SFadd 53 1024). rewrite bsum_equiv.
  destruct (sum_ok bs (B754_zero false) 0%Z fine_zero F ltac:(lia) ltac:(lia)) as (Fs & _ & Us & _); [cbn; lra|]. rewrite Z.add_0_l, Ln in Us. set (s := bsum bs (B754_zero false)) in *.
  rewrite ofZ_equiv. cbn [a_div ieee]. rewrite (div_equiv 53 1024 SetupFacts.Hp SetupFacts.Hm).
  destruct (of_int_spec 53 1024 SetupFacts.Hp SetupFacts.Hm (Z.of_nat n) ltac:(lia)) as (Fn & En).
  assert (N1 : (1 <= B2R (of_int (Z.of_nat n)))%R) by (rewrite En; apply IZR_le; lia).
  assert (Us' : (0 <= B2R s <= big)%R).
  { split; [apply Fs|]. apply Rle_trans with (1 := Us). apply Rle_trans with (bpow radix2 53 * bpow radix2 400)%R; [|rewrite <- bpow_plus; apply bpow_le; lia].
    apply Rmult_le_compat_r; [apply bpow_ge_0|]. rewrite <- IZR_Zpower by lia. now apply IZR_le. }
  assert (Q : (B2R s / B2R (of_int (Z.of_nat n)) <= big)%R).
  { apply Rle_trans with (B2R s / 1)%R; [|lra]. unfold Rdiv. apply Rmult_le_compat_l; [lra|]. apply Rinv_le_contravar; lra. }
  destruct (div_double s (of_int (Z.of_nat n)) Fs Fn) as (F' & E); [lra|pose proof big_900; lra|].
  exists (Bdiv mode_NE s (of_int (Z.of_nat n))). split; [reflexivity|]. split; [exact F'|]. rewrite E. apply rnd_le; [lia|exact Q].
Qed.

Lemma optimal_ok weights loads : weights <> [] -> length loads = length weights -> (Z.of_nat (length weights) <= 2 ^ 50)%Z -> Forall (fun w => (0 <= w)%Z) weights ->
  (0 <= zsum weights <= 2 ^ 50)%Z -> Forall (fun w => (w <= 2 ^ 53)%Z) weights -> Forall speed_ok loads ->
  exists opt, n_expected_optimal ieee weights loads = Some opt /\ length opt = length weights /\ Forall (within (IZR (zsum weights))) opt.
Proof.
  intros Hne Ll Hn Hw HT Hw' Hl. unfold n_expected_optimal.
  pose proof (target_ok loads (length weights)) as Ht. destruct (length weights) as [|n] eqn:En; [destruct weights; [congruence|discriminate]|].
  specialize (Ht ltac:(lia) Ll ltac:(lia) Hl). destruct (n_eq ieee _ _).
  - eexists. split; [reflexivity|]. split; [apply repeat_length|]. apply Forall_forall. intros x Hx. apply repeat_spec in Hx. subst x. apply int_div; lia.
  - set (target := a_div ieee _ _) in *. set (fract := repeat (a_ofZ ieee 1) (Z.to_nat (zsum weights))).
    assert (Lf : length fract = Z.to_nat (zsum weights)) by apply repeat_length.
    destruct (fill_nodes_ok n fract (n_per_item ieee weights loads) target) as (A & B & C & D).
    { rewrite Lf. lia. }
    { exact Ht. }
    { apply Forall_forall. intros x Hx. apply repeat_spec in Hx. subst x. apply (within_int 1). lia. }
    { apply per_item_ok; [|exact Hl]. apply Forall_forall. intros w Hin. rewrite Forall_forall in Hw, Hw'. specialize (Hw w Hin). specialize (Hw' w Hin). lia. }
    destruct (n_fill_nodes ieee n target fract (n_per_item ieee weights loads)) as [rs fract']. cbn [fst snd] in *. rewrite Lf, Z2Nat.id in B by lia.
    eexists. split; [reflexivity|]. split; [rewrite app_length; cbn [length]; lia|]. apply Forall_app. split; [exact B|]. constructor; [|constructor].
    pose proof (within_sum fract' 0%Z (a_ofZ ieee 0) ltac:(lia)) as S. rewrite Z.add_0_l, C, Lf, Z2Nat.id in S by lia.
    specialize (S ltac:(lia) ltac:(apply within_zero; lra) D). unfold n_sum. change (zsum weights) with (0 + zsum weights)%Z. apply within_add; [lia|lia|lia|apply within_zero; lra|exact S].
Qed.

Lemma combo_ok weight T : (0 <= T <= 2 ^ 50)%Z -> within 1 weight -> forall old new, Forall (fun w => (0 <= w <= T)%Z) old -> Forall (within (IZR T)) new -> length new = length old ->
  length (n_linear_combo ieee weight old new) = length old /\ Forall (within (IZR (T + T))) (n_linear_combo ieee weight old new).
Proof.
  intros HT Hw. induction old as [|o old IH]; intros [|x new] Ho Hx L; try discriminate; [split; [reflexivity|constructor]|]. inversion Ho; subst. inversion Hx; subst.
  destruct (IH new) as (A & B); auto. cbn [n_linear_combo length]. split; [now rewrite A|]. constructor; [|exact B].
  apply within_add; try lia.
  - replace T with (T * 1)%Z by lia. apply within_mul; try lia; auto.
  - replace T with (T * 1)%Z by lia. apply within_mul; try lia; [|now apply within_sub_one].
    eapply within_le; [|apply within_int; lia]. apply IZR_le. lia.
Qed.

Lemma trunc_ok hi x : within hi x -> exists t, a_trunc ieee x = Some t /\ (0 <= t)%Z.
Proof. intros (b & <- & F & _). exists (Zfloor (B2R b)). split; [now apply trunc_spec|]. apply Zfloor_lub. apply F. Qed.

Lemma equalize_ok hi loads : forall balance, Forall (within hi) loads ->
  exists l, n_equalize ieee balance loads = Some l /\ length l = length loads /\ Forall (fun x => (0 <= x)%Z) l.
Proof.
  induction loads as [|x loads IH]; intros balance F; [exists []; split; [reflexivity|]; split; [reflexivity|constructor]|].
  inversion F as [|? ? Fx F']; subst. destruct (trunc_ok hi x Fx) as (t & Et & Pt). cbn [n_equalize]. rewrite Et. cbn [obind].
  destruct loads as [|y loads].
  - eexists. split; [reflexivity|]. split; [reflexivity|]. constructor; [|constructor]. destruct (a_lt ieee _ _); lia.
  - destruct (a_lt ieee _ balance).
    + destruct (IH (a_sub ieee balance (a_sub ieee (a_ofZ ieee 1) (n_frac ieee x t))) F') as (l & -> & L & P). eexists. split; [reflexivity|].
      split; [cbn [length] in *; now rewrite L|]. constructor; [lia|exact P].
    + destruct (IH (a_add ieee balance (n_frac ieee x t)) F') as (l & -> & L & P). eexists. split; [reflexivity|].
      split; [cbn [length] in *; now rewrite L|]. constructor; [lia|exact P].
Qed.

Lemma ooze_defined weight weights loads : within 1 weight -> weights <> [] -> length loads = length weights -> (Z.of_nat (length weights) <= 2 ^ 50)%Z ->
  Forall (fun w => (0 <= w <= zsum weights)%Z) weights -> (0 <= zsum weights <= 2 ^ 50)%Z -> Forall speed_ok loads ->
  (exists l, ooze_balance_in ieee weight weights loads = OozeWeights l /\ length l = length weights /\ Forall (fun x => (0 <= x)%Z) l /\ zsum l = zsum weights) \/
  ooze_balance_in ieee weight weights loads = OozeLogicError.
Proof.
  intros Hw Hne Ll Hn HW HT Hl.
  destruct (optimal_ok weights loads Hne Ll Hn) as (opt & E & Lo & Fo); auto.
  { eapply Forall_impl; [|exact HW]. cbn. lia. }
  { eapply Forall_impl; [|exact HW]. cbn. lia. }
  destruct (combo_ok weight (zsum weights) HT Hw weights opt HW Fo Lo) as (Lc & Fc).
  destruct (equalize_ok _ _ (a_ofZ ieee 0) Fc) as (l & El & Le & Pe).
  unfold ooze_balance_in. rewrite E, El. destruct (Z.eqb_spec (zsum weights) (zsum l)) as [X|X]; [left|right; reflexivity].
  exists l. split; [reflexivity|]. split; [congruence|]. split; [exact Pe|now symmetry].
Qed.

Lemma unit_within x : valid_binary 53 1024 x = true -> SFleb (a_div ieee (a_ofZ ieee 0) (a_ofZ ieee 1)) x = true ->
  SFleb x (a_div ieee (a_ofZ ieee 1) (a_ofZ ieee 1)) = true -> within 1 x.
Proof.
  intros V L U. destruct (of_int_spec 53 1024 SetupFacts.Hp SetupFacts.Hm 1) as ((F1 & _) & E1); [lia|].
  assert (F : is_finite (SF2B x V) = true).
  { rewrite is_finite_SF2B. destruct x as [s|[]| |s m e]; try reflexivity; vm_compute in L, U; discriminate. }
  exists (SF2B x V). split; [apply B2SF_SF2B|].
  assert (K0 : Bleb (B754_zero false) (SF2B x V) = true) by (unfold Bleb; rewrite B2SF_SF2B; exact L).
  assert (K1 : Bleb (SF2B x V) (of_int 1) = true) by (unfold Bleb; rewrite B2SF_SF2B; exact U).
  rewrite Bleb_correct in K0 by (try exact F; reflexivity). rewrite Bleb_correct in K1 by (try exact F; exact F1). rewrite E1 in K1.
  revert K0 K1. case Rle_bool_spec; [intros K0 _|discriminate]. case Rle_bool_spec; [intros K1 _|discriminate].
  split; [split; [exact F|exact K0]|exact K1].
Qed.
End Double.
