(** Initial weights in double precision. *)
From Coq Require Import ZArith Reals Floats.SpecFloat Lia Lra Psatz List.
From Flocq Require Import Core.Core IEEE754.BinarySingleNaN Calc.Round Relative.
From Verif Require Import ParamModel FloatFacts RegionOpsModel SetupModel SetupSpec.
Import ListNotations.

Section Double.
Notation bf := (binary_float 53 1024).
Notation fexp := (SpecFloat.fexp 53 1024).
Notation rnd := (round radix2 fexp ZnearestE).
Local Instance Hp : Prec_gt_0 53 := eq_refl.
Local Instance Hm : Prec_lt_emax 53 1024 := eq_refl.
Local Existing Instance valid.
Notation fine := (fine 53 1024).

Lemma add_equiv (x y : bf) : SFadd 53 1024 (B2SF x) (B2SF y) = B2SF (Bplus mode_NE x y).
Proof.
  case x as [sx|sx| |sx mx ex Bx]; case y as [sy|sy| |sy my ey By]; try reflexivity.
  - cbn. now destruct (Bool.eqb sx sy).
  - cbn. now destruct (Bool.eqb sx sy).
  - cbn [B2SF SFadd Bplus]. apply (normalize_equiv 53 1024 Hp Hm).
Qed.

Lemma mono x y : (x <= y -> rnd x <= rnd y)%R.
Proof. apply (rnd_mono 53 1024 Hp). Qed.

Lemma format_scaled n e : (0 <= n <= 2 ^ 53)%Z -> (0 <= e)%Z -> generic_format radix2 fexp (IZR n * bpow radix2 e).
Proof.
  intros Hn He. destruct (Z.eq_dec n 0) as [->|Hz]; [rewrite Rmult_0_l; apply generic_format_0|].
  destruct (Z.eq_dec n (2 ^ 53)) as [->|H2].
  - change (2 ^ 53)%Z with (Zpower radix2 53). rewrite IZR_Zpower by lia. rewrite <- bpow_plus. apply generic_format_bpow. unfold fexp, SpecFloat.fexp, emin. lia.
  - replace (IZR n * bpow radix2 e)%R with (F2R (Float radix2 n e)) by reflexivity. apply generic_format_F2R. intros _.
    rewrite cexp_fexp with (ex := (mag radix2 (F2R (Float radix2 n e)))%Z).
    2: { destruct (mag radix2 (F2R (Float radix2 n e))) as [k Hk]. cbn. apply Hk. apply F2R_neq_0. exact Hz. }
    rewrite mag_F2R by exact Hz. assert (M : (mag radix2 (IZR n) <= 53)%Z).
    { apply mag_le_Zpower; [exact Hz|]. change (Zpower radix2 53) with (2 ^ 53)%Z. rewrite Z.abs_eq by lia. lia. }
    unfold fexp, SpecFloat.fexp, emin. lia.
Qed.

Lemma rnd_scaled n e : (0 <= n <= 2 ^ 53)%Z -> (0 <= e)%Z -> rnd (IZR n * bpow radix2 e) = (IZR n * bpow radix2 e)%R.
Proof. intros Hn He. apply round_generic; [typeclasses eauto|now apply format_scaled]. Qed.

Lemma rnd_pos x : (0 <= x -> 0 <= rnd x)%R.
Proof. intros H. rewrite <- (round_0 radix2 fexp ZnearestE). now apply mono. Qed.

(** Results below 2^900 don't overflow. *)
Lemma no_overflow x : (0 <= x <= bpow radix2 900)%R -> (Rabs (rnd x) < bpow radix2 1024)%R.
Proof.
  intros H. rewrite Rabs_pos_eq by (apply rnd_pos; lra). apply Rle_lt_trans with (bpow radix2 900); [|apply bpow_lt; lia].
  replace (bpow radix2 900) with (rnd (bpow radix2 900)); [apply mono; lra|].
  apply round_generic; [typeclasses eauto|]. apply generic_format_bpow. unfold fexp, SpecFloat.fexp, emin. lia.
Qed.

Lemma add_spec (x y : bf) : fine x -> fine y -> (B2R x + B2R y <= bpow radix2 900)%R ->
  fine (Bplus mode_NE x y) /\ B2R (Bplus mode_NE x y) = rnd (B2R x + B2R y).
Proof.
  intros (Fx & Px) (Fy & Py) H. pose proof (Bplus_correct 53 1024 Hp Hm mode_NE x y Fx Fy) as C. cbn [round_mode] in C.
  rewrite Rlt_bool_true in C by (apply no_overflow; lra). destruct C as (A & B & _). unfold FloatFacts.fine. rewrite A, B. split; [split; [reflexivity|]|reflexivity].
  apply rnd_pos. lra.
Qed.

Lemma mul_spec (x y : bf) : fine x -> fine y -> (B2R x * B2R y <= bpow radix2 900)%R ->
  fine (Bmult mode_NE x y) /\ B2R (Bmult mode_NE x y) = rnd (B2R x * B2R y).
Proof.
  intros (Fx & Px) (Fy & Py) H. pose proof (Bmult_correct 53 1024 Hp Hm mode_NE x y) as C. cbn [round_mode] in C.
  assert (P : (0 <= B2R x * B2R y)%R) by now apply Rmult_le_pos. rewrite Rlt_bool_true in C by (apply no_overflow; lra).
  destruct C as (A & B & _). unfold FloatFacts.fine. rewrite A, B, Fx, Fy. repeat split. now apply rnd_pos.
Qed.

(** ** Speeds *)

Lemma pow2_valid : valid_binary 53 1024 (pow2 (-400)) = true /\ valid_binary 53 1024 (pow2 400) = true.
Proof. split; reflexivity. Qed.

Lemma pow2_value e (H : valid_binary 53 1024 (pow2 e) = true) : B2R (SF2B (pow2 e) H) = bpow radix2 e.
Proof.
  rewrite B2R_SF2B. unfold pow2, SF2R, F2R. cbn [cond_Zopp Fnum Fexp]. change 4503599627370496%positive with (Z.to_pos (Zpower radix2 52)).
  change (Z.pos (Z.to_pos (Zpower radix2 52))) with (Zpower radix2 52). rewrite IZR_Zpower by lia. rewrite <- bpow_plus. f_equal. lia.
Qed.

Definition value_ok (x : R) : Prop := x = 0%R \/ (bpow radix2 (-400) <= x <= bpow radix2 400)%R.

Lemma running_double x : running x -> exists b : bf, B2SF b = x /\ fine b /\ (bpow radix2 (-400) <= B2R b <= bpow radix2 400)%R.
Proof.
  intros (V & L & U). exists (SF2B x V). destruct pow2_valid as [V1 V2]. split; [apply B2SF_SF2B|].
  assert (F : is_finite (SF2B x V) = true).
  { rewrite is_finite_SF2B. destruct x as [s|[]| |s m e]; try reflexivity; cbn in L, U; discriminate. }
  assert (L' : (bpow radix2 (-400) <= B2R (SF2B x V))%R).
  { rewrite <- (pow2_value (-400) V1).
    assert (K : Bleb (SF2B (pow2 (-400)) V1) (SF2B x V) = true) by (unfold Bleb; rewrite !B2SF_SF2B; exact L).
    rewrite Bleb_correct in K by (try exact F; reflexivity). revert K. case Rle_bool_spec; [auto|discriminate]. }
  assert (U' : (B2R (SF2B x V) <= bpow radix2 400)%R).
  { rewrite <- (pow2_value 400 V2).
    assert (K : Bleb (SF2B x V) (SF2B (pow2 400) V2) = true) by (unfold Bleb; rewrite !B2SF_SF2B; exact U).
    rewrite Bleb_correct in K by (try exact F; reflexivity). revert K. case Rle_bool_spec; [auto|discriminate]. }
  split; [|split; assumption]. split; [exact F|]. pose proof (bpow_gt_0 radix2 (-400)). lra.
Qed.

Lemma speed_double x : speed_ok x -> exists b : bf, B2SF b = x /\ fine b /\ value_ok (B2R b).
Proof.
  intros [->|H].
  - exists (B754_zero false). split; [reflexivity|]. split; [|left; reflexivity]. split; [reflexivity|cbn; lra].
  - destruct (running_double x H) as (b & E & F & B). exists b. split; [exact E|]. split; [exact F|]. now right.
Qed.

Definition bsum (bs : list bf) (s : bf) : bf := fold_left (fun a b => Bplus mode_NE a b) bs s.

Lemma bsum_equiv bs : forall s, fold_left (SFadd 53 1024) (map B2SF bs) (B2SF s) = B2SF (bsum bs s).
Proof. induction bs as [|b bs IH]; intros s; [reflexivity|]. cbn [map fold_left bsum]. rewrite add_equiv. apply IH. Qed.

Lemma bpow400 : (0 < bpow radix2 400)%R.
Proof. apply bpow_gt_0. Qed.

Lemma sum_step (s b : bf) m : fine s -> fine b -> value_ok (B2R b) -> (0 <= m)%Z -> (m + 1 <= 2 ^ 53)%Z -> (B2R s <= IZR m * bpow radix2 400)%R ->
  fine (Bplus mode_NE s b) /\ (B2R s <= B2R (Bplus mode_NE s b))%R /\ (B2R b <= B2R (Bplus mode_NE s b))%R /\
  (B2R (Bplus mode_NE s b) <= IZR (m + 1) * bpow radix2 400)%R.
Proof.
  intros Fs Fb Vb Hm0 Hm Us. assert (Ub : (B2R b <= bpow radix2 400)%R) by (destruct Vb as [->|Vb]; [pose proof bpow400; lra|lra]).
  assert (Us' : (B2R s + B2R b <= IZR (m + 1) * bpow radix2 400)%R) by (rewrite plus_IZR; lra).
  destruct (add_spec s b Fs Fb) as (F & E).
  { eapply Rle_trans; [exact Us'|]. apply Rle_trans with (bpow radix2 53 * bpow radix2 400)%R.
    - apply Rmult_le_compat_r; [left; apply bpow400|]. rewrite <- IZR_Zpower by lia. apply IZR_le. exact Hm.
    - rewrite <- bpow_plus. apply bpow_le. lia. }
  split; [exact F|]. rewrite E. destruct Fs as (Fs & Ps), Fb as (Fb & Pb). split; [|split].
  - rewrite <- (round_generic radix2 fexp ZnearestE (B2R s)) at 1 by apply generic_format_B2R. apply mono. lra.
  - rewrite <- (round_generic radix2 fexp ZnearestE (B2R b)) at 1 by apply generic_format_B2R. apply mono. lra.
  - rewrite <- (rnd_scaled (m + 1) 400) by lia. apply mono. exact Us'.
Qed.

Lemma sum_ok bs : forall (s : bf) m, fine s -> Forall (fun b => fine b /\ value_ok (B2R b)) bs -> (0 <= m)%Z -> (m + Z.of_nat (length bs) <= 2 ^ 53)%Z ->
  (B2R s <= IZR m * bpow radix2 400)%R ->
  fine (bsum bs s) /\ (B2R s <= B2R (bsum bs s))%R /\ (B2R (bsum bs s) <= IZR (m + Z.of_nat (length bs)) * bpow radix2 400)%R /\
  forall b, In b bs -> (B2R b <= B2R (bsum bs s))%R.
Proof.
  induction bs as [|b bs IH]; intros s m Fs Fb Hm0 Hm Us.
  - cbn [bsum fold_left length Z.of_nat]. rewrite Z.add_0_r. split; [exact Fs|]. split; [lra|]. split; [exact Us|]. intros b [].
  - inversion Fb as [|? ? (Fb1 & Vb1) Fb2]; subst. cbn [length] in *.
    destruct (sum_step s b m Fs Fb1 Vb1 Hm0 ltac:(lia) Us) as (F1 & L1 & L2 & U1).
    destruct (IH (Bplus mode_NE s b) (m + 1)%Z F1 Fb2 ltac:(lia) ltac:(lia) U1) as (F & L & U & K).
    cbn [bsum fold_left]. fold (bsum bs (Bplus mode_NE s b)). split; [exact F|]. split; [lra|]. split.
    + replace (m + Z.of_nat (S (length bs)))%Z with (m + 1 + Z.of_nat (length bs))%Z by lia. exact U.
    + intros c [<-|Hc]; [lra|now apply K].
Qed.

(** ** Positions *)

Section Positions.
Context (items : Z) (t : bf) (Hi : (0 <= items < 2 ^ 52)%Z) (Ft : fine t).
Context (Lt : (bpow radix2 (-400) <= B2R t)%R) (Ut : (B2R t <= bpow radix2 453)%R).

Let quot (p : R) : R := rnd (rnd (IZR items * p) / B2R t).
Definition position (p : R) : Z := Zfloor (quot p).

Lemma t_pos : (0 < B2R t)%R.
Proof. pose proof (bpow_gt_0 radix2 (-400)). lra. Qed.

Lemma items_le : (0 <= IZR items <= bpow radix2 52)%R.
Proof. rewrite <- IZR_Zpower by lia. split; apply IZR_le; [lia|]. change (Zpower radix2 52) with (2 ^ 52)%Z. lia. Qed.

Lemma product_le p : (0 <= p <= B2R t)%R -> (0 <= IZR items * p <= bpow radix2 505)%R.
Proof.
  intros Hp. pose proof items_le as I. split; [apply Rmult_le_pos; lra|].
  replace (bpow radix2 505) with (bpow radix2 52 * bpow radix2 453)%R by (rewrite <- bpow_plus; reflexivity).
  apply Rmult_le_compat; lra.
Qed.

(** Rounding adds less than half an item. *)
Lemma quot_le p : (0 <= p <= B2R t)%R -> (rnd (IZR items * p) / B2R t <= IZR items + / 2)%R.
Proof.
  intros Hp. pose proof t_pos as T. pose proof items_le as I.
  assert (K : (rnd (IZR items * p) <= (IZR items + / 2) * B2R t)%R).
  { apply Rle_trans with (rnd (IZR items * B2R t)); [apply mono; apply Rmult_le_compat_l; lra|].
    destruct (Z.eq_dec items 0) as [->|Hz].
    - rewrite Rmult_0_l, round_0 by typeclasses eauto. lra.
    - assert (I1 : (1 <= IZR items)%R) by (apply IZR_le; lia).
      assert (Hx : (bpow radix2 (3 - 1024 - 53 + 53 - 1) <= Rabs (IZR items * B2R t))%R).
      { rewrite Rabs_pos_eq by (apply Rmult_le_pos; lra). apply Rle_trans with (bpow radix2 (-400)); [apply bpow_le; lia|].
        apply Rle_trans with (B2R t); [exact Lt|]. rewrite <- (Rmult_1_l (B2R t)) at 1. apply Rmult_le_compat_r; lra. }
      pose proof (relative_error_N_FLT radix2 (3 - 1024 - 53) 53 eq_refl (fun n => negb (Z.even n)) _ Hx) as R.
      change (FLT_exp (3 - 1024 - 53) 53) with fexp in R. fold ZnearestE in R. rewrite (Rabs_pos_eq (IZR items * B2R t)) in R by (apply Rmult_le_pos; lra).
      apply Rabs_le_inv in R. destruct R as [_ R].
      assert (Hb : (/ 2 * bpow radix2 (- (53) + 1) * (IZR items * B2R t) <= / 2 * B2R t)%R).
      { rewrite Rmult_assoc. apply Rmult_le_compat_l; [lra|]. rewrite <- Rmult_assoc. rewrite <- (Rmult_1_l (B2R t)) at 2. apply Rmult_le_compat_r; [lra|].
        apply Rle_trans with (bpow radix2 (- (53) + 1) * bpow radix2 52)%R; [apply Rmult_le_compat_l; [apply bpow_ge_0|lra]|].
        rewrite <- bpow_plus. right. reflexivity. }
      lra. }
  apply Rmult_le_reg_r with (B2R t); [exact T|]. unfold Rdiv. rewrite Rmult_assoc, Rinv_l, Rmult_1_r by lra. exact K.
Qed.

Lemma half_format : generic_format radix2 fexp (IZR items + / 2).
Proof.
  replace (IZR items + / 2)%R with (F2R (Float radix2 (2 * items + 1) (-1))).
  2: { unfold F2R. cbn [Fnum Fexp]. rewrite plus_IZR, mult_IZR. simpl. lra. }
  apply generic_format_F2R. intros _.
  assert (Hz : (2 * items + 1 <> 0)%Z) by lia.
  unfold cexp. rewrite mag_F2R by exact Hz.
  assert (M : (mag radix2 (IZR (2 * items + 1)) <= 53)%Z).
  { apply mag_le_Zpower; [exact Hz|]. change (Zpower radix2 53) with (2 ^ 53)%Z. rewrite Z.abs_eq by lia. lia. }
  unfold fexp, SpecFloat.fexp, emin. lia.
Qed.

Lemma quot_bounds p : (0 <= p <= B2R t)%R -> (0 <= quot p <= IZR items + / 2)%R.
Proof.
  intros Hp. pose proof t_pos as T. split.
  - apply rnd_pos. apply Rmult_le_pos; [apply rnd_pos, product_le; exact Hp|]. left. now apply Rinv_0_lt_compat.
  - unfold quot. rewrite <- (round_generic radix2 fexp ZnearestE (IZR items + / 2)) by apply half_format. apply mono. now apply quot_le.
Qed.

Lemma position_bounds p : (0 <= p <= B2R t)%R -> (0 <= position p <= items)%Z.
Proof.
  intros Hp. pose proof (quot_bounds p Hp) as (L & U). unfold position. split; [now apply Zfloor_lub|].
  assert (K : (Zfloor (quot p) < items + 1)%Z); [|lia]. apply lt_IZR. rewrite plus_IZR. pose proof (Zfloor_lb (quot p)). lra.
Qed.

Lemma position_mono p q : (0 <= p)%R -> (p <= q)%R -> (position p <= position q)%Z.
Proof.
  intros Hp Hq. pose proof t_pos as T. pose proof items_le as I. unfold position. apply Zfloor_le. apply mono. unfold Rdiv.
  apply Rmult_le_compat_r; [left; now apply Rinv_0_lt_compat|]. apply mono. apply Rmult_le_compat_l; lra.
Qed.

(** What the machine computes. *)
Lemma position_spec (p : bf) : fine p -> (B2R p <= B2R t)%R ->
  a_trunc ieee (a_div ieee (a_mul ieee (a_ofZ ieee items) (B2SF p)) (B2SF t)) = Some (position (B2R p)).
Proof.
  intros Fp Up. pose proof Fp as (_ & Pp). cbn [a_trunc a_div a_mul a_ofZ ieee].
  rewrite (normalize_equiv 53 1024 Hp Hm). fold (of_int 53 1024 Hp Hm items).
  destruct (of_int_spec 53 1024 Hp Hm items ltac:(lia)) as (Fi & Ei). rewrite (mul_equiv 53 1024 Hp Hm).
  destruct (mul_spec (of_int 53 1024 Hp Hm items) p Fi Fp) as (Fm & Em).
  { rewrite Ei. eapply Rle_trans; [apply product_le; lra|apply bpow_le; lia]. }
  rewrite (div_equiv 53 1024 Hp Hm). rewrite Ei in Em.
  destruct (div_spec 53 1024 Hp Hm _ t Fm Ft t_pos) as (Fd & Ed).
  { rewrite Em. eapply Rle_trans; [apply quot_le; lra|]. apply Rle_trans with (IZR (items + 1)); [rewrite plus_IZR; lra|]. apply IZR_le. lia. }
  rewrite (trunc_spec 53 1024) by exact Fd. rewrite Ed, Em. reflexivity.
Qed.

Lemma loop_spec bs : forall (p : bf) m last, fine p -> Forall (fun b => fine b /\ value_ok (B2R b)) bs -> (0 <= m)%Z -> (m + Z.of_nat (length bs) <= 2 ^ 53)%Z ->
  (B2R p <= IZR m * bpow radix2 400)%R -> t = bsum bs p -> (0 <= last <= position (B2R p))%Z -> bs <> [] ->
  exists l, weights_loop ieee items (B2SF t) last (B2SF p) (map B2SF bs) = Some l /\ length l = length bs /\ Forall (fun x => (0 <= x)%Z) l /\
    fold_right Z.add 0%Z l = (items - last)%Z.
Proof.
  induction bs as [|b bs IH]; intros p m last Fp Fb Hm0 Hm Up Et Hl Hne; [contradiction|].
  assert (Pt : (0 <= B2R p <= B2R t)%R). { split; [apply Fp|]. rewrite Et. destruct (sum_ok (b :: bs) p m Fp Fb Hm0 Hm Up) as (_ & K & _). exact K. }
  pose proof (position_bounds _ Pt) as PB. destruct bs as [|b' bs].
  - exists [(items - last)%Z]. split; [reflexivity|]. split; [reflexivity|]. split; [constructor; [lia|constructor]|cbn; lia].
  - inversion Fb as [|? ? (Fb1 & Vb1) Fb2]; subst x l. cbn [length] in Hm.
    destruct (sum_step p b m Fp Fb1 Vb1 Hm0 ltac:(lia) Up) as (F1 & L1 & _ & U1).
    assert (Et' : t = bsum (b' :: bs) (Bplus mode_NE p b)) by exact Et.
    assert (Pt' : (B2R (Bplus mode_NE p b) <= B2R t)%R).
    { rewrite Et'. destruct (sum_ok (b' :: bs) _ (m + 1)%Z F1 Fb2 ltac:(lia) ltac:(cbn [length]; lia) U1) as (_ & K & _). exact K. }
    change (map B2SF (b :: b' :: bs)) with (B2SF b :: map B2SF (b' :: bs)). cbn [weights_loop].
    change (map B2SF (b' :: bs)) with (B2SF b' :: map B2SF bs) at 1. cbv iota beta.
    change (a_add ieee (B2SF p) (B2SF b)) with (SFadd 53 1024 (B2SF p) (B2SF b)). rewrite add_equiv. rewrite position_spec by assumption. cbn [obind].
    pose proof (position_mono (B2R p) (B2R (Bplus mode_NE p b)) (proj1 Pt) L1) as M.
    pose proof (position_bounds (B2R (Bplus mode_NE p b)) (conj (Rle_trans _ _ _ (proj1 Pt) L1) Pt')) as PB'.
    destruct (IH (Bplus mode_NE p b) (m + 1)%Z (position (B2R (Bplus mode_NE p b))) F1 Fb2 ltac:(lia) ltac:(cbn [length]; lia) U1 Et' ltac:(lia) ltac:(discriminate))
      as (l & E & Ll & Fl & Sl).
    change (B2SF b' :: map B2SF bs) with (map B2SF (b' :: bs)). rewrite E. cbn [option_map]. eexists. split; [reflexivity|].
    split; [cbn [length]; now rewrite Ll|]. split; [constructor; [lia|exact Fl]|]. cbn [fold_right]. rewrite Sl. lia.
Qed.

End Positions.

Lemma speeds_double l : Forall speed_ok l -> exists bs : list bf, map B2SF bs = l /\ Forall (fun b => fine b /\ value_ok (B2R b)) bs.
Proof.
  induction 1 as [|x l Hx _ (bs & E & F)]; [exists []; split; [reflexivity|constructor]|].
  destruct (speed_double x Hx) as (b & Eb & Fb). exists (b :: bs). split; [cbn [map]; now rewrite Eb, E|]. constructor; assumption.
Qed.

Lemma start_weights_ok items speeds : (0 <= items < 2 ^ 52)%Z -> (Z.of_nat (length speeds) <= 2 ^ 53)%Z -> Forall speed_ok speeds -> Exists running speeds ->
  exists l, start_weights ieee items speeds = Some l /\ length l = length speeds /\ Forall (fun x => (0 <= x)%Z) l /\ fold_right Z.add 0%Z l = items.
Proof.
  intros Hi Hn Hs Hr. destruct (speeds_double speeds Hs) as (bs & E & F).
  assert (Hne : bs <> []) by (intros ->; cbn in E; subst speeds; inversion Hr).
  assert (Lb : length bs = length speeds) by (rewrite <- E; now rewrite map_length).
  set (z := B754_zero false : bf). assert (Fz : fine z) by (split; [reflexivity|cbn; lra]).
  assert (Uz : (B2R z <= IZR 0 * bpow radix2 400)%R) by (cbn; lra).
  destruct (sum_ok bs z 0%Z Fz F ltac:(lia) ltac:(lia) Uz) as (Ft & Kz & Ut & Kt).
  assert (Lt : (bpow radix2 (-400) <= B2R (bsum bs z))%R).
  { apply Exists_exists in Hr. destruct Hr as (x & Hx & Rx). rewrite <- E in Hx. apply in_map_iff in Hx. destruct Hx as (b & Eb & Hb).
    destruct (running_double x Rx) as (b' & Eb' & _ & (Lb' & _)). assert (b = b') by (apply B2SF_inj; congruence). subst b'.
    eapply Rle_trans; [exact Lb'|now apply Kt]. }
  assert (Ut' : (B2R (bsum bs z) <= bpow radix2 453)%R).
  { eapply Rle_trans; [exact Ut|]. replace (bpow radix2 453) with (bpow radix2 53 * bpow radix2 400)%R by (rewrite <- bpow_plus; reflexivity).
    apply Rmult_le_compat_r; [apply bpow_ge_0|]. rewrite <- IZR_Zpower by lia. apply IZR_le. change (Zpower radix2 53) with (2 ^ 53)%Z. lia. }
  destruct (loop_spec items (bsum bs z) Hi Ft Lt Ut' bs z 0%Z 0%Z Fz F ltac:(lia) ltac:(lia) Uz eq_refl) as (l & El & Ll & Fl & Sl); [|exact Hne|].
  - split; [lia|]. apply position_bounds; auto. split; [apply Fz|exact Kz].
  - exists l. split; [|split; [congruence|split; [exact Fl|lia]]]. unfold start_weights. destruct speeds as [|s speeds]; [inversion Hr|].
    rewrite <- E. unfold speed_sum. change (a_ofZ ieee 0) with (B2SF z). change (a_add ieee) with (SFadd 53 1024). rewrite bsum_equiv. exact El.
Qed.

End Double.
