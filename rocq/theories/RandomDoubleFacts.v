(** RandomBalancer in double precision. *)
From Coq Require Import ZArith Reals Floats.SpecFloat Lia Lra Psatz List.
From Flocq Require Import Core.Core IEEE754.BinarySingleNaN Calc.Round Relative.
From Verif Require Import ParamModel FloatFacts RegionOpsModel PartitionManagerModel SetupFacts BisectDoubleFacts BalancerModel RandomDoubleModel.
Import ListNotations.

Section Double.
Notation bf := (binary_float 53 1024).
Notation fexp := (SpecFloat.fexp 53 1024).
Notation rnd := (round radix2 fexp ZnearestE).
Local Existing Instance SetupFacts.Hp.
Local Existing Instance SetupFacts.Hm.
Local Existing Instance valid.
Notation fine := (fine 53 1024).
Notation of_int := (of_int 53 1024 SetupFacts.Hp SetupFacts.Hm).

Lemma ofZ_equiv z : a_ofZ ieee z = B2SF (of_int z).
Proof. apply (normalize_equiv 53 1024). Qed.

Lemma rnd_pow e : (-1000 <= e <= 1000)%Z -> rnd (bpow radix2 e) = bpow radix2 e.
Proof. intros He. apply round_generic; [typeclasses eauto|]. apply generic_format_bpow. unfold fexp, SpecFloat.fexp, emin. lia. Qed.

Lemma rnd_ge e x : (-1000 <= e <= 1000)%Z -> (bpow radix2 e <= x)%R -> (bpow radix2 e <= rnd x)%R.
Proof. intros He Hx. rewrite <- (rnd_pow e He). now apply SetupFacts.mono. Qed.

Lemma rnd_le e x : (-1000 <= e <= 1000)%Z -> (x <= bpow radix2 e)%R -> (rnd x <= bpow radix2 e)%R.
Proof. intros He Hx. rewrite <- (rnd_pow e He). now apply SetupFacts.mono. Qed.

Lemma div_double (x y : bf) : fine x -> fine y -> (0 < B2R y)%R -> (B2R x / B2R y <= bpow radix2 900)%R ->
  fine (Bdiv mode_NE x y) /\ B2R (Bdiv mode_NE x y) = rnd (B2R x / B2R y).
Proof.
  intros (Fx & Px) (Fy & _) Py H. pose proof (Bdiv_correct 53 1024 SetupFacts.Hp SetupFacts.Hm mode_NE x y ltac:(lra)) as C. cbn [round_mode] in C.
  assert (P : (0 <= B2R x / B2R y)%R). { unfold Rdiv. apply Rmult_le_pos; [exact Px|]. left. now apply Rinv_0_lt_compat. }
  rewrite Rlt_bool_true in C by (apply no_overflow; lra).
  destruct C as (A & B & _). unfold FloatFacts.fine. rewrite A, B, Fx. repeat split. now apply SetupFacts.rnd_pos.
Qed.

(** ** Numbers drawn *)

Definition drawn (x : R) : Prop := x = 0%R \/ (bpow radix2 (-33) <= x <= 1)%R.

Lemma pow0 : bpow radix2 0 = 1%R.
Proof. reflexivity. Qed.

Lemma small_pow : (0 < bpow radix2 (-33) <= 1)%R.
Proof. split; [apply bpow_gt_0|]. rewrite <- pow0. apply bpow_le. lia. Qed.

Lemma drawn_pos x : drawn x -> (0 <= x <= 1)%R.
Proof. pose proof small_pow. intros [->|H']; lra. Qed.

Lemma gen_spec raw : exists b : bf, B2SF b = gen_double ieee raw /\ fine b /\ drawn (B2R b) /\ (gen_unsigned raw uint_max <> 0%Z -> (bpow radix2 (-33) <= B2R b)%R).
Proof.
  unfold gen_double. set (v := gen_unsigned raw uint_max). assert (Hv : (0 <= v < uint_max)%Z) by (apply Z.mod_pos_bound; reflexivity). clearbody v. unfold uint_max in *.
  rewrite !ofZ_equiv. cbn [a_div a_mul ieee].
  destruct (of_int_spec 53 1024 SetupFacts.Hp SetupFacts.Hm v) as (Fv & Ev); [lia|].
  destruct (of_int_spec 53 1024 SetupFacts.Hp SetupFacts.Hm (2 ^ 32 - 1)) as (Fm & Em); [lia|].
  destruct (of_int_spec 53 1024 SetupFacts.Hp SetupFacts.Hm 1) as (F1 & E1); [lia|].
  assert (M : (0 < IZR (2 ^ 32 - 1))%R) by (apply IZR_lt; reflexivity).
  assert (Vl : (0 <= IZR v <= IZR (2 ^ 32 - 1))%R) by (split; apply IZR_le; lia).
  assert (Q1 : (IZR v / IZR (2 ^ 32 - 1) <= 1)%R).
  { apply Rmult_le_reg_r with (1 := M). unfold Rdiv. rewrite Rmult_assoc, Rinv_l by lra. lra. }
  destruct (div_double (of_int v) (of_int (2 ^ 32 - 1)) Fv Fm) as (Fq & Eq).
  { now rewrite Em. }
  { rewrite Ev, Em. apply Rle_trans with (1 := Q1). rewrite <- pow0. apply bpow_le. lia. }
  rewrite Ev, Em in Eq.
  assert (Q2 : (rnd (IZR v / IZR (2 ^ 32 - 1)) <= 1)%R) by (rewrite <- pow0; apply rnd_le; [lia|exact Q1]).
  destruct (mul_spec (Bdiv mode_NE (of_int v) (of_int (2 ^ 32 - 1))) (of_int 1) Fq F1) as (Fb & Eb).
  { rewrite Eq, E1, Rmult_1_r. apply Rle_trans with (1 := Q2). rewrite <- pow0. apply bpow_le. lia. }
  rewrite Eq, E1, Rmult_1_r in Eb.
  exists (Bmult mode_NE (Bdiv mode_NE (of_int v) (of_int (2 ^ 32 - 1))) (of_int 1)).
  split; [now rewrite (div_equiv 53 1024 SetupFacts.Hp SetupFacts.Hm), (mul_equiv 53 1024 SetupFacts.Hp SetupFacts.Hm)|]. split; [exact Fb|]. rewrite Eb.
  assert (Hnz : v <> 0%Z -> (bpow radix2 (-33) <= rnd (rnd (IZR v / IZR (2 ^ 32 - 1))))%R).
  { intros Hz. apply rnd_ge; [lia|]. apply rnd_ge; [lia|]. apply Rmult_le_reg_r with (1 := M). unfold Rdiv. rewrite Rmult_assoc, Rinv_l, Rmult_1_r by lra.
    apply Rle_trans with (bpow radix2 (-33) * bpow radix2 33)%R.
    - apply Rmult_le_compat_l; [apply bpow_ge_0|]. rewrite <- IZR_Zpower by lia. apply IZR_le. now apply Z.leb_le.
    - rewrite <- bpow_plus. change (bpow radix2 (-33 + 33)) with 1%R. apply IZR_le. lia. }
  split; [|exact Hnz]. destruct (Z.eq_dec v 0) as [->|Hz].
  - left. unfold Rdiv. rewrite Rmult_0_l, round_0 by typeclasses eauto. apply round_0. typeclasses eauto.
  - right. split; [auto|]. rewrite <- pow0. apply rnd_le; [lia|]. exact Q2.
Qed.

Definition rsum (l : list R) : R := fold_right Rplus 0%R l.

(** ** Their sum *)

Notation u := BisectDoubleFacts.u.

Lemma u_val : u = (/ IZR (2 ^ 53))%R.
Proof. unfold BisectDoubleFacts.u. change (-53)%Z with (- (53))%Z. rewrite bpow_opp. rewrite <- IZR_Zpower by lia. reflexivity. Qed.

Lemma u_pos : (0 < u)%R.
Proof. apply bpow_gt_0. Qed.

Lemma count_u k : (0 <= k <= 2 ^ 30)%Z -> (0 <= IZR k * u <= / 1024)%R.
Proof.
  intros Hk. pose proof u_pos. assert (K : (0 <= IZR k <= IZR (2 ^ 30))%R) by (split; apply IZR_le; lia). split; [nra|].
  apply Rle_trans with (IZR (2 ^ 30) * u)%R; [apply Rmult_le_compat_r; lra|]. rewrite u_val.
  apply Rmult_le_reg_r with (IZR (2 ^ 53)); [apply IZR_lt; reflexivity|]. rewrite Rmult_assoc, Rinv_l, Rmult_1_r by (apply not_0_IZR; discriminate).
  change (/ 1024)%R with (/ IZR 1024)%R. apply Rmult_le_reg_l with (IZR 1024); [apply IZR_lt; reflexivity|].
  rewrite <- Rmult_assoc, Rinv_r, Rmult_1_l by (apply not_0_IZR; discriminate). rewrite <- mult_IZR. apply IZR_le. now apply Z.leb_le.
Qed.

(** [s] approximates [sigma], the exact sum of [k] numbers. *)
Definition close (k : Z) (sigma : R) (s : bf) : Prop :=
  fine s /\ (sigma = 0%R \/ bpow radix2 (-33) <= sigma)%R /\ (sigma <= IZR k)%R /\ ((1 - IZR k * u) * sigma <= B2R s <= (1 + 2 * (IZR k * u)) * sigma)%R.

Lemma close_step k sigma s (b : bf) : (0 <= k)%Z -> (k + 1 <= 2 ^ 30)%Z -> close k sigma s -> fine b -> drawn (B2R b) ->
  close (k + 1) (sigma + B2R b) (Bplus mode_NE s b).
Proof.
  intros Hk Hk' (Fs & Hs & Us & Bs) Fb Db. pose proof (drawn_pos _ Db) as Pb. pose proof small_pow as SP. pose proof u_pos as U0.
  pose proof (count_u k ltac:(lia)) as C. assert (C1 : (IZR (k + 1) * u = IZR k * u + u)%R) by (rewrite plus_IZR; ring).
  pose proof (count_u (k + 1) ltac:(lia)) as C'. rewrite C1 in C'. set (ku := (IZR k * u)%R) in *.
  assert (P : (0 <= sigma)%R) by (destruct Hs; lra).
  assert (Bb : ((1 - ku) * (sigma + B2R b) <= B2R s + B2R b <= (1 + 2 * ku) * (sigma + B2R b))%R) by (split; nra).
  assert (K30 : (IZR k <= IZR (2 ^ 30))%R) by (apply IZR_le; lia).
  destruct (add_spec s b Fs Fb) as (F & E).
  { apply Rle_trans with (bpow radix2 40); [|apply bpow_le; lia]. rewrite <- IZR_Zpower by lia.
    apply Rle_trans with (IZR (2 * (2 ^ 30 + 1))); [|apply IZR_le; now apply Z.leb_le]. rewrite mult_IZR, plus_IZR. nra. }
  split; [exact F|]. split.
  { destruct Hs as [->|Hs]; [rewrite Rplus_0_l; destruct Db as [->|]; [left; reflexivity|right; lra]|right; lra]. }
  split; [rewrite plus_IZR; lra|]. rewrite C1, E.
  destruct (relative (B2R s + B2R b)) as (e & Be & Ee).
  { assert (S34 : (bpow radix2 (-900) <= (1 - ku) * bpow radix2 (-33))%R).
    { apply Rle_trans with (bpow radix2 (-34)); [apply bpow_le; lia|]. change (-33)%Z with (-34 + 1)%Z. rewrite bpow_plus. change (bpow radix2 1) with 2%R.
      pose proof (bpow_gt_0 radix2 (-34)). nra. }
    destruct Hs as [Hs|Hs].
    - assert (s0 : B2R s = 0%R) by (rewrite Hs in Bs; lra). rewrite s0, Rplus_0_l. destruct Db as [->|Db]; [right; reflexivity|]. left.
      apply Rle_trans with (2 := proj1 Db). apply bpow_le. lia.
    - left. apply Rle_trans with (1 := S34). nra. }
  rewrite Ee. apply Rabs_le_inv in Be. set (t := (sigma + B2R b)%R) in *. set (x := (B2R s + B2R b)%R) in *.
  assert (Pt : (0 <= t)%R) by (unfold t; lra). assert (U1 : (u <= / 1024)%R) by lra.
  assert (X0 : (0 <= x)%R) by nra. split.
  - apply Rle_trans with (x * (1 - u))%R; [|apply Rmult_le_compat_l; lra].
    apply Rle_trans with ((1 - ku) * t * (1 - u))%R; [|apply Rmult_le_compat_r; lra]. assert (0 <= ku * u)%R by nra. nra.
  - apply Rle_trans with (x * (1 + u))%R; [apply Rmult_le_compat_l; lra|].
    apply Rle_trans with ((1 + 2 * ku) * t * (1 + u))%R; [apply Rmult_le_compat_r; lra|].
    assert (2 * (ku * u) <= u)%R by nra. nra.
Qed.

Lemma close_sum bs : forall k sigma (s : bf), (0 <= k)%Z -> (k + Z.of_nat (length bs) <= 2 ^ 30)%Z -> close k sigma s -> Forall (fun b => fine b /\ drawn (B2R b)) bs ->
  close (k + Z.of_nat (length bs)) (sigma + rsum (map B2R bs)) (bsum bs s).
Proof.
  induction bs as [|b bs IH]; intros k sigma s Hk Hk' C F.
  - cbn [length map rsum fold_right bsum fold_left Z.of_nat]. now rewrite Z.add_0_r, Rplus_0_r.
  - inversion F as [|? ? (Fb & Db) F']; subst. cbn [length] in *. pose proof (close_step k sigma s b Hk ltac:(lia) C Fb Db) as C1.
    specialize (IH (k + 1)%Z (sigma + B2R b)%R (Bplus mode_NE s b) ltac:(lia) ltac:(lia) C1 F').
    cbn [map rsum fold_right bsum fold_left]. fold (rsum (map B2R bs)). fold (bsum bs (Bplus mode_NE s b)).
    replace (k + Z.of_nat (S (length bs)))%Z with (k + 1 + Z.of_nat (length bs))%Z by lia. rewrite <- Rplus_assoc. exact IH.
Qed.

(** ** Shares *)

Section Share.
Context (total : Z) (s : bf) (Ht : (0 <= total <= 2 ^ 52)%Z) (Fs : fine s) (Ls : (bpow radix2 (-34) <= B2R s)%R) (Us : (B2R s <= bpow radix2 40)%R).

Lemma share_spec (b : bf) : fine b -> drawn (B2R b) ->
  exists y : R, a_trunc ieee (a_div ieee (a_mul ieee (B2SF b) (a_ofZ ieee total)) (B2SF s)) = Some (Zfloor y) /\
  (0 <= y)%R /\ ((1 - 2 * u) * (B2R b * IZR total / B2R s) <= y <= (1 + 3 * u) * (B2R b * IZR total / B2R s))%R.
Proof.
  intros Fb Db. pose proof (drawn_pos _ Db) as Pb. pose proof u_pos as U0. pose proof BisectDoubleFacts.u_small as US.
  assert (T : (0 <= IZR total <= bpow radix2 52)%R). { split; [apply IZR_le; lia|]. rewrite <- IZR_Zpower by lia. apply IZR_le. change (Zpower radix2 52) with (2 ^ 52)%Z. lia. }
  assert (Ps : (0 < B2R s)%R) by (pose proof (bpow_gt_0 radix2 (-34)); lra).
  destruct (of_int_spec 53 1024 SetupFacts.Hp SetupFacts.Hm total) as (Ft & Et); [lia|].
  rewrite ofZ_equiv. cbn [a_div a_mul a_trunc ieee]. rewrite (mul_equiv 53 1024 SetupFacts.Hp SetupFacts.Hm), (div_equiv 53 1024 SetupFacts.Hp SetupFacts.Hm).
  assert (B0 : (0 <= B2R b * IZR total <= bpow radix2 52)%R) by (split; nra).
  destruct (mul_spec b (of_int total) Fb Ft) as (Fp & Ep).
  { rewrite Et. apply Rle_trans with (1 := proj2 B0). apply bpow_le. lia. }
  rewrite Et in Ep. set (p := Bmult mode_NE b (of_int total)) in *.
  assert (Pu : (0 <= B2R p <= bpow radix2 52)%R). { rewrite Ep. split; [apply SetupFacts.rnd_pos; lra|apply rnd_le; [lia|lra]]. }
  assert (Pl : (B2R b * IZR total = 0 \/ bpow radix2 (-33) <= B2R b * IZR total)%R).
  { destruct Db as [->|Db]; [left; ring|]. destruct (Z.eq_dec total 0) as [->|Hz]; [left; ring|right].
    assert (1 <= IZR total)%R by (apply IZR_le; lia). pose proof small_pow. nra. }
  assert (Is : (bpow radix2 (-40) <= / B2R s <= bpow radix2 34)%R).
  { split.
    - change (-40)%Z with (- (40))%Z. rewrite bpow_opp. apply Rinv_le_contravar; lra.
    - change 34%Z with (- (-34))%Z. rewrite bpow_opp. apply Rinv_le_contravar; [apply bpow_gt_0|lra]. }
  assert (Qu : (0 <= B2R p / B2R s <= bpow radix2 900)%R).
  { unfold Rdiv. pose proof (bpow_gt_0 radix2 (-40)). split; [apply Rmult_le_pos; lra|].
    apply Rle_trans with (bpow radix2 52 * bpow radix2 34)%R; [apply Rmult_le_compat; lra|]. rewrite <- bpow_plus. apply bpow_le. lia. }
  destruct (div_double p s Fp Fs Ps (proj2 Qu)) as (Fq & Eq).
  exists (B2R (Bdiv mode_NE p s)). split; [now apply trunc_spec|]. split; [apply Fq|]. rewrite Eq.
  destruct (relative (B2R b * IZR total)) as (e1 & B1 & E1).
  { destruct Pl as [->|Pl]; [right; reflexivity|left]. apply Rle_trans with (2 := Pl). apply bpow_le. lia. }
  destruct (relative (B2R p / B2R s)) as (e2 & B2 & E2).
  { destruct Pl as [Z0|Pl].
    - right. rewrite Ep, Z0, round_0 by typeclasses eauto. unfold Rdiv. ring.
    - left. apply (rnd_ge (-33)) in Pl; [|lia]. rewrite <- Ep in Pl. apply Rle_trans with (bpow radix2 (-33) * bpow radix2 (-40))%R.
      + rewrite <- bpow_plus. apply bpow_le. lia.
      + unfold Rdiv. apply Rmult_le_compat; try apply bpow_ge_0; lra. }
  rewrite E2, Ep, E1. apply Rabs_le_inv in B1, B2.
  replace (B2R b * IZR total * (1 + e1) / B2R s * (1 + e2))%R with ((1 + e1) * (1 + e2) * (B2R b * IZR total / B2R s))%R by (unfold Rdiv; ring).
  assert (R0 : (0 <= B2R b * IZR total / B2R s)%R). { unfold Rdiv. pose proof (bpow_gt_0 radix2 (-40)). apply Rmult_le_pos; lra. }
  split; apply Rmult_le_compat_r; try exact R0; nra.
Qed.

Lemma shares_spec bs : Forall (fun b => fine b /\ drawn (B2R b)) bs ->
  exists l : list Z, mapo (fun b => a_trunc ieee (a_div ieee (a_mul ieee b (a_ofZ ieee total)) (B2SF s))) (map B2SF bs) = Some l /\
  length l = length bs /\ Forall (fun x => (0 <= x)%Z) l /\
  ((1 - 2 * u) * (rsum (map B2R bs) * IZR total / B2R s) - IZR (Z.of_nat (length bs)) <= IZR (fold_right Z.add 0%Z l)
    <= (1 + 3 * u) * (rsum (map B2R bs) * IZR total / B2R s))%R.
Proof.
  induction 1 as [|b bs (Fb & Db) F IH].
  - exists []. split; [reflexivity|]. split; [reflexivity|]. split; [constructor|]. cbn. unfold Rdiv. lra.
  - destruct IH as (l & E & L & P & B). destruct (share_spec b Fb Db) as (y & Ey & Py & By).
    exists (Zfloor y :: l). cbn [map mapo]. rewrite Ey. cbn [obind]. rewrite E. cbn [obind]. split; [reflexivity|]. split; [cbn [length]; now rewrite L|].
    split; [constructor; [apply Zfloor_lub; exact Py|exact P]|]. cbn [fold_right rsum map length]. fold (rsum (map B2R bs)).
    rewrite plus_IZR. pose proof (Zfloor_lb y) as Y1. pose proof (Zfloor_ub y) as Y2. rewrite Nat2Z.inj_succ. unfold Z.succ. rewrite plus_IZR.
    replace ((B2R b + rsum (map B2R bs)) * IZR total / B2R s)%R with (B2R b * IZR total / B2R s + rsum (map B2R bs) * IZR total / B2R s)%R by (unfold Rdiv; ring).
    set (r1 := (B2R b * IZR total / B2R s)%R) in *. set (r2 := (rsum (map B2R bs) * IZR total / B2R s)%R) in *. lra.
Qed.
End Share.

Lemma base_double raw n : exists bs : list bf, map B2SF bs = random_base ieee raw n /\ Forall (fun b => fine b /\ drawn (B2R b)) bs /\
  ((exists i, (i < n)%nat /\ gen_unsigned (raw i) uint_max <> 0%Z) -> (bpow radix2 (-33) <= rsum (map B2R bs))%R).
Proof.
  unfold random_base. assert (K : forall l, exists bs : list bf, map B2SF bs = map (fun i => gen_double ieee (raw i)) l /\ Forall (fun b => fine b /\ drawn (B2R b)) bs /\
    (0 <= rsum (map B2R bs))%R /\ ((exists i, In i l /\ gen_unsigned (raw i) uint_max <> 0%Z) -> (bpow radix2 (-33) <= rsum (map B2R bs))%R)).
  { induction l as [|i l (bs & E & F & P & X)].
    - exists []. split; [reflexivity|]. split; [constructor|]. split; [cbn; lra|]. intros (i & [] & _).
    - destruct (gen_spec (raw i)) as (b & Eb & Fb & Db & Xb). pose proof (drawn_pos _ Db) as Pb. exists (b :: bs). cbn [map rsum fold_right]. fold (rsum (map B2R bs)).
      split; [now rewrite Eb, E|]. split; [constructor; auto|]. split; [lra|]. intros (j & [<-|Hj] & Hz).
      + specialize (Xb Hz). lra.
      + assert (bpow radix2 (-33) <= rsum (map B2R bs))%R by (apply X; eauto). lra. }
  destruct (K (seq 0 n)) as (bs & E & F & _ & X). exists bs. split; [exact E|]. split; [exact F|]. intros (i & Hi & Hz). apply X. exists i. split; [|exact Hz].
  apply in_seq. lia.
Qed.

Lemma margins (n total : Z) (sigma s : R) : (0 <= n <= 2 ^ 30)%Z -> (0 <= total)%Z -> (total * (2 * n + 3) <= 2 ^ 52)%Z -> (0 < sigma)%R ->
  ((1 - IZR n * u) * sigma <= s <= (1 + 2 * (IZR n * u)) * sigma)%R ->
  (IZR total - 1 < (1 - 2 * u) * (sigma * IZR total / s))%R /\ ((1 + 3 * u) * (sigma * IZR total / s) < IZR total + 1)%R.
Proof.
  intros Hn Ht Hb Hs (B1 & B2). pose proof (count_u n Hn) as C. pose proof u_pos as U0. pose proof BisectDoubleFacts.u_small as US.
  assert (M : (IZR total * (2 * IZR n + 3) * u <= / 2)%R).
  { rewrite u_val. assert (M1 : (IZR total * (2 * IZR n + 3) <= IZR (2 ^ 52))%R) by (rewrite <- (mult_IZR 2 n), <- plus_IZR, <- mult_IZR; now apply IZR_le).
    apply Rmult_le_reg_r with (IZR (2 ^ 53)); [apply IZR_lt; reflexivity|]. rewrite Rmult_assoc, Rinv_l, Rmult_1_r by (apply not_0_IZR; discriminate).
    apply Rle_trans with (1 := M1). replace (IZR (2 ^ 53)) with (2 * IZR (2 ^ 52))%R by (rewrite <- mult_IZR; reflexivity). lra. }
  assert (T0 : (0 <= IZR total)%R) by (apply IZR_le; lia). assert (N0 : (0 <= IZR n)%R) by (apply IZR_le; lia).
  set (t := IZR total) in *. set (nn := IZR n) in *. set (nu := (nn * u)%R) in *.
  assert (M2 : (2 * (t * nu) + 3 * (t * u) <= / 2)%R) by (unfold nu; lra).
  assert (TU : (0 <= t * u)%R) by nra. assert (TN : (0 <= t * nu)%R) by nra.
  assert (S0 : (0 < s)%R) by nra. clearbody t. clear M.
  replace (sigma * t / s)%R with (t * (sigma / s))%R by (unfold Rdiv; ring). set (r := (sigma / s)%R).
  assert (R : (r * s = sigma)%R) by (unfold r; field; lra).
  assert (R0 : (0 < r)%R) by (unfold r, Rdiv; apply Rmult_lt_0_compat; [lra|now apply Rinv_0_lt_compat]).
  assert (R1 : (r * (1 - nu) <= 1)%R).
  { apply Rmult_le_reg_r with (1 := Hs). replace (r * (1 - nu) * sigma)%R with (r * ((1 - nu) * sigma))%R by ring. rewrite Rmult_1_l. rewrite <- R at 2. apply Rmult_le_compat_l; lra. }
  assert (R2 : (1 <= r * (1 + 2 * nu))%R).
  { apply Rmult_le_reg_r with (1 := Hs). replace (r * (1 + 2 * nu) * sigma)%R with (r * ((1 + 2 * nu) * sigma))%R by ring. rewrite Rmult_1_l. rewrite <- R at 1. apply Rmult_le_compat_l; lra. }
  clearbody r nu. clear R B1 B2. split.
  - apply Rmult_lt_reg_r with (1 + 2 * nu)%R; [lra|].
    apply Rlt_le_trans with ((1 - 2 * u) * t)%R; [nra|]. replace ((1 - 2 * u) * (t * r) * (1 + 2 * nu))%R with ((1 - 2 * u) * t * (r * (1 + 2 * nu)))%R by ring.
    rewrite <- (Rmult_1_r ((1 - 2 * u) * t)) at 1. apply Rmult_le_compat_l; [nra|lra].
  - apply Rmult_lt_reg_r with (1 - nu)%R; [lra|].
    apply Rle_lt_trans with ((1 + 3 * u) * t)%R; [|nra]. replace ((1 + 3 * u) * (t * r) * (1 - nu))%R with ((1 + 3 * u) * t * (r * (1 - nu)))%R by ring.
    rewrite <- (Rmult_1_r ((1 + 3 * u) * t)) at 2. apply Rmult_le_compat_l; [nra|lra].
Qed.

Lemma scaled_fill_ok raw n total : (Z.of_nat n <= 2 ^ 30)%Z -> (0 <= total)%Z -> (total * (2 * Z.of_nat n + 3) <= 2 ^ 52)%Z ->
  (exists i, (i < n)%nat /\ gen_unsigned (raw i) uint_max <> 0%Z) ->
  exists l, scaled_fill ieee (random_base ieee raw n) total = Some l /\ length l = n /\ Forall (fun x => (0 <= x)%Z) l /\
  (0 <= total - fold_right Z.add 0%Z l <= Z.of_nat n)%Z.
Proof.
  intros Hn Ht Hb Hx. destruct (base_double raw n) as (bs & E & F & X). specialize (X Hx). rewrite <- E.
  assert (Ln : length bs = n) by (rewrite <- (map_length B2SF bs), E; unfold random_base; now rewrite map_length, seq_length).
  set (z := B754_zero false : bf). pose proof (bpow_gt_0 radix2 (-33)) as P33.
  assert (Cz : close 0 0 z). { split; [split; [reflexivity|cbn; lra]|]. split; [left; reflexivity|]. split; [lra|]. cbn [B2R z]. lra. }
  pose proof (close_sum bs 0%Z 0%R z ltac:(lia) ltac:(lia) Cz F) as C. rewrite Rplus_0_l, Z.add_0_l, Ln in C. destruct C as (Fs & _ & Un & B).
  pose proof (count_u (Z.of_nat n) ltac:(lia)) as Cu. set (sigma := rsum (map B2R bs)) in *. set (s := bsum bs z) in *.
  assert (Ls : (bpow radix2 (-34) <= B2R s)%R).
  { apply Rle_trans with (2 := proj1 B). apply Rle_trans with (/ 2 * sigma)%R; [|nra].
    change (-34)%Z with (-1 + -33)%Z. rewrite bpow_plus. change (bpow radix2 (-1)) with (/ 2)%R. apply Rmult_le_compat_l; lra. }
  assert (Us : (B2R s <= bpow radix2 40)%R).
  { apply Rle_trans with (1 := proj2 B). assert (N30 : (IZR (Z.of_nat n) <= IZR (2 ^ 30))%R) by now apply IZR_le.
    apply Rle_trans with (2 * IZR (2 ^ 30))%R; [nra|]. rewrite <- IZR_Zpower by lia. rewrite <- mult_IZR. apply IZR_le. now apply Z.leb_le. }
  assert (T52 : (0 <= total <= 2 ^ 52)%Z) by nia.
  destruct (shares_spec total s T52 Fs Ls Us bs F) as (l & El & Ll & Pl & Bl). fold sigma in Bl. rewrite Ln in *.
  destruct (margins (Z.of_nat n) total sigma (B2R s) ltac:(lia) Ht Hb ltac:(lra) B) as (M1 & M2).
  exists l. split.
  { unfold scaled_fill, random_sum. change (a_ofZ ieee 0) with (B2SF z). change (a_add ieee) with (SFadd 53 1024). rewrite bsum_equiv. exact El. }
  split; [exact Ll|]. split; [exact Pl|].
  assert (K1 : (fold_right Z.add 0%Z l < total + 1)%Z) by (apply lt_IZR; rewrite plus_IZR; lra).
  assert (K2 : (total - Z.of_nat n - 1 < fold_right Z.add 0%Z l)%Z) by (apply lt_IZR; rewrite !minus_IZR; lra).
  lia.
Qed.
End Double.
