(** Colors, palettes, images and PPM files: C163 to C173. *)
From Coq Require Import QArith Qround.
From Coq.Floats Require Import SpecFloat.
From Verif Require Import Base RegionSpec RegionModel RegionOpsModel CoordModel CoordSpec PatchModel GridModel GridSpec RegionStreaks CoordFacts AdapterModel ParamModel ParamFacts ImageModel ImageSpec ImageFacts ImagePalette.
From Coq Require Import Lqa Lia.
Import ListNotations.
Local Open Scope Z_scope.

(** ** C163: Colors *)

(** The components of a Color are the ones it was made of; characters count as unsigned. *)
Theorem C163_channels : forall r g b,
  (byte r -> byte g -> byte b ->
   let c := color_ints r g b in red c = r /\ green c = g /\ blue c = b /\ opaque c) /\
  (let c := color_chars r g b in red c = r mod 256 /\ green c = g mod 256 /\ blue c = b mod 256 /\ opaque c).
Proof.
  intros r g b. split; [apply color_channels|]. apply color_channels; apply Z.mod_pos_bound; lia.
Qed.
Print Assumptions C163_channels.

(** Comparing Colors is comparing components. *)
Theorem C163_equal : forall r g b r' g' b', byte r -> byte g -> byte b -> byte r' -> byte g' -> byte b' ->
  (color_ints r g b = color_ints r' g' b' <-> r = r' /\ g = g' /\ b = b').
Proof.
  intros r g b r' g' b' Hr Hg Hb Hr' Hg' Hb'. split; [|intros (-> & -> & ->); reflexivity]. intros E.
  destruct (color_channels r g b Hr Hg Hb) as (E1 & E2 & E3 & _). destruct (color_channels r' g' b' Hr' Hg' Hb') as (F1 & F2 & F3 & _).
  rewrite E in *. now rewrite <- E1, <- E2, <- E3.
Qed.
Print Assumptions C163_equal.

Example C163_example : red (color_ints 17 34 51) = 17 /\ green (color_ints 17 34 51) = 34 /\ blue (color_ints 17 34 51) = 51 /\
  red (color_chars (-1) 2 3) = 255 /\ color_ints 1 2 3 <> color_ints 1 3 2.
Proof. repeat split; vm_compute; congruence. Qed.

(** ** C164: components which don't fit *)

(** A component which is too large, or negative, changes other ones. *)
Theorem C164_overflow_refuted : (exists r g b, byte r /\ byte b /\ red (color_ints r g b) <> r) /\
  (exists r g b, byte r /\ byte g /\ green (color_ints r g b) <> g).
Proof. split; [exists 0, 256, 0|exists 0, 5, (-1)]; unfold byte; repeat split; try lia; vm_compute; discriminate. Qed.
Print Assumptions C164_overflow_refuted.

(** ** C165: Palette *)

Lemma q_lt a b : a_lt exact a b = true <-> (a < b)%Q.
Proof. cbn. rewrite negb_true_iff. rewrite <- Bool.not_true_iff_false, Qle_bool_iff. split; [apply Qnot_le_lt|apply Qlt_not_le]. Qed.

Lemma q_ge a b : a_lt exact a b = false <-> (b <= a)%Q.
Proof. cbn. rewrite negb_false_iff. apply Qle_bool_iff. Qed.

Lemma q_irrefl a : a_lt exact a a = false.
Proof. apply q_ge, Qle_refl. Qed.
Lemma q_trans a b c : a_lt exact a b = true -> a_lt exact b c = true -> a_lt exact a c = true.
Proof. rewrite !q_lt. apply Qlt_trans. Qed.
Lemma q_split a b c : a_lt exact a b = true -> a_lt exact a c = true \/ a_lt exact c b = true.
Proof. rewrite !q_lt. intros H. destruct (Qlt_le_dec a c) as [H1|H1]; [now left|right]. now apply Qle_lt_trans with a. Qed.

Lemma q_eqv a b : eqv exact a b <-> (a == b)%Q.
Proof. unfold eqv. rewrite !q_ge. split; [intros [H1 H2]; now apply Qle_antisym|]. intros E. rewrite E. split; apply Qle_refl. Qed.

Lemma z_split a b c : a_lt ints a b = true -> a_lt ints a c = true \/ a_lt ints c b = true.
Proof. cbn. lia. Qed.

Lemma z_eqv a b : eqv ints a b <-> a = b.
Proof. unfold eqv. cbn. lia. Qed.

Lemma assigned_ext {N} (R S : N -> N -> Prop) calls v c : (forall a b, R a b <-> S a b) -> assigned S calls v c -> assigned R calls v c.
Proof.
  intros H (l1 & k & l2 & E & Hk & Hn). exists l1, k, l2. split; [exact E|]. split; [now apply H|]. intros k' c' Hi Hr. apply (Hn k' c' Hi). now apply H.
Qed.

Lemma between_range a b v ca cb : (a <= v)%Q -> (v < b)%Q -> byte ca -> byte cb -> (0 <= between a b v ca cb /\ between a b v ca cb < 256)%Q.
Proof.
  intros Ha Hb Hca Hcb. unfold between, byte in *. assert (Hd : (0 < b - a)%Q) by lra.
  assert (H1 : (0 <= inject_Z ca)%Q) by (change 0%Q with (inject_Z 0); rewrite <- Zle_Qle; lia).
  assert (H2 : (0 <= inject_Z cb)%Q) by (change 0%Q with (inject_Z 0); rewrite <- Zle_Qle; lia).
  assert (H3 : (inject_Z ca <= 255)%Q) by (change 255%Q with (inject_Z 255); rewrite <- Zle_Qle; lia).
  assert (H4 : (inject_Z cb <= 255)%Q) by (change 255%Q with (inject_Z 255); rewrite <- Zle_Qle; lia).
  split; [apply Qle_shift_div_l; [exact Hd|]|apply Qlt_shift_div_r; [exact Hd|]]; nra.
Qed.

Lemma floor_down q : rounded_down (Qfloor q) q.
Proof. split; [apply Qfloor_le|apply Qlt_floor]. Qed.

Lemma floor_byte q : (0 <= q)%Q -> (q < 256)%Q -> byte (Qfloor q).
Proof.
  intros H1 H2. unfold byte. split.
  - change 0%Z with (Qfloor (inject_Z 0)). now apply Qfloor_resp_le.
  - rewrite Zlt_Qlt. apply Qle_lt_trans with q; [apply Qfloor_le|exact H2].
Qed.

Lemma mix_exact a b v k1 k2 ca cb : (k1 == a)%Q -> (k2 == b)%Q -> (a <= v)%Q -> (v < b)%Q -> byte ca -> byte cb ->
  exists z, a_trunc exact (mix exact ca cb (a_sub exact v k1) (a_sub exact (a_sub exact k2 k1) (a_sub exact v k1)) (a_sub exact k2 k1)) = Some z /\
    byte z /\ rounded_down z (between a b v ca cb).
Proof.
  intros E1 E2 Ha Hb Hca Hcb. destruct (between_range a b v ca cb Ha Hb Hca Hcb) as [R1 R2].
  unfold mix. cbn [exact a_trunc a_div a_add a_mul a_sub a_ofZ]. set (q := (_ / _)%Q).
  assert (Eq : (q == between a b v ca cb)%Q). { unfold q, between. rewrite E1, E2. field. intros E. lra. }
  exists (Qfloor q). rewrite qtrunc_nonneg by (rewrite Eq; exact R1). split; [reflexivity|]. split.
  - apply floor_byte; rewrite Eq; assumption.
  - unfold rounded_down. rewrite <- Eq. apply floor_down.
Qed.

(** A Palette returns the color of the smallest value for everything below, the
    one of the greatest value for everything from there on, and interpolates
    between adjacent values, rounding down. Without colors it throws. *)
Theorem C165_palette : forall calls v,
  let get := palette_get exact (palette_of exact calls) v in
  (calls = [] -> get = LogicError) /\
  (forall a c, assigned Qeq calls a c -> (v < a)%Q -> (forall k d, In (k, d) calls -> (a <= k)%Q) -> get = Looked (Some c)) /\
  (forall a c, assigned Qeq calls a c -> (a <= v)%Q -> (forall k d, In (k, d) calls -> (k <= a)%Q) -> get = Looked (Some c)) /\
  (forall a b ca cb, assigned Qeq calls a ca -> assigned Qeq calls b cb -> (a <= v)%Q -> (v < b)%Q ->
     (forall k d, In (k, d) calls -> (k <= a)%Q \/ (b <= k)%Q) ->
     exists c, get = Looked (Some c) /\ opaque c /\
       rounded_down (red c) (between a b v (red ca) (red cb)) /\
       rounded_down (green c) (between a b v (green ca) (green cb)) /\
       rounded_down (blue c) (between a b v (blue ca) (blue cb))).
Proof.
  intros calls v. cbn zeta. destruct (palette_cases exact q_irrefl q_trans q_split calls v) as (H1 & H2 & H3 & H4).
  split; [exact H1|]. split; [|split].
  - intros a c Ha Hv Hn. apply (H2 a c); [revert Ha; apply assigned_ext, q_eqv|now apply q_lt|]. intros k d Hi. apply q_ge. eauto.
  - intros a c Ha Hv Hn. apply (H3 a c); [revert Ha; apply assigned_ext, q_eqv|now apply q_ge|]. intros k d Hi. apply q_ge. eauto.
  - intros a b ca cb Ha Hb Hva Hvb Hn. destruct (H4 a b ca cb) as (k1 & k2 & Hk1 & Hk2 & E).
    { revert Ha. apply assigned_ext, q_eqv. } { revert Hb. apply assigned_ext, q_eqv. } { now apply q_ge. } { now apply q_lt. }
    { intros k d Hi Hk. apply q_lt in Hk. apply q_ge. destruct (Hn k d Hi) as [H|H]; [|exact H]. apply Qlt_not_le in Hk. contradiction. }
    apply q_eqv in Hk1, Hk2. destruct (channels_byte ca) as (B1 & B2 & B3). destruct (channels_byte cb) as (C1 & C2 & C3).
    cbn zeta in E. destruct (mix_exact a b v k1 k2 (red ca) (red cb) Hk1 Hk2 Hva Hvb B1 C1) as (r & Er & Br & Dr).
    destruct (mix_exact a b v k1 k2 (green ca) (green cb) Hk1 Hk2 Hva Hvb B2 C2) as (g & Eg & Bg & Dg).
    destruct (mix_exact a b v k1 k2 (blue ca) (blue cb) Hk1 Hk2 Hva Hvb B3 C3) as (l & El & Bl & Dl).
    unfold color_nums in E. rewrite Er, Eg, El in E. exists (color_ints r g l). split; [exact E|].
    destruct (color_channels r g l Br Bg Bl) as (-> & -> & -> & Ho). auto.
Qed.
Print Assumptions C165_palette.

Lemma mix_ints a b v ca cb : a <= v < b -> byte ca -> byte cb ->
  exists z, a_trunc ints (mix ints ca cb (a_sub ints v a) (a_sub ints (a_sub ints b a) (a_sub ints v a)) (a_sub ints b a)) = Some z /\
    byte z /\ rounded_down z (between (inject_Z a) (inject_Z b) (inject_Z v) ca cb).
Proof.
  intros Hv Hca Hcb. unfold mix. cbn [ints a_trunc a_div a_add a_mul a_sub a_ofZ]. eexists. split; [reflexivity|].
  replace (b - a - (v - a)) with (b - v) by lia. unfold byte in *. assert (Hn : 0 <= ca * (b - v) + cb * (v - a) < 256 * (b - a)) by nia.
  rewrite Z.quot_div_nonneg by lia. set (n := ca * (b - v) + cb * (v - a)) in *. assert (Hd : 0 < b - a) by lia.
  assert (En : (inject_Z n == inject_Z ca * (inject_Z b - inject_Z v) + inject_Z cb * (inject_Z v - inject_Z a))%Q).
  { unfold n. unfold Qminus. rewrite <- !inject_Z_opp, <- !inject_Z_plus, <- !inject_Z_mult, <- inject_Z_plus. apply Qeq_refl. }
  clearbody n. unfold rounded_down, between. rewrite <- En. assert (Ed : (inject_Z b - inject_Z a == inject_Z (b - a))%Q).
  { unfold Qminus, Z.sub. now rewrite inject_Z_plus, inject_Z_opp. }
  rewrite Ed. set (d := b - a) in *. clearbody d. clear Ed En.
  assert (Hq : 0 < d) by exact Hd. assert (Hq' : (0 < inject_Z d)%Q) by (change 0%Q with (inject_Z 0); rewrite <- Zlt_Qlt; exact Hd).
  pose proof (Z.div_mod n d ltac:(lia)) as Em. pose proof (Z.mod_pos_bound n d Hd) as Hm. set (z := n / d) in *. set (m := n mod d) in *. clearbody z m. split; [nia|].
  split.
  - apply Qle_shift_div_l; [exact Hq'|]. rewrite <- inject_Z_mult, <- Zle_Qle. nia.
  - apply Qlt_shift_div_r; [exact Hq'|]. rewrite <- inject_Z_mult, <- Zlt_Qlt. nia.
Qed.

(** The same for integers. *)
Theorem C165_integers : forall calls v,
  let get := palette_get ints (palette_of ints calls) v in
  (calls = [] -> get = LogicError) /\
  (forall a c, assigned eq calls a c -> v < a -> (forall k d, In (k, d) calls -> a <= k) -> get = Looked (Some c)) /\
  (forall a c, assigned eq calls a c -> a <= v -> (forall k d, In (k, d) calls -> k <= a) -> get = Looked (Some c)) /\
  (forall a b ca cb, assigned eq calls a ca -> assigned eq calls b cb -> a <= v < b ->
     (forall k d, In (k, d) calls -> k <= a \/ b <= k) ->
     exists c, get = Looked (Some c) /\ opaque c /\
       rounded_down (red c) (between (inject_Z a) (inject_Z b) (inject_Z v) (red ca) (red cb)) /\
       rounded_down (green c) (between (inject_Z a) (inject_Z b) (inject_Z v) (green ca) (green cb)) /\
       rounded_down (blue c) (between (inject_Z a) (inject_Z b) (inject_Z v) (blue ca) (blue cb))).
Proof.
  intros calls v. cbn zeta. destruct (palette_cases ints Z.ltb_irrefl ltac:(cbn; lia) z_split calls v) as (H1 & H2 & H3 & H4).
  split; [exact H1|]. split; [|split].
  - intros a c Ha Hv Hn. apply (H2 a c); [revert Ha; apply assigned_ext, z_eqv|now apply Z.ltb_lt|]. intros k d Hi. apply Z.ltb_ge. eauto.
  - intros a c Ha Hv Hn. apply (H3 a c); [revert Ha; apply assigned_ext, z_eqv|now apply Z.ltb_ge|]. intros k d Hi. apply Z.ltb_ge. eauto.
  - intros a b ca cb Ha Hb Hv Hn. destruct (H4 a b ca cb) as (k1 & k2 & Hk1 & Hk2 & E).
    { revert Ha. apply assigned_ext, z_eqv. } { revert Hb. apply assigned_ext, z_eqv. } { apply Z.ltb_ge; lia. } { apply Z.ltb_lt; lia. }
    { intros k d Hi Hk. apply Z.ltb_lt in Hk. apply Z.ltb_ge. destruct (Hn k d Hi); lia. }
    apply z_eqv in Hk1, Hk2. subst k1 k2. destruct (channels_byte ca) as (B1 & B2 & B3). destruct (channels_byte cb) as (C1 & C2 & C3).
    cbn zeta in E. destruct (mix_ints a b v (red ca) (red cb) Hv B1 C1) as (r & Er & Br & Dr).
    destruct (mix_ints a b v (green ca) (green cb) Hv B2 C2) as (g & Eg & Bg & Dg).
    destruct (mix_ints a b v (blue ca) (blue cb) Hv B3 C3) as (l & El & Bl & Dl).
    unfold color_nums in E. rewrite Er, Eg, El in E. exists (color_ints r g l). split; [exact E|].
    destruct (color_channels r g l Br Bg Bl) as (-> & -> & -> & Ho). auto.
Qed.
Print Assumptions C165_integers.

Example C165_example :
  let calls := [(3#1, color_ints 0 100 200); (1#1, color_ints 9 9 9); (1#1, color_ints 50 0 7); (6#1, white)]%Q in
  map (palette_get exact (palette_of exact calls)) [0; 1; 3#2; 3; 5; 6; 9]%Q =
  map (fun c => Looked (Some c)) [color_ints 50 0 7; color_ints 50 0 7; color_ints 37 25 55; color_ints 0 100 200; color_ints 170 203 236; white; white] /\
  assigned Qeq calls 1%Q (color_ints 50 0 7) /\
  palette_get ints (palette_of ints [(10, black); (0, color_ints 255 0 0)]) 4 = Looked (Some (color_ints 153 0 0)).
Proof.
  cbn zeta. split; [vm_compute; reflexivity|]. split; [|vm_compute; reflexivity].
  eexists [_; _], _, [_]. split; [reflexivity|]. split; [reflexivity|]. intros k c [E|[]]. injection E as <- <-. discriminate.
Qed.

(** ** C166: Palette with doubles *)

(** Doubles: the color returned for a value isn't the one which was assigned to it. *)
Definition tenth : spec_float := SFdiv 53 1024 (a_ofZ ieee 1) (a_ofZ ieee 10).

Theorem C166_doubles_refuted : exists a b ca cb, a_lt ieee a b = true /\ opaque ca /\ opaque cb /\
  assigned eq [(a, ca); (b, cb)] a ca /\
  exists c, palette_get ieee (palette_of ieee [(a, ca); (b, cb)]) a = Looked (Some c) /\ red c <> red ca.
Proof.
  exists (a_ofZ ieee 0), tenth, (color_ints 43 0 0), black. split; [vm_compute; reflexivity|]. split; [vm_compute; split; congruence|].
  split; [vm_compute; split; congruence|]. split.
  - exists [], (a_ofZ ieee 0), [(tenth, black)]. split; [reflexivity|]. split; [reflexivity|]. intros k c [E|[]] Ek. injection E as <- <-. vm_compute in Ek. discriminate.
  - eexists. split; [vm_compute; reflexivity|]. vm_compute. discriminate.
Qed.
Print Assumptions C166_doubles_refuted.

(** ** C167: QuickPalette *)

Lemma trunc_exact q p : (q == p)%Q -> (0 <= p)%Q -> (p < 256)%Q -> exists z, a_trunc exact q = Some z /\ byte z /\ rounded_down z p.
Proof.
  intros E H1 H2. exists (Qfloor q). cbn. rewrite qtrunc_nonneg by (rewrite E; exact H1). split; [reflexivity|]. split.
  - apply floor_byte; rewrite E; assumption.
  - unfold rounded_down. rewrite <- E. apply floor_down.
Qed.

Lemma color_exact qr qg qb pr pg pb : (qr == pr)%Q -> (qg == pg)%Q -> (qb == pb)%Q ->
  (0 <= pr < 256)%Q -> (0 <= pg < 256)%Q -> (0 <= pb < 256)%Q ->
  exists c, color_nums exact qr qg qb = Some c /\ opaque c /\ rounded_down (red c) pr /\ rounded_down (green c) pg /\ rounded_down (blue c) pb.
Proof.
  intros E1 E2 E3 H1 H2 H3. destruct (trunc_exact qr pr E1) as (r & Er & Br & Dr); [tauto|tauto|]. destruct (trunc_exact qg pg E2) as (g & Eg & Bg & Dg); [tauto|tauto|].
  destruct (trunc_exact qb pb E3) as (b & Eb & Bb & Db); [tauto|tauto|]. unfold color_nums. rewrite Er, Eg, Eb. eexists. split; [reflexivity|].
  destruct (color_channels r g b Br Bg Bb) as (-> & -> & -> & Ho). auto.
Qed.

Lemma clamp_low q : (q <= 0)%Q -> clamp01 q = 0%Q.
Proof. intros H. unfold clamp01. apply Qle_bool_iff in H. now rewrite H. Qed.
Lemma clamp_high q : (1 <= q)%Q -> clamp01 q = 1%Q.
Proof.
  intros H. unfold clamp01. destruct (Qle_bool q 0) eqn:E; [apply Qle_bool_iff in E; lra|]. apply Qle_bool_iff in H. now rewrite H.
Qed.
Lemma clamp_mid q : (0 <= q <= 1)%Q -> (clamp01 q == q)%Q.
Proof.
  intros [H1 H2]. unfold clamp01. destruct (Qle_bool q 0) eqn:E; [apply Qle_bool_iff in E; lra|]. destruct (Qle_bool 1 q) eqn:E2; [apply Qle_bool_iff in E2; lra|reflexivity].
Qed.

Lemma quarter_lt mn d t k : (0 < d)%Q -> (mn + t * d / 4 < mn + k * d / 4)%Q -> (t < k)%Q.
Proof.
  intros Hd H. destruct (Qlt_le_dec t k) as [|Hk]; [assumption|]. exfalso. assert (H1 : (k * d <= t * d)%Q) by (apply Qmult_le_compat_r; lra).
  unfold Qdiv in H. change (/ 4)%Q with (1 # 4)%Q in H. set (a := (t * d)%Q) in *. set (b := (k * d)%Q) in *. clearbody a b. lra.
Qed.

Lemma quarter_le mn d t k : (0 < d)%Q -> (mn + k * d / 4 <= mn + t * d / 4)%Q -> (k <= t)%Q.
Proof.
  intros Hd H. destruct (Qlt_le_dec t k) as [Hk|]; [|assumption]. exfalso. assert (H1 : (t * d < k * d)%Q) by (apply Qmult_lt_compat_r; lra).
  unfold Qdiv in H. change (/ 4)%Q with (1 # 4)%Q in H. set (a := (t * d)%Q) in *. set (b := (k * d)%Q) in *. clearbody a b. lra.
Qed.

(** Values below the range are black, ones above are white. In between the
    colors go from blue via cyan, green, and yellow to red, linearly. *)
Theorem C167_quick_palette : forall mn mx v, (mn < mx)%Q ->
  let get := quick_get exact (quick_make exact mn mx) v in
  ((v < mn)%Q -> get = Some black) /\ ((mx < v)%Q -> get = Some white) /\
  ((mn <= v <= mx)%Q -> exists c, get = Some c /\ opaque c /\
     rounded_down (red c) (ramp_red (quarters mn mx v)) /\
     rounded_down (green c) (ramp_green (quarters mn mx v)) /\
     rounded_down (blue c) (ramp_blue (quarters mn mx v))).
Proof.
  intros mn mx v Hm. cbn zeta. unfold quick_get, quick_make. cbn [mark0 mark1 mark2 mark3 mark4 q_mult]. split; [|split].
  - intros Hv. apply q_lt in Hv. now rewrite Hv.
  - intros Hv. assert (H1 : a_lt exact v mn = false) by (apply q_ge; lra). apply q_lt in Hv. now rewrite H1, Hv.
  - intros [Hv1 Hv2]. assert (H1 : a_lt exact v mn = false) by (apply q_ge; lra). assert (H2 : a_lt exact mx v = false) by (apply q_ge; lra). rewrite H1, H2.
    cbn [exact a_sub a_add a_mul a_div a_ofZ]. fold exact. set (d := (mx - mn)%Q). assert (Hd : (0 < d)%Q) by (unfold d; lra).
    set (t := quarters mn mx v). assert (Et : (v == mn + t * d / 4)%Q). { unfold t, quarters, d. field. lra. }
    assert (Ht : (0 <= t <= 4)%Q). { unfold t, quarters. fold d. split; [apply Qle_shift_div_l|apply Qle_shift_div_r]; try exact Hd; unfold d; lra. }
    assert (Ex : (mx == mn + d)%Q) by (unfold d; lra). clearbody t. clearbody d.
    assert (M1 : ((mn * inject_Z 3 + mx * inject_Z 1) / inject_Z 4 == mn + 1 * d / 4)%Q) by (rewrite Ex; unfold inject_Z; field).
    assert (M2 : ((mn * inject_Z 2 + mx * inject_Z 2) / inject_Z 4 == mn + 2 * d / 4)%Q) by (rewrite Ex; unfold inject_Z; field).
    assert (M3 : ((mn * inject_Z 1 + mx * inject_Z 3) / inject_Z 4 == mn + 3 * d / 4)%Q) by (rewrite Ex; unfold inject_Z; field).
    assert (Hn : ~ (d == 0)%Q) by lra.
    destruct (a_lt exact v ((mn * inject_Z 3 + mx * inject_Z 1) / inject_Z 4)%Q) eqn:C1.
    { apply q_lt in C1. rewrite M1, Et in C1. apply quarter_lt in C1; [|exact Hd]. assert (Ht1 : (t <= 1)%Q) by lra. apply color_exact.
      - unfold ramp_red. rewrite clamp_low by lra. reflexivity.
      - unfold ramp_green. destruct (Qle_bool t 2) eqn:E; [|apply Bool.not_true_iff_false in E; rewrite Qle_bool_iff in E; lra].
        rewrite clamp_mid by lra. rewrite Et. unfold inject_Z. field. exact Hn.
      - unfold ramp_blue. rewrite clamp_high by lra. reflexivity.
      - unfold ramp_red. rewrite clamp_low by lra. lra.
      - unfold ramp_green. destruct (Qle_bool t 2) eqn:E; [|apply Bool.not_true_iff_false in E; rewrite Qle_bool_iff in E; lra]. rewrite clamp_mid by lra. lra.
      - unfold ramp_blue. rewrite clamp_high by lra. lra. }
    apply q_ge in C1. rewrite M1, Et in C1. apply quarter_le in C1; [|exact Hd]. pose proof C1 as Ht1.
    destruct (a_lt exact v ((mn * inject_Z 2 + mx * inject_Z 2) / inject_Z 4)%Q) eqn:C2.
    { apply q_lt in C2. rewrite M2, Et in C2. apply quarter_lt in C2; [|exact Hd]. assert (Ht2 : (t <= 2)%Q) by lra.
      assert (E : Qle_bool t 2 = true) by now apply Qle_bool_iff. apply color_exact.
      - unfold ramp_red. rewrite clamp_low by lra. reflexivity.
      - unfold ramp_green. rewrite E, clamp_high by lra. reflexivity.
      - unfold ramp_blue. rewrite clamp_mid by lra. rewrite M2, Et. unfold inject_Z. field. exact Hn.
      - unfold ramp_red. rewrite clamp_low by lra. lra.
      - unfold ramp_green. rewrite E, clamp_high by lra. lra.
      - unfold ramp_blue. rewrite clamp_mid by lra. lra. }
    apply q_ge in C2. rewrite M2, Et in C2. apply quarter_le in C2; [|exact Hd]. pose proof C2 as Ht2.
    destruct (a_lt exact v ((mn * inject_Z 1 + mx * inject_Z 3) / inject_Z 4)%Q) eqn:C3.
    { apply q_lt in C3. rewrite M3, Et in C3. apply quarter_lt in C3; [|exact Hd]. assert (Ht3 : (t <= 3)%Q) by lra.
      assert (G : (ramp_green t == 255)%Q). { unfold ramp_green. destruct (Qle_bool t 2); rewrite clamp_high by lra; reflexivity. } apply color_exact.
      - unfold ramp_red. rewrite clamp_mid by lra. rewrite M2, Et. unfold inject_Z. field. exact Hn.
      - rewrite G. reflexivity.
      - unfold ramp_blue. rewrite clamp_low by lra. reflexivity.
      - unfold ramp_red. rewrite clamp_mid by lra. lra.
      - rewrite G. lra.
      - unfold ramp_blue. rewrite clamp_low by lra. lra. }
    apply q_ge in C3. rewrite M3, Et in C3. apply quarter_le in C3; [|exact Hd]. pose proof C3 as Ht3.
    assert (G : (ramp_green t == 255 * (4 - t))%Q).
    { unfold ramp_green. destruct (Qle_bool t 2) eqn:E; [apply Qle_bool_iff in E; lra|]. rewrite clamp_mid by lra. reflexivity. } apply color_exact.
    + unfold ramp_red. rewrite clamp_high by lra. reflexivity.
    + rewrite G, Et, Ex. unfold inject_Z. field. exact Hn.
    + unfold ramp_blue. rewrite clamp_low by lra. reflexivity.
    + unfold ramp_red. rewrite clamp_high by lra. lra.
    + rewrite G. lra.
    + unfold ramp_blue. rewrite clamp_low by lra. lra.
Qed.
Print Assumptions C167_quick_palette.

Example C167_example : map (quick_get exact (quick_make exact (-1) 3)%Q) [-2; -1; -1#2; 0; 1#2; 1; 3#2; 2; 5#2; 3; 4]%Q =
  map Some [black; color_ints 0 0 255; color_ints 0 127 255; color_ints 0 255 255; color_ints 0 255 127; color_ints 0 255 0;
    color_ints 127 255 0; color_ints 255 255 0; color_ints 255 127 0; color_ints 255 0 0; white].
Proof. vm_compute. reflexivity. Qed.

(** ** C168: QuickPalette with an empty range *)

(** If minimum and maximum coincide, then the only value in the range leads to undefined behaviour. *)
Theorem C168_empty_range_refuted : exists x, a_le ieee x x = true /\ quick_get ieee (quick_make ieee x x) x = None.
Proof. exists (a_ofZ ieee 1). split; vm_compute; reflexivity. Qed.
Print Assumptions C168_empty_range_refuted.

(** ** C169: Images *)

(** fillBox paints those pixels of the rectangle which belong to the Image. *)
Theorem C169_fill : forall w h i f ux uy bw bh col, 0 < w -> 0 < h -> picture w h i f ->
  exists i', fill_box ux uy bw bh col i = Some i' /\ picture w h i' (fun x y => if inside_rect ux uy bw bh x y then col else f x y).
Proof. intros. now apply fill_box_spec. Qed.
Print Assumptions C169_fill.

(** slice copies a rectangle; it throws if it isn't contained in the Image. *)
Theorem C169_slice : forall sw sh i f ux uy w h, 0 < w -> 0 < h -> picture sw sh i f ->
  (0 <= ux -> ux + w <= sw -> 0 <= uy -> uy + h <= sh ->
   exists i', slice i ux uy w h = Drawn i' /\ picture w h i' (fun x y => f (ux + x) (uy + y))) /\
  (ux < 0 \/ sw < ux + w \/ uy < 0 \/ sh < uy + h -> slice i ux uy w h = InvalidArgument).
Proof.
  intros sw sh i f ux uy w h Hw Hh Hp. pose proof (picture_make w h Hw Hh color_default) as Hm. split.
  - intros H1 H2 H3 H4. unfold slice, copy. destruct (copy_ok sw sh w h Hw Hh ux uy i f 0 0 Hp (scan 0 w 0 h) _ _ Hm) as (i' & E & P).
    { intros x y Hi _. apply scan_in in Hi. unfold in_rect. lia. }
    exists i'. split; [exact E|]. eapply picture_ext; [exact P|]. intros x y Hx Hy. cbn beta. rewrite !Z.sub_0_r.
    replace (has (scan 0 w 0 h) x y) with true by (symmetry; apply has_in, scan_in; lia). f_equal; lia.
  - intros Ho. unfold slice, copy. apply (copy_fails sw sh w h Hw Hh ux uy i f 0 0 Hp _ _ _ Hm).
    exists (if ux <? 0 then 0 else w - 1), (if uy <? 0 then 0 else h - 1). rewrite scan_in. unfold in_rect.
    destruct (Z.ltb_spec ux 0), (Z.ltb_spec uy 0); lia.
Qed.
Print Assumptions C169_slice.

(** paste copies those pixels which belong to the target; it never throws. *)
Theorem C169_paste : forall w h i f sw sh src fs ux uy, 0 < w -> 0 < h -> picture w h i f -> picture sw sh src fs ->
  exists i', paste i ux uy src = Drawn i' /\
    picture w h i' (fun x y => if inside_rect ux uy sw sh x y then fs (x - ux) (y - uy) else f x y).
Proof.
  intros w h i f sw sh src fs ux uy Hw Hh Hp Hs. unfold paste, copy. destruct (picture_dims sw sh src fs Hs) as [-> ->].
  destruct (copy_ok sw sh w h Hw Hh 0 0 src fs ux uy Hs (scan 0 sw 0 sh) i f Hp) as (i' & E & P).
  { intros x y Hi _. apply scan_in in Hi. unfold in_rect. lia. }
  exists i'. split; [exact E|]. eapply picture_ext; [exact P|]. intros x y Hx Hy. cbn beta.
  replace (has (scan 0 sw 0 sh) (x - ux) (y - uy)) with (inside_rect ux uy sw sh x y).
  - now rewrite !Z.add_0_r.
  - apply Bool.eq_true_iff_eq. rewrite has_in, scan_in. unfold inside_rect. lia.
Qed.
Print Assumptions C169_paste.

Definition pixels (i : image) : list (option color) := map (fun p => grid_get flat i [snd p; fst p]) (scan 0 (img_w i) 0 (img_h i)).
Definition ex_img : image := mkVGrid [2; 3] [1; 2; 3; 4; 5; 6] 0.

Example C169_example :
  picture 3 2 ex_img (fun x y => 3 * y + x + 1) /\
  option_map pixels (fill_box 1 (-1) 9 2 7 ex_img) = Some (map Some [1; 7; 7; 4; 5; 6]) /\
  slice ex_img 1 0 2 2 = Drawn (mkVGrid [2; 2] [2; 3; 5; 6] color_default) /\
  slice ex_img 2 0 2 2 = InvalidArgument /\
  paste ex_img 2 1 ex_img = Drawn (mkVGrid [2; 3] [1; 2; 3; 4; 5; 1] 0).
Proof.
  split; [|repeat split; vm_compute; reflexivity]. split; [reflexivity|]. split; [reflexivity|]. intros x y Hx Hy.
  assert (Ex : x = 0 \/ x = 1 \/ x = 2) by lia. assert (Ey : y = 0 \/ y = 1) by lia.
  destruct Ex as [->|[->| ->]], Ey as [->| ->]; reflexivity.
Qed.

(** ** C170: Plotter *)

(** Panned excerpts: a pixel shows the cell at (pixel + origin) / cellDim. *)
Theorem C170_viewport : forall (C : Type) (paint : C -> option color) w h cw ch g gw gh (k : Z -> Z -> color) org ox oy dx dy i f,
  0 < w -> 0 < h -> 0 < cw -> 0 < ch -> v_box g = mkBox org [gh; gw] ->
  (forall x y, 0 <= x < gw -> 0 <= y < gh -> exists cell, v_get g [y; x] = Some cell /\ paint cell = Some (k x y)) ->
  0 <= ox -> 0 <= oy -> picture w h i f ->
  exists i', plot_viewport paint cw ch g ox oy dx dy i = Some i' /\ exists f', picture w h i' f' /\
    (forall x y, 0 <= x < w -> 0 <= y < h -> x < dx -> y < dy ->
       f' x y = if inside_rect 0 0 gw gh ((x + ox) / cw) ((y + oy) / ch) then k ((x + ox) / cw) ((y + oy) / ch) else f x y) /\
    (forall x y, 0 <= x < w -> 0 <= y < h -> dx + cw <= x + 1 \/ dy + ch <= y + 1 -> f' x y = f x y).
Proof.
  intros C paint w h cw ch g gw gh k org ox oy dx dy i f Hw Hh Hcw Hch Eb Hg Hox Hoy Hp. unfold plot_viewport, view_w, view_h. rewrite Eb. cbn [b_dim].
  assert (Hsx : 0 <= Z.quot ox cw) by (apply Z.quot_pos; lia). assert (Hsy : 0 <= Z.quot oy ch) by (apply Z.quot_pos; lia).
  destruct (plot_cells paint w h cw ch Hw Hh Hcw Hch g ox oy k (scan (Z.quot ox cw) (Z.min (ceil_div (ox + dx) cw) gw) (Z.quot oy ch) (Z.min (ceil_div (oy + dy) ch) gh)) i f Hp) as (i' & E & P).
  { intros x y Hi. apply scan_in in Hi. apply Hg; lia. }
  exists i'. split; [exact E|]. eexists. split; [exact P|]. rewrite !Z.quot_div_nonneg in * by lia. split.
  - intros x y Hx Hy Hdx Hdy. cbn beta.
    assert (Hq1 : ox / cw <= (x + ox) / cw) by (apply Z.div_le_mono; lia). assert (Hq2 : oy / ch <= (y + oy) / ch) by (apply Z.div_le_mono; lia).
    pose proof (ceil_div_spec (ox + dx) cw ((x + ox) / cw) Hcw) as C1. pose proof (ceil_div_spec (oy + dy) ch ((y + oy) / ch) Hch) as C2.
    pose proof (Z.mul_div_le (x + ox) cw Hcw) as D1. pose proof (Z.mul_div_le (y + oy) ch Hch) as D2.
    set (qx := (x + ox) / cw) in *. set (qy := (y + oy) / ch) in *. set (sx := ox / cw) in *. set (sy := oy / ch) in *.
    set (ex := ceil_div (ox + dx) cw) in *. set (ey := ceil_div (oy + dy) ch) in *. clearbody qx qy sx sy ex ey.
    replace (has (scan sx (Z.min ex gw) sy (Z.min ey gh)) qx qy) with (inside_rect 0 0 gw gh qx qy); [reflexivity|].
    apply Bool.eq_true_iff_eq. rewrite has_in, scan_in. unfold inside_rect. assert (qx < ex) by (apply C1; lia). assert (qy < ey) by (apply C2; lia). lia.
  - intros x y Hx Hy Ho. cbn beta.
    pose proof (ceil_div_spec (ox + dx) cw ((x + ox) / cw) Hcw) as C1. pose proof (ceil_div_spec (oy + dy) ch ((y + oy) / ch) Hch) as C2.
    pose proof (Z.div_mod (x + ox) cw ltac:(lia)) as D1. pose proof (Z.div_mod (y + oy) ch ltac:(lia)) as D2.
    pose proof (Z.mod_pos_bound (x + ox) cw Hcw) as M1. pose proof (Z.mod_pos_bound (y + oy) ch Hch) as M2.
    set (qx := (x + ox) / cw) in *. set (qy := (y + oy) / ch) in *. set (sx := ox / cw) in *. set (sy := oy / ch) in *.
    set (mx := (x + ox) mod cw) in *. set (my := (y + oy) mod ch) in *.
    set (ex := ceil_div (ox + dx) cw) in *. set (ey := ceil_div (oy + dy) ch) in *. clearbody qx qy sx sy ex ey mx my.
    destruct (has (scan sx (Z.min ex gw) sy (Z.min ey gh)) qx qy) eqn:Eh; [|reflexivity]. apply has_in, scan_in in Eh. exfalso.
    assert (A1 : qx * cw < ox + dx) by (apply C1; lia). assert (A2 : qy * ch < oy + dy) by (apply C2; lia). lia.
Qed.
Print Assumptions C170_viewport.

Definition ex_view : gview Z := mkView (mkBox [0; 0] [2; 3]) 99 (fun c => match c with [y; x] => Some (if inside_rect 0 0 3 2 x y then 10 * y + x else 99) | _ => None end).

Example C170_example : option_map pixels (plot_viewport Some 2 2 ex_view 1 1 4 3 (image_make 6 4 7)) =
  Some (map Some [0; 1; 1; 2; 2; 7;  10; 11; 11; 12; 12; 7;  10; 11; 11; 12; 12; 7;  7; 7; 7; 7; 7; 7]).
Proof. vm_compute. reflexivity. Qed.

(** ** C171: viewports with negative origins *)

(** Left of the grid pixels aren't left as they are, in contrast to those right of it. *)
Theorem C171_negative_refuted : exists (g : gview Z) gw gh cw ch ox oy dx dy i x y c,
  v_box g = mkBox [0; 0] [gh; gw] /\ 0 < cw /\ 0 < ch /\ 0 <= x < dx /\ 0 <= y < dy /\ 0 <= x < img_w i /\ 0 <= y < img_h i /\
  inside_rect 0 0 gw gh ((x + ox) / cw) ((y + oy) / ch) = false /\
  grid_get flat i [y; x] = Some c /\
  exists i', plot_viewport Some cw ch g ox oy dx dy i = Some i' /\ grid_get flat i' [y; x] <> Some c.
Proof.
  exists ex_view, 3, 2, 2, 2, (-4), 0, 4, 2, (image_make 4 2 7), 0, 0, 7. split; [reflexivity|]. do 6 (split; [cbn; lia|]).
  split; [reflexivity|]. split; [reflexivity|]. eexists. split; [vm_compute; reflexivity|]. vm_compute. discriminate.
Qed.
Print Assumptions C171_negative_refuted.

(** ** C172: PPM files *)

(** Each cell of a grid whose origin is 0 appears as a tile in the right place. *)
Theorem C172_ppm : forall (C : Type) (paint : C -> option color) cw ch g gw gh (k : Z -> Z -> color) prefix period step e,
  0 < cw -> 0 < ch -> 0 < gw -> 0 < gh -> 0 < period -> v_box g = mkBox [0; 0] [gh; gw] ->
  (forall x y, 0 <= x < gw -> 0 <= y < gh -> exists cell, v_get g [y; x] = Some cell /\ paint cell = Some (k x y)) ->
  if is_step e && negb (step mod period =? 0) then ppm_step paint cw ch prefix period g step e = Some []
  else exists bytes, ppm_step paint cw ch prefix period g step e = Some [(ppm_name prefix step, bytes)] /\
    read_ppm bytes = Some (cw * gw, ch * gh,
      rows (cw * gw) (ch * gh) (fun x y => let c := k (x / cw) (y / ch) in (red c, green c, blue c))).
Proof.
  intros C paint cw ch g gw gh k prefix period step e Hcw Hch Hgw Hgh Hpe Eb Hg. unfold ppm_step.
  destruct (is_step e && negb (step mod period =? 0)); [reflexivity|]. unfold plot_grid.
  assert (Ew : view_w g = gw) by (unfold view_w; now rewrite Eb). assert (Eh : view_h g = gh) by (unfold view_h; now rewrite Eb). rewrite Ew, Eh.
  assert (Hw : 0 < cw * gw) by nia. assert (Hh : 0 < ch * gh) by nia.
  destruct (C170_viewport C paint (cw * gw) (ch * gh) cw ch g gw gh k [0; 0] 0 0 (cw * gw) (ch * gh) _ _ Hw Hh Hcw Hch Eb Hg ltac:(lia) ltac:(lia) (picture_make _ _ Hw Hh color_default))
    as (i' & E & f' & P & Hf & _).
  rewrite E. cbn [obind]. assert (P2 : picture (cw * gw) (ch * gh) i' (fun x y => k (x / cw) (y / ch))).
  { eapply picture_ext; [exact P|]. intros x y Hx Hy. rewrite Hf by lia. rewrite !Z.add_0_r.
    assert (H1 : 0 <= x / cw < gw) by (split; [apply Z.div_pos; lia|apply Z.div_lt_upper_bound; lia]).
    assert (H2 : 0 <= y / ch < gh) by (split; [apply Z.div_pos; lia|apply Z.div_lt_upper_bound; lia]).
    set (qx := x / cw) in *. set (qy := y / ch) in *. clearbody qx qy. unfold inside_rect. replace ((0 <=? qx) && (qx <? 0 + gw) && (0 <=? qy) && (qy <? 0 + gh)) with true by lia. reflexivity. }
  destruct (ppm_file_spec _ _ i' _ Hw Hh P2) as (bs & -> & R). cbn [option_map]. exists bs. split; [reflexivity|exact R].
Qed.
Print Assumptions C172_ppm.

(** Different steps go to different files. *)
Theorem C172_names : forall prefix s1 s2, 0 <= s1 -> 0 <= s2 -> ppm_name prefix s1 = ppm_name prefix s2 -> s1 = s2.
Proof.
  intros prefix s1 s2 H1 H2 E. unfold ppm_name in E. apply app_inv_head in E. cbn [app] in E.
  assert (E' : pad4 (dec s1) ++ [46; 112; 112; 109] = pad4 (dec s2) ++ [46; 112; 112; 109]) by congruence. apply app_inv_tail in E'. unfold pad4 in E'.
  assert (R : forall s, 0 <= s -> read_number 0 (repeat 48 (4 - length (dec s)) ++ dec s) = (s, [])).
  { intros s Hs. rewrite read_zeros. rewrite <- (app_nil_r (dec s)). apply read_dec; [exact Hs|discriminate]. }
  pose proof (R s1 H1) as R1. rewrite E', (R s2 H2) in R1. congruence.
Qed.
Print Assumptions C172_names.

Example C172_example :
  ppm_step (fun c => Some (color_ints c 0 200)) 1 2 [65] 5 ex_view 15 IoStep =
  Some [([65; 46; 48; 48; 49; 53; 46; 112; 112; 109],
         [80; 54; 32; 51; 32; 52; 32; 50; 53; 53; 10;
          0; 0; 200; 1; 0; 200; 2; 0; 200;  0; 0; 200; 1; 0; 200; 2; 0; 200;
          10; 0; 200; 11; 0; 200; 12; 0; 200;  10; 0; 200; 11; 0; 200; 12; 0; 200])] /\
  ppm_step (fun c => Some c) 1 2 [65] 5 ex_view 16 IoStep = Some [] /\
  ppm_name [65] 12345 = [65; 46; 49; 50; 51; 52; 53; 46; 112; 112; 109].
Proof. repeat split; vm_compute; reflexivity. Qed.

(** ** C173: grids which don't start at the origin *)

(** Their cells aren't what is shown. *)
Definition far : dgrid Z := mkDGrid (mkVGrid [1; 2] [1; 2] 9) [5; 5] [20; 20].

Theorem C173_displaced_refuted : exists (d : dgrid Z) cw ch bytes, 0 < cw /\ 0 < ch /\
  dg_get flat false d (d_org d) = Some 1 /\
  ppm_step Some cw ch [] 1 (dg_view flat false d) 0 IoStep = Some [(ppm_name [] 0, bytes)] /\
  read_ppm bytes = Some (2, 1, [(0, 0, 9); (0, 0, 9)]).
Proof.
  exists far, 1, 1. eexists. split; [lia|]. split; [lia|]. split; [reflexivity|]. split; [vm_compute; reflexivity|]. vm_compute. reflexivity.
Qed.
Print Assumptions C173_displaced_refuted.
