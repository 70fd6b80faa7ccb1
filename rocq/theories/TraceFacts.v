(** Facts on measured and rendered times. *)
From Coq Require Import ZArith QArith Qround List Bool Lia.
From Verif Require Import Base RegionOpsModel CoordModel ParamModel ImageModel ImageSpec ImageFacts AdapterModel TraceModel TraceSpec.
From Coq Require Import Lqa Lia ZifyBool ZifyNat.
Import ListNotations.
Open Scope Z_scope.

(** ** Chronometers *)

Notation at_ c e := (nth (event_id e) c 0%Q).

Lemma bump_length i t (c : list Q) : length (bump exact i t c) = length c.
Proof.
  unfold bump. rewrite app_length, firstn_length. destruct (skipn i c) as [|x r] eqn:E; pose proof (f_equal (@length Q) E) as L; rewrite skipn_length in L; cbn [length] in *; lia.
Qed.

Lemma nth_skipn' {X} (d : X) i : forall (l : list X) j, nth j (skipn i l) d = nth (i + j) l d.
Proof. induction i as [|i IH]; intros l j; [reflexivity|]. destruct l as [|x l]; [now destruct j|]. cbn [skipn plus nth]. apply IH. Qed.

Lemma bump_nth i j t : forall (c : list Q), (i < length c)%nat ->
  (nth j (bump exact i t c) 0 == nth j c 0 + if Nat.eqb i j then t else 0)%Q.
Proof.
  intros c. unfold bump. revert c j. induction i as [|i IH]; intros c j Hi.
  - destruct c as [|x c]; [cbn in Hi; lia|]. cbn [firstn skipn app]. destruct j as [|j]; cbn [nth Nat.eqb a_add exact]; lra.
  - destruct c as [|x c]; [cbn in Hi; lia|]. cbn [firstn skipn app]. destruct j as [|j]; cbn [nth Nat.eqb]; [lra|]. apply IH. cbn in Hi. lia.
Qed.

Lemma event_id_lt e : (event_id e < 9)%nat.
Proof. destruct e; cbn; lia. Qed.

Lemma event_id_inj e e' : event_id e = event_id e' -> e = e'.
Proof. destruct e, e'; cbn; congruence. Qed.

Lemma destruct_impl_spec e t (c : list Q) : length c = 9%nat ->
  length (destruct_impl exact 8 e t c) = 9%nat /\
  forall e', (at_ (destruct_impl exact 8 e t c) e' == at_ c e' + if covers e' e then t else 0)%Q.
Proof.
  intros Hc. assert (B : forall i, length (bump exact i t c) = 9%nat) by (intros i; now rewrite bump_length).
  destruct e; cbn [destruct_impl parent]; (split; [now rewrite ?bump_length|]); intros e';
    repeat rewrite bump_nth by (rewrite ?bump_length, Hc; apply event_id_lt); destruct e'; cbn [event_id Nat.eqb covers]; lra.
Qed.

Lemma chrono_plus_nth (a b : list Q) : length a = length b -> forall j, (nth j (chrono_plus exact a b) 0 == nth j a 0 + nth j b 0)%Q.
Proof.
  unfold chrono_plus. revert b. induction a as [|x a IH]; intros [|y b] H j; cbn in H; try discriminate; [destruct j; cbn [combine map nth]; lra|].
  cbn [combine map]. destruct j as [|j]; cbn [nth fst snd a_add exact]; [lra|]. apply IH. lia.
Qed.

Lemma chrono_do_spec o (c : list Q) : length c = 9%nat -> op_ok o ->
  length (chrono_do exact c o) = 9%nat /\ forall e h, (at_ c e == spent e h)%Q -> (at_ (chrono_do exact c o) e == spent e (o :: h))%Q.
Proof.
  intros Hc Ho. destruct o as [e t0 t1|e t|e t0 t1| |other]; cbn [chrono_do op_ok] in *.
  - unfold scoped. cbn [a_sub exact]. destruct (destruct_impl_spec e (t1 - t0) c Hc) as (L & S). split; [exact L|]. intros e' h H. cbn [spent]. rewrite S, H. lra.
  - unfold add_time. destruct (destruct_impl_spec e t c Hc) as (L & S). split; [exact L|]. intros e' h H. cbn [spent]. rewrite S, H. lra.
  - unfold tock, add_time. cbn [a_sub exact]. destruct (destruct_impl_spec e (t1 - t0) c Hc) as (L & S). split; [exact L|]. intros e' h H. cbn [spent]. rewrite S, H. lra.
  - unfold chrono_reset. split; [now rewrite map_length|]. intros e h _. cbn [spent].
    assert (G : forall (l : list Q) j, (nth j (map (fun _ => inject_Z 0) l) 0 == 0)%Q).
    { induction l as [|x l IH]; intros [|j]; cbn [map nth]; try reflexivity. apply IH. }
    exact (G c (event_id e)).
  - split; [unfold chrono_plus; rewrite map_length, combine_length; lia|]. intros e h H. cbn [spent]. rewrite chrono_plus_nth by lia. rewrite H. lra.
Qed.

Lemma chrono_run ops : forall c h, length c = 9%nat -> Forall op_ok ops -> (forall e, at_ c e == spent e h)%Q ->
  length (fold_left (chrono_do exact) ops c) = 9%nat /\ forall e, (at_ (fold_left (chrono_do exact) ops c) e == spent e (rev ops ++ h))%Q.
Proof.
  induction ops as [|o ops IH]; intros c h Hc Ho H; cbn [fold_left rev app]; [split; assumption|].
  inversion Ho; subst. destruct (chrono_do_spec o c Hc) as (L & S); [assumption|].
  destruct (IH (chrono_do exact c o) (o :: h) L) as (L' & S'); [assumption|intros e; apply S, H|].
  split; [exact L'|]. intros e. rewrite S'. rewrite <- app_assoc. reflexivity.
Qed.

(** ** Digits *)

Lemma digits_length : forall f k n, 0 <= n < 10 ^ Z.of_nat (S k) -> (length (digits f n) <= S k)%nat.
Proof.
  induction f as [|f IH]; intros k n Hn; [cbn; lia|]. rewrite digits_S. rewrite app_length. cbn [length].
  destruct (Z.ltb_spec n 10) as [E|E]; [cbn; lia|].
  destruct k as [|k]; [change (10 ^ Z.of_nat 1) with 10 in Hn; lia|].
  enough (length (digits f (n / 10)) <= S k)%nat by lia. apply IH.
  split; [apply Z.div_pos; lia|]. apply Z.div_lt_upper_bound; [lia|].
  replace (10 * 10 ^ Z.of_nat (S k)) with (10 ^ Z.of_nat (S (S k))); [lia|]. rewrite (Nat2Z.inj_succ (S k)), Z.pow_succ_r; lia.
Qed.

Lemma dec_length k n : 0 <= n < 10 ^ Z.of_nat (S k) -> (1 <= length (dec n) <= S k)%nat.
Proof.
  intros Hn. split.
  - destruct (dec_digits n ltac:(lia)) as (_ & H). destruct (dec n); [congruence|cbn; lia].
  - unfold dec. replace (n <? 0) with false by lia. rewrite Z.abs_eq by lia. cbn [app]. now apply digits_length.
Qed.

Lemma padw_length k n : 0 <= n < 10 ^ Z.of_nat (S k) -> length (padw (S k) (dec n)) = S k.
Proof. intros Hn. pose proof (dec_length k n Hn). unfold padw. rewrite app_length, repeat_length. lia. Qed.

Lemma padw_min k l : (k <= length (padw k l))%nat.
Proof. unfold padw. rewrite app_length, repeat_length. lia. Qed.

Lemma read_padw k n l : 0 <= n -> (forall b l', l = b :: l' -> ~ 48 <= b <= 57) -> read_number 0 (padw k (dec n) ++ l) = (n, l).
Proof. intros Hn Hl. unfold padw. rewrite <- app_assoc, read_zeros. now apply read_dec. Qed.

(** ** Durations *)

Lemma trunc_floor q : (0 <= q)%Q -> qtrunc q = Qfloor q.
Proof. intros H. unfold qtrunc. replace (Qle_bool 0 q) with true by (symmetry; now apply Qle_bool_iff). destruct q; reflexivity. Qed.

Lemma floor_unique q z : (inject_Z z <= q)%Q -> (q < inject_Z z + 1)%Q -> Qfloor q = z.
Proof.
  intros H1 H2. pose proof (Qfloor_le q) as F1. pose proof (Qlt_floor q) as F2. rewrite inject_Z_plus in F2.
  assert (A : (inject_Z z < inject_Z (Qfloor q + 1))%Q) by (rewrite inject_Z_plus; lra).
  assert (B : (inject_Z (Qfloor q) < inject_Z (z + 1))%Q) by (rewrite inject_Z_plus; unfold inject_Z at 3; lra).
  rewrite <- Zlt_Qlt in A, B. lia.
Qed.

Lemma floor_add z q : Qfloor (inject_Z z + q) = z + Qfloor q.
Proof.
  apply floor_unique; rewrite inject_Z_plus; pose proof (Qfloor_le q); pose proof (Qlt_floor q) as F; rewrite inject_Z_plus in F; unfold inject_Z at 2 in F; lra.
Qed.

Lemma read_hms total l : 0 <= total ->
  (forall b l', l = b :: l' -> ~ 48 <= b <= 57) ->
  read_duration (padw 2 (dec (Z.quot total 3600)) ++ [58] ++ padw 2 (dec (Z.rem (Z.quot total 60) 60)) ++ [58]
             ++ padw 2 (dec (Z.rem total 60)) ++ l) =
  match l with
  | [] => Some (total * 1000000)
  | 46 :: l4 => let (u, l5) := read_number 0 l4 in
      if (length l4 =? 6)%nat && match l5 with [] => true | _ => false end then Some (total * 1000000 + u) else None
  | _ => None
  end.
Proof.
  intros Ht Hl. rewrite !Z.quot_div_nonneg by lia. rewrite !Z.rem_mod_nonneg by (try apply Z.div_pos; lia).
  set (h := total / 3600). set (m := total / 60 mod 60). set (s := total mod 60).
  assert (Hh : 0 <= h) by (apply Z.div_pos; lia). assert (Hm : 0 <= m < 60) by (apply Z.mod_pos_bound; lia). assert (Hs : 0 <= s < 60) by (apply Z.mod_pos_bound; lia).
  assert (E : total = (h * 60 + m) * 60 + s).
  { unfold h, m, s. replace 3600 with (60 * 60) by reflexivity. rewrite <- Z.div_div by lia. pose proof (Z.div_mod total 60 ltac:(lia)). pose proof (Z.div_mod (total / 60) 60 ltac:(lia)). lia. }
  clearbody h m s. unfold read_duration. rewrite read_padw by (try lia; intros b l' Hb; injection Hb; intros; lia). cbn [app].
  rewrite read_padw by (try lia; intros b l' Hb; injection Hb; intros; lia). rewrite read_padw by (try assumption; lia).
  assert (Lm : length (padw 2 (dec m)) = 2%nat) by (apply padw_length; change (10 ^ Z.of_nat 2) with 100; lia).
  assert (Ls : length (padw 2 (dec s)) = 2%nat) by (apply padw_length; change (10 ^ Z.of_nat 2) with 100; lia).
  pose proof (padw_min 2 (dec h)) as Lh. unfold two. rewrite !app_length. cbn [length]. rewrite !app_length. cbn [length]. rewrite !app_length, Lm, Ls.
  match goal with |- (if ?c then _ else _) = _ => replace c with true by lia end. rewrite <- E. reflexivity.
Qed.

Lemma render_read (x : Q) : (0 <= x)%Q -> (x < 2147483648)%Q ->
  exists l, render_duration exact x = Some l /\ read_duration l = Some (Qfloor (x * 1000000)).
Proof.
  intros H0 H1. unfold render_duration. cbn [a_trunc a_sub a_ofZ a_lt a_mul exact obind]. rewrite trunc_floor by exact H0.
  set (t := Qfloor x). pose proof (Qfloor_le x) as F1. pose proof (Qlt_floor x) as F2. fold t in F1, F2. rewrite inject_Z_plus in F2. unfold inject_Z at 2 in F2.
  assert (T0 : 0 <= t). { assert (A : (inject_Z 0 < inject_Z (t + 1))%Q) by (rewrite inject_Z_plus; unfold inject_Z at 1 3; lra). rewrite <- Zlt_Qlt in A. lia. }
  assert (T1 : t < 2147483648). { assert (A : (inject_Z t < inject_Z 2147483648)%Q) by (unfold inject_Z at 2; lra). now rewrite <- Zlt_Qlt in A. }
  clearbody t. unfold to_int at 1. change (2 ^ 31) with 2147483648. replace ((- (2147483648) <=? t) && (t <? 2147483648)) with true by lia. cbn [obind].
  set (sub := (x - inject_Z t)%Q). assert (S0 : (0 <= sub)%Q) by (unfold sub; lra). assert (S1 : (sub < 1)%Q) by (unfold sub; lra).
  assert (X : (x == inject_Z t + sub)%Q) by (unfold sub; ring). clearbody sub.
  assert (FX : Qfloor (x * 1000000) = t * 1000000 + Qfloor (sub * 1000000)).
  { rewrite <- floor_add. apply Qfloor_comp. rewrite inject_Z_mult. unfold inject_Z at 2. rewrite X. ring. }
  destruct (negb (Qle_bool sub (inject_Z 0))) eqn:E.
  - change (inject_Z 1000000) with (1000000%Q). rewrite trunc_floor by lra. cbn [obind]. set (u := Qfloor (sub * 1000000)) in *.
    pose proof (Qfloor_le (sub * 1000000)) as G1. pose proof (Qlt_floor (sub * 1000000)) as G2. fold u in G1, G2. rewrite inject_Z_plus in G2. unfold inject_Z at 2 in G2.
    assert (U0 : 0 <= u). { assert (A : (inject_Z 0 < inject_Z (u + 1))%Q) by (rewrite inject_Z_plus; unfold inject_Z at 1 3; lra). rewrite <- Zlt_Qlt in A. lia. }
    assert (U1 : u < 1000000). { assert (A : (inject_Z u < inject_Z 1000000)%Q) by (unfold inject_Z at 2; lra). now rewrite <- Zlt_Qlt in A. }
    clearbody u. unfold to_int. change (2 ^ 31) with 2147483648. replace ((- (2147483648) <=? u) && (u <? 2147483648)) with true by lia. cbn [option_map].
    eexists. split; [reflexivity|]. rewrite <- !app_assoc. rewrite read_hms; [|exact T0|intros b l' Hb; cbn [app] in Hb; injection Hb; intros; lia].
    cbn [app]. pose proof (read_padw 6 u [] U0 ltac:(discriminate)) as R. rewrite app_nil_r in R. rewrite R.
    rewrite padw_length by (change (10 ^ Z.of_nat 6) with 1000000; lia). cbn [Nat.eqb andb]. now rewrite FX.
  - eexists. split; [reflexivity|]. pose proof (read_hms t [] T0 ltac:(discriminate)) as R. rewrite app_nil_r in R. rewrite R. rewrite FX.
    apply negb_false_iff, Qle_bool_iff in E. unfold inject_Z in E. replace (Qfloor (sub * 1000000)) with 0; [f_equal; lia|]. symmetry. apply floor_unique; unfold inject_Z; lra.
Qed.

(** ** Forecasts *)

Lemma unsigned_small z : 0 <= z < 4294967296 -> unsigned z = z.
Proof. intros H. unfold unsigned. apply Z.mod_small. exact H. Qed.

Lemma prod_int_spec dim : Forall (fun n => 1 <= n) dim -> prod dim < 2147483648 -> prod_int dim = Some (prod dim).
Proof.
  intros H. unfold prod_int.
  rewrite <- fold_left_rev_right, rev_involutive. induction dim as [|n dim IH]; intros Hp; [reflexivity|].
  inversion H as [|? ? Hn Hd]; subst. cbn [prod] in Hp. cbn [fold_right prod].
  assert (P : 1 <= prod dim). { clear - Hd. induction Hd; cbn [prod]; nia. }
  rewrite IH by (try assumption; nia). cbn [obind]. unfold to_int. change (2 ^ 31) with 2147483648. replace (prod dim * n) with (n * prod dim) by ring.
  replace ((- (2147483648) <=? n * prod dim) && (n * prod dim <? 2147483648)) with true; [reflexivity|]. set (q := n * prod dim) in *. assert (0 <= q) by (unfold q; nia). lia.
Qed.

Lemma floor_eq_spec a b : (a == b)%Q -> Qfloor a = Qfloor b.
Proof. apply Qfloor_comp. Qed.

Lemma forecast_step nanos size max dim t0 d w step later now :
  0 < step <= max -> max < 4294967296 -> (0 < d)%Q -> (0 <= t0)%Q -> (t0 + inject_Z max * d < 2147483648)%Q ->
  Forall (fun n => 1 <= n) dim -> prod dim < 2147483648 ->
  (tr_start w == t0)%Q -> tr_max w = max -> step mod tr_period w = 0 ->
  (now == t0 + inject_Z step * d)%Q -> (0 <= later < 2147483648)%Q ->
  exists l, normal_step exact nanos size w step dim now later = Some l /\ forecast nanos size max dim t0 d step later l.
Proof.
  intros Hs Hm Hd Ht Hend Hdim Hp Hstart Hmax Hper Hnow Hlater. unfold normal_step. rewrite Hper. cbn [Z.eqb negb].
  cbn [a_sub a_div a_mul a_add a_ofZ exact]. rewrite prod_int_spec by assumption. cbn [obind].
  rewrite unsigned_small by (rewrite Hmax; lia). rewrite Hmax.
  assert (SQ : (0 < inject_Z step)%Q) by (change 0%Q with (inject_Z 0); rewrite <- Zlt_Qlt; lia).
  assert (MQ : (0 <= inject_Z (max - step))%Q) by (change 0%Q with (inject_Z 0); rewrite <- Zle_Qle; lia).
  assert (MM : (inject_Z (max - step) == inject_Z max - inject_Z step)%Q) by (unfold Z.sub; rewrite inject_Z_plus, inject_Z_opp; ring).
  assert (Delta : (now - tr_start w == inject_Z step * d)%Q) by (rewrite Hnow, Hstart; ring).
  set (delta := (now - tr_start w)%Q) in *. clearbody delta.
  assert (Rem : (delta * inject_Z (max - step) / inject_Z step == inject_Z (max - step) * d)%Q) by (rewrite Delta; field; lra).
  set (remaining := (delta * inject_Z (max - step) / inject_Z step)%Q) in *. clearbody remaining.
  assert (Pos : (0 <= inject_Z (max - step) * d)%Q) by nra.
  assert (Eta : (now + remaining == t0 + inject_Z max * d)%Q) by (rewrite Hnow, Rem, MM; ring).
  assert (Sd : (0 < inject_Z step * d)%Q) by nra.
  set (eta := (now + remaining)%Q) in *. clearbody eta.
  destruct (render_read remaining) as (r & R1 & R2); [lra| |].
  { rewrite Rem. assert (inject_Z (max - step) * d <= inject_Z max * d)%Q by (rewrite MM; nra). lra. }
  destruct (render_read eta) as (e & E1 & E2); [nra|lra|].
  destruct (render_read later) as (z & Z1 & Z2); [apply Hlater|apply Hlater|].
  rewrite R1, E1. cbn [obind]. unfold print_time. rewrite Z1. cbn [option_map].
  eexists. split; [reflexivity|]. unfold forecast. do 6 eexists. split; [reflexivity|]. repeat apply conj.
  - exact Delta.
  - rewrite R2. f_equal. apply floor_eq_spec. now rewrite Rem.
  - rewrite E2. f_equal. apply floor_eq_spec. now rewrite Eta.
  - rewrite Delta, inject_Z_mult. change (inject_Z 1000) with (1000%Q). change (inject_Z 1) with 1%Q. field. repeat split; lra.
  - change (inject_Z 2) with 2%Q. ring.
  - exact Z2.
Qed.

Lemma forecast_run nanos size max dim t0 d period w :
  max < 4294967296 -> (0 < d)%Q -> (0 <= t0)%Q -> (t0 + inject_Z max * d < 2147483648)%Q ->
  Forall (fun n => 1 <= n) dim -> prod dim < 2147483648 ->
  (tr_start w == t0)%Q -> tr_max w = max -> tr_period w = period -> 1 <= period ->
  forall calls, Forall (on_pace max t0 d) calls ->
  exists out, trace_run exact nanos size dim w calls = Some out /\ forecasts nanos size max period dim t0 d calls out.
Proof.
  intros Hm Hd Ht Hend Hdim Hp Hstart Hmax Hper Hp1. induction calls as [|[[[step e] now] later] calls IH]; intros Hc; [exists []; split; reflexivity|].
  inversion Hc as [|? ? H1 H2]; subst. destruct H1 as (-> & Hs & Hnow & Hl). destruct (IH H2) as (out & O1 & O2).
  cbn [trace_run trace_step forecasts]. destruct (Z.eqb_spec (step mod tr_period w) 0) as [E|E].
  - destruct (forecast_step nanos size (tr_max w) dim t0 d w step later now) as (l & L1 & L2); try assumption; try reflexivity.
    rewrite L1. cbn [option_map obind fst snd]. rewrite O1. cbn [option_map]. eexists. split; [reflexivity|]. exists l, out. auto.
  - unfold normal_step. replace (step mod tr_period w =? 0) with false by lia. cbn [negb option_map obind fst snd]. rewrite O1. exists out. split; [reflexivity|exact O2].
Qed.
