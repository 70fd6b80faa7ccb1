(** Facts on the scheduling of writers, steerers and events. *)
From Verif Require Import Base PatchModel AdapterModel ScheduleModel ScheduleSpec.
From Coq Require Import Lia.

Section Adapter.
Context (a : adapter).
Notation nanos := (ad_nanos a). Notation p := (ad_period a). Notation F := (ad_first_nano a). Notation Lt := (ad_last_nano a).
Hypothesis Hn : (1 <= nanos)%nat.
Hypothesis Hp : (1 <= p)%nat.
Hypothesis HFL : (ad_first a <= ad_last a)%nat.

Lemma stride_pos : (1 <= ad_stride a)%nat.
Proof. unfold ad_stride. nia. Qed.

Lemma FL : (F <= Lt)%nat.
Proof. unfold ad_first_nano, ad_last_nano. nia. Qed.

Lemma next_spec t : exists k, ad_next a t = (S k * ad_stride a)%nat /\ (k * ad_stride a <= t < S k * ad_stride a)%nat.
Proof.
  pose proof stride_pos as Hs. unfold ad_next. set (q := ad_stride a) in *.
  exists (Nat.div t q). pose proof (Nat.div_mod t q ltac:(lia)) as H. pose proof (Nat.mod_upper_bound t q ltac:(lia)) as H'.
  assert (Em : Nat.modulo (t + q) q = Nat.modulo t q).
  { replace (t + q)%nat with (t + 1 * q)%nat by lia. now rewrite Nat.mod_add by lia. }
  rewrite Em. nia.
Qed.

Lemma next_gt t : (t < ad_next a t)%nat.
Proof. destruct (next_spec t) as (k & -> & H). lia. Qed.

Lemma next_same t : ad_next a t <> S t -> ad_next a (S t) = ad_next a t.
Proof.
  intros H. destruct (next_spec t) as (k & E & H1). destruct (next_spec (S t)) as (k' & E' & H2). rewrite E in *. rewrite E'.
  assert (k = k') by nia. now subst.
Qed.

Lemma next_mult t : ad_next a t = S t <-> Nat.modulo (S t) (ad_stride a) = O.
Proof.
  pose proof stride_pos as Hs. destruct (next_spec t) as (k & E & H1). rewrite E. split.
  - intros H. rewrite <- H. apply Nat.mod_mul. lia.
  - intros H. apply Nat.mod_divides in H; [|lia]. destruct H as (c & Hc). rewrite Hc in *. assert (c = S k) by nia. subst. lia.
Qed.

(** Whether there is a call at [t], [F <= t]. *)
Definition called (t : nat) : bool :=
  Nat.leb t Lt && (Nat.eqb t F || Nat.eqb t Lt || Nat.eqb (Nat.modulo t (ad_stride a)) 0).

Definition calls_at (t : nat) : list iocall := if called t then [(Nat.div t nanos, ad_event a t)] else [].

(** The set of steps after [t] has been dealt with. *)
Definition after (t : nat) : list nat := if Nat.ltb t Lt then set_add Lt [ad_next a t] else [ad_next a Lt].

Lemma set_add2 x y : set_add x [y] = set_add y [x].
Proof.
  cbn [set_add]. destruct (Nat.ltb x y) eqn:E1, (Nat.ltb y x) eqn:E2, (Nat.eqb x y) eqn:E3, (Nat.eqb y x) eqn:E4;
    rewrite ?Nat.ltb_lt, ?Nat.ltb_ge, ?Nat.eqb_eq, ?Nat.eqb_neq in *; try lia; congruence.
Qed.

Lemma after_due t : (F <= t)%nat -> due_at (after t) (S t) = true ->
  ((Lt <= t)%nat /\ ad_next a Lt = S t) \/
  ((t < Lt)%nat /\ S t = Lt /\ ad_next a t <> Lt /\ after t = [Lt; ad_next a t]) \/
  ((t < Lt)%nat /\ S t = Lt /\ ad_next a t = Lt /\ after t = [Lt]) \/
  ((S t < Lt)%nat /\ ad_next a t = S t /\ after t = [S t; Lt]).
Proof.
  unfold after. pose proof (next_gt t). destruct (Nat.ltb_spec t Lt); cbn [set_add].
  - destruct (Nat.ltb_spec Lt (ad_next a t)).
    + cbn [due_at]. rewrite Nat.eqb_eq. intros. right. left. repeat split; auto; lia.
    + destruct (Nat.eqb_spec Lt (ad_next a t)) as [e|e]; cbn [due_at]; rewrite Nat.eqb_eq; intros Ht.
      * right. right. left. repeat split; auto; try lia. congruence.
      * right. right. right. repeat split; auto; try lia. congruence.
  - cbn [due_at]. rewrite Nat.eqb_eq. intros. left. auto.
Qed.

Lemma called_mult t : (F < S t)%nat -> (S t < Lt)%nat -> called (S t) = Nat.eqb (ad_next a t) (S t).
Proof.
  intros HF HL. unfold called. rewrite (proj2 (Nat.leb_le _ _)) by lia. rewrite (proj2 (Nat.eqb_neq (S t) F)) by lia.
  rewrite (proj2 (Nat.eqb_neq (S t) Lt)) by lia. cbn [andb orb]. apply eq_iff_eq_true. rewrite !Nat.eqb_eq. symmetry. apply next_mult.
Qed.

Lemma not_due t : (F <= t)%nat -> due_at (after t) (S t) = false -> after (S t) = after t /\ calls_at (S t) = [].
Proof.
  intros HF Hd. unfold after in *. unfold calls_at. pose proof (next_gt t). destruct (Nat.ltb_spec t Lt) as [H1|H1].
  - assert (HSL : (S t < Lt)%nat /\ ad_next a t <> S t).
    { revert Hd. cbn [set_add]. destruct (Nat.ltb_spec Lt (ad_next a t)); [cbn [due_at]; rewrite Nat.eqb_neq; lia|].
      destruct (Nat.eqb_spec Lt (ad_next a t)); cbn [due_at]; rewrite Nat.eqb_neq; lia. }
    destruct HSL as [H2 H3]. rewrite called_mult by lia. rewrite (proj2 (Nat.eqb_neq _ _) H3).
    rewrite (proj2 (Nat.ltb_lt (S t) Lt)) by lia. rewrite next_same by auto. auto.
  - rewrite (proj2 (Nat.ltb_ge (S t) Lt)) by lia. unfold called. rewrite (proj2 (Nat.leb_gt (S t) Lt)) by lia. auto.
Qed.

Lemma due_called t : (F <= t)%nat -> (S t <= Lt)%nat -> due_at (after t) (S t) = true -> called (S t) = true.
Proof.
  intros HF HL Hd. apply after_due in Hd; [|exact HF]. destruct Hd as [[H1 H2]|[H|[H|H]]]; [lia| | |].
  - unfold called. destruct H as (_ & <- & _). now rewrite Nat.leb_refl, Nat.eqb_refl, orb_true_r.
  - unfold called. destruct H as (_ & <- & _). now rewrite Nat.leb_refl, Nat.eqb_refl, orb_true_r.
  - rewrite called_mult by lia. apply Nat.eqb_eq. lia.
Qed.

(** What the sets become. *)
Lemma after_step t : (F <= t)%nat -> (S t <= Lt)%nat -> due_at (after t) (S t) = true ->
  after t = S t :: tl (after t) /\ (forall x, In x (tl (after t)) -> x <> S t) /\
  set_add (ad_next a (S t)) (tl (after t)) = after (S t).
Proof.
  intros HF HL Hd. apply after_due in Hd; [|exact HF]. pose proof (next_gt t) as Hg. pose proof (next_gt (S t)) as Hg'.
  destruct Hd as [[H1 H2]|[(H1 & H2 & H3 & H4)|[(H1 & H2 & H3 & H4)|(H1 & H2 & H3)]]]; [lia| | |].
  - rewrite H4. cbn [tl]. split; [congruence|]. split; [intros x [<-|[]]; lia|]. unfold after. rewrite <- H2, Nat.ltb_irrefl.
    rewrite next_same by lia. cbn [set_add]. now rewrite Nat.ltb_irrefl, Nat.eqb_refl.
  - rewrite H4. cbn [tl]. split; [congruence|]. split; [intros x []|]. unfold after. rewrite <- H2, Nat.ltb_irrefl. reflexivity.
  - rewrite H3. cbn [tl]. split; [reflexivity|]. split; [intros x [<-|[]]; lia|]. unfold after. rewrite (proj2 (Nat.ltb_lt (S t) Lt)) by lia.
    apply set_add2.
Qed.

Lemma due_again t : (F <= t)%nat -> due_at (after t) t = true -> (Lt < t)%nat.
Proof.
  intros HF. unfold after. pose proof (next_gt t). pose proof (next_gt Lt). destruct (Nat.ltb_spec t Lt); cbn [set_add].
  - destruct (Nat.ltb_spec Lt (ad_next a t)); [cbn [due_at]; rewrite Nat.eqb_eq; lia|].
    destruct (Nat.eqb_spec Lt (ad_next a t)); cbn [due_at]; rewrite Nat.eqb_eq; lia.
  - cbn [due_at]. rewrite Nat.eqb_eq. lia.
Qed.

Lemma head_due s t : due_at s t = true -> exists s', s = t :: s'.
Proof. destruct s as [|x s]; cbn [due_at]; [discriminate|]. rewrite Nat.eqb_eq. intros ->. eauto. Qed.

Definition serves (call : list nat -> nat -> outcome (list nat * list iocall)) : Prop :=
  (forall t, (F <= t)%nat -> notify call (after t) (S t) = Ok (after (S t), calls_at (S t))) /\
  (forall t, (F <= t)%nat -> notify call (after t) t = Ok (after t, [])).

Lemma writer_put_head t s : writer_put a (t :: s) t =
  if Nat.ltb Lt t then Ok (t :: s, []) else Ok (set_add (ad_next a t) s, [(Nat.div t nanos, ad_event a t)]).
Proof. unfold writer_put. cbn [check_put tl]. now rewrite Nat.ltb_irrefl. Qed.

Lemma writer_serves : serves (writer_put a).
Proof.
  split; intros t HF; unfold notify.
  - destruct (due_at (after t) (S t)) eqn:Hd.
    + destruct (head_due _ _ Hd) as (s & Es). rewrite Es, writer_put_head. destruct (Nat.ltb_spec Lt (S t)) as [H|H].
      * rewrite <- Es. f_equal. unfold calls_at, called. rewrite (proj2 (Nat.leb_gt (S t) Lt)) by lia. cbn [andb]. f_equal.
        unfold after. rewrite !(proj2 (Nat.ltb_ge _ Lt)) by lia. reflexivity.
      * destruct (after_step t HF H Hd) as (E1 & _ & E2). rewrite Es in E2. cbn [tl] in E2. rewrite E2. unfold calls_at.
        now rewrite due_called by auto.
    + destruct (not_due t HF Hd) as [-> ->]. reflexivity.
  - destruct (due_at (after t) t) eqn:Hd; [|reflexivity]. pose proof (due_again t HF Hd) as H.
    destruct (head_due _ _ Hd) as (s & Es). rewrite Es, writer_put_head, (proj2 (Nat.ltb_lt Lt t)) by lia. reflexivity.
Qed.

Lemma called_F : called F = true.
Proof. unfold called. now rewrite (proj2 (Nat.leb_le _ _) FL), Nat.eqb_refl. Qed.

Lemma writer_first : notify (writer_put a) (writer_init a) F = Ok (after F, calls_at F).
Proof.
  pose proof FL as H. unfold writer_init. cbn [set_add]. unfold calls_at. rewrite called_F. unfold notify, after.
  rewrite (proj2 (Nat.ltb_ge Lt F)) by lia. destruct (Nat.eqb_spec Lt F) as [e|e].
  - cbn [due_at]. rewrite Nat.eqb_refl, writer_put_head. rewrite e, Nat.ltb_irrefl. reflexivity.
  - cbn [due_at]. rewrite Nat.eqb_refl, writer_put_head. rewrite (proj2 (Nat.ltb_ge Lt F)), (proj2 (Nat.ltb_lt F Lt)) by lia.
    now rewrite set_add2.
Qed.

(** Steps at which there are calls are whole steps. *)
Lemma called_whole t : called t = true -> Nat.modulo t nanos = O /\
  (ad_event a t = IoStep -> Nat.modulo (Nat.div t nanos) p = O).
Proof.
  unfold called. intros H. apply andb_prop in H. destruct H as [_ H]. rewrite !orb_true_iff, !Nat.eqb_eq in H.
  destruct H as [[H|H]|H].
  - split; [rewrite H; unfold ad_first_nano; apply Nat.mod_mul; lia|]. unfold ad_event. rewrite H, Nat.eqb_refl. destruct (Nat.eqb F Lt); discriminate.
  - split; [rewrite H; unfold ad_last_nano; apply Nat.mod_mul; lia|]. unfold ad_event. rewrite H, Nat.eqb_refl. discriminate.
  - pose proof stride_pos as Hs. apply Nat.mod_divides in H; [|lia]. destruct H as (c & ->). unfold ad_stride.
    replace (p * nanos * c)%nat with (c * p * nanos)%nat by lia. split; [apply Nat.mod_mul; lia|]. intros _.
    rewrite Nat.div_mul by lia. apply Nat.mod_mul. lia.
Qed.

Lemma set_del_head t s : (forall x, In x s -> x <> t) -> set_del t (t :: s) = s.
Proof.
  intros H. unfold set_del. cbn [filter]. rewrite Nat.eqb_refl. cbn [negb]. induction s as [|y s IH]; [reflexivity|]. cbn [filter].
  rewrite (proj2 (Nat.eqb_neq y t)) by (apply H; now left). cbn [negb]. f_equal. apply IH. intros x Hx. apply H. now right.
Qed.

Lemma steerer_get_called sto t : called t = true -> steerer_get a sto t =
  Ok (set_add (ad_next a t) (set_del t sto), [(Nat.div t nanos, ad_event a t)]).
Proof.
  intros H. destruct (called_whole t H) as [H1 H2]. unfold steerer_get. rewrite H1. cbn [Nat.eqb negb].
  assert (HL : (t <= Lt)%nat) by (apply andb_prop in H; destruct H as [H _]; now apply Nat.leb_le).
  rewrite (proj2 (Nat.ltb_ge Lt t)) by lia. destruct (ad_event a t) eqn:Ee; auto. now rewrite H2.
Qed.

Lemma steerer_get_late sto t : Nat.modulo t nanos = O -> (Lt < t)%nat -> steerer_get a sto t = Ok (sto, []).
Proof. intros H1 H2. unfold steerer_get. rewrite H1. cbn [Nat.eqb negb]. now rewrite (proj2 (Nat.ltb_lt Lt t)). Qed.

Lemma next_whole t : Nat.modulo (ad_next a t) nanos = O.
Proof. destruct (next_spec t) as (k & -> & _). unfold ad_stride. rewrite Nat.mul_assoc. apply Nat.mod_mul. lia. Qed.

Lemma steerer_serves : serves (steerer_get a).
Proof.
  split; intros t HF; unfold notify.
  - destruct (due_at (after t) (S t)) eqn:Hd.
    + destruct (Nat.ltb_spec Lt (S t)) as [H|H].
      * pose proof Hd as Hd'. apply after_due in Hd'; [|exact HF]. destruct Hd' as [[_ H2]|[H2|[H2|H2]]]; try lia.
        rewrite steerer_get_late; [|rewrite <- H2; apply next_whole|lia].
        f_equal. unfold calls_at, called. rewrite (proj2 (Nat.leb_gt (S t) Lt)) by lia. cbn [andb]. f_equal.
        unfold after. rewrite !(proj2 (Nat.ltb_ge _ Lt)) by lia. reflexivity.
      * pose proof (due_called t HF H Hd) as Hc. rewrite steerer_get_called by auto. unfold calls_at. rewrite Hc. f_equal. f_equal.
        destruct (after_step t HF H Hd) as (E1 & E3 & E2). rewrite E1, set_del_head by auto. exact E2.
    + destruct (not_due t HF Hd) as [-> ->]. reflexivity.
  - destruct (due_at (after t) t) eqn:Hd; [|reflexivity]. pose proof (due_again t HF Hd) as H.
    assert (Ea : after t = [ad_next a Lt]) by (unfold after; now rewrite (proj2 (Nat.ltb_ge t Lt)) by lia).
    rewrite steerer_get_late; auto. rewrite Ea in Hd. cbn [due_at] in Hd. apply Nat.eqb_eq in Hd. rewrite <- Hd. apply next_whole.
Qed.

Lemma steerer_first : notify (steerer_get a) (steerer_init a) F = Ok (after F, calls_at F).
Proof.
  pose proof FL as H. pose proof (next_gt F) as Hg.
  assert (Er : ((ad_first a + p - Nat.modulo (ad_first a) p) * nanos)%nat = ad_next a F).
  { unfold ad_next, ad_stride, ad_first_nano. rewrite <- Nat.mul_add_distr_r. rewrite Nat.mul_mod_distr_r by lia.
    rewrite <- Nat.mul_sub_distr_r. f_equal. f_equal. replace (ad_first a + p)%nat with (ad_first a + 1 * p)%nat by lia. now rewrite Nat.mod_add by lia. }
  unfold steerer_init. rewrite Er. unfold notify.
  assert (Es : exists s, set_add Lt (set_add (ad_next a F) (set_add F [])) = F :: s /\ (forall x, In x s -> x <> F) /\ set_add (ad_next a F) s = after F).
  { cbn [set_add]. rewrite (proj2 (Nat.ltb_ge (ad_next a F) F)), (proj2 (Nat.eqb_neq (ad_next a F) F)) by lia. cbn [set_add].
    rewrite (proj2 (Nat.ltb_ge Lt F)) by lia. unfold after. destruct (Nat.eqb_spec Lt F) as [e|e].
    - exists [ad_next a F]. split; [reflexivity|]. split; [intros x [<-|[]]; lia|]. rewrite e, Nat.ltb_irrefl. cbn [set_add].
      now rewrite Nat.ltb_irrefl, Nat.eqb_refl.
    - rewrite (proj2 (Nat.ltb_lt F Lt)) by lia. cbn [set_add]. destruct (Nat.ltb_spec Lt (ad_next a F)).
      + eexists. split; [reflexivity|]. split; [intros x [<-|[<-|[]]]; lia|]. cbn [set_add].
        rewrite (proj2 (Nat.ltb_ge (ad_next a F) Lt)), (proj2 (Nat.eqb_neq (ad_next a F) Lt)) by lia. now rewrite Nat.ltb_irrefl, Nat.eqb_refl.
      + destruct (Nat.eqb_spec Lt (ad_next a F)).
        * eexists. split; [reflexivity|]. split; [intros x [<-|[]]; lia|]. cbn [set_add]. now rewrite Nat.ltb_irrefl, Nat.eqb_refl.
        * eexists. split; [reflexivity|]. split; [intros x [<-|[<-|[]]]; lia|]. cbn [set_add].
          now rewrite Nat.ltb_irrefl, Nat.eqb_refl. }
  destruct Es as (s & -> & Hx & Ea). cbn [due_at]. rewrite Nat.eqb_refl, steerer_get_called by apply called_F.
  rewrite set_del_head by auto. rewrite Ea. unfold calls_at. now rewrite called_F.
Qed.

(** ** Runs *)

Definition calls_upto (t : nat) : list iocall := flat_map calls_at (seq F (S t - F)).

Lemma upto_S t : (F <= S t)%nat -> calls_upto (S t) = calls_upto t ++ calls_at (S t).
Proof.
  intros H. unfold calls_upto. replace (S (S t) - F)%nat with (S (S t - F)) by lia. rewrite seq_S, flat_map_app. cbn [flat_map].
  rewrite app_nil_r. do 2 f_equal. lia.
Qed.

Lemma run_after call : serves call -> forall ts t, (F <= t)%nat -> gapless t ts ->
  exists cs, notify_all call (after t) ts = Ok (after (List.last ts t), cs) /\ calls_upto t ++ cs = calls_upto (List.last ts t).
Proof.
  intros [H1 H2]. induction ts as [|t' ts IH]; intros t HF Hg.
  - exists []. split; [reflexivity|]. now rewrite app_nil_r.
  - destruct Hg as [Ht Hg]. cbn [notify_all].
    assert (El : List.last (t' :: ts) t = List.last ts t').
    { clear. revert t'. induction ts as [|x ts IH]; intros t'; [reflexivity|]. change (List.last (t' :: x :: ts) t) with (List.last (x :: ts) t).
      rewrite IH. symmetry. change (List.last (x :: ts) t') with (match ts with [] => x | _ => List.last ts t' end). destruct ts; [reflexivity|].
      clear. revert n. induction ts as [|y ts IH]; intros n; [reflexivity|]. change (List.last (y :: ts) t' = List.last (y :: ts) x). apply IH. }
    rewrite El. destruct Ht as [->| ->].
    + rewrite (H2 t HF). destruct (IH t HF Hg) as (cs & -> & E). exists cs. auto.
    + rewrite (H1 t HF). destruct (IH (S t) ltac:(lia) Hg) as (cs & -> & E). eexists. split; [reflexivity|].
      rewrite app_assoc, <- upto_S by lia. exact E.
Qed.

Lemma run_first call s0 ts : serves call -> notify call s0 F = Ok (after F, calls_at F) -> gapless F ts ->
  notify_all call s0 (F :: ts) = Ok (after (List.last ts F), calls_upto (List.last ts F)).
Proof.
  intros Hs H0 Hg. cbn [notify_all]. rewrite H0. destruct (run_after call Hs ts F (le_n _) Hg) as (cs & -> & E).
  f_equal. f_equal. rewrite <- E. f_equal. unfold calls_upto. replace (S F - F)%nat with 1%nat by lia. cbn [seq flat_map]. now rewrite app_nil_r.
Qed.

(** The calls are those of the schedule. *)
Lemma schedule_calls t : (F <= t)%nat -> calls_upto t = io_schedule (ad_first a) (ad_last a) p (Nat.div t nanos).
Proof.
  assert (Hev : forall s, ad_event a (s * nanos) = io_event (ad_first a) (ad_last a) s).
  { intros s. unfold ad_event, io_event, ad_last_nano, ad_first_nano.
    assert (He : forall x y, Nat.eqb (x * nanos) (y * nanos) = Nat.eqb x y).
    { intros x y. apply eq_iff_eq_true. rewrite !Nat.eqb_eq. nia. }
    now rewrite !He. }
  assert (Hc : forall s, (s <= ad_last a)%nat -> called (s * nanos) = io_due (ad_first a) (ad_last a) p s).
  { intros s Hs. unfold called, io_due. rewrite (proj2 (Nat.leb_le _ _)) by (unfold ad_last_nano; nia). cbn [andb].
    unfold ad_first_nano, ad_last_nano, ad_stride. rewrite Nat.mul_mod_distr_r by lia. apply eq_iff_eq_true. rewrite !orb_true_iff, !Nat.eqb_eq.
    assert (Hd : (s mod p * nanos = 0 <-> s mod p = 0)%nat) by nia. nia. }
  assert (Hin : forall t, Nat.modulo t nanos <> O -> calls_at t = []).
  { intros t' H. unfold calls_at. destruct (called t') eqn:E; [|reflexivity]. apply called_whole in E. tauto. }
  assert (Hlate : forall t, (Lt < t)%nat -> calls_at t = []).
  { intros t' H. unfold calls_at, called. now rewrite (proj2 (Nat.leb_gt t' Lt)) by lia. }
  intros HF. replace t with (F + (t - F))%nat by lia. induction (t - F)%nat as [|k IH].
  - rewrite Nat.add_0_r. unfold calls_upto. replace (S F - F)%nat with 1%nat by lia. cbn [seq flat_map]. rewrite app_nil_r.
    unfold io_schedule, io_steps. replace (F / nanos)%nat with (ad_first a) by (unfold ad_first_nano; now rewrite Nat.div_mul by lia).
    rewrite Nat.min_l by lia. replace (S (ad_first a) - ad_first a)%nat with 1%nat by lia. cbn [seq filter].
    unfold calls_at. rewrite called_F. unfold io_due. rewrite Nat.eqb_refl. cbn [orb map]. rewrite <- Hev. unfold ad_first_nano. now rewrite Nat.div_mul by lia.
  - rewrite Nat.add_succ_r, upto_S, IH by lia. set (u := (F + k)%nat) in *. assert (HFu : (F <= u)%nat) by (unfold u; lia). clearbody u. clear IH.
    pose proof (Nat.div_mod u nanos ltac:(lia)) as Du. pose proof (Nat.mod_upper_bound u nanos ltac:(lia)) as Mu.
    destruct (Nat.eq_dec (S (Nat.modulo u nanos)) nanos) as [e|e].
    + assert (Es : S u = (S (u / nanos) * nanos)%nat) by nia. set (q := Nat.div u nanos) in *.
      assert (Eq : (S u / nanos)%nat = S q) by (rewrite Es; apply Nat.div_mul; lia).
      rewrite Eq. assert (Hq : (ad_first a <= q)%nat) by (unfold ad_first_nano in HFu; nia).
      unfold io_schedule, io_steps. destruct (le_lt_dec (S q) (ad_last a)) as [Hl|Hl].
      * rewrite !Nat.min_l by lia. replace (S (S q) - ad_first a)%nat with (S (S q - ad_first a)) by lia.
        rewrite seq_S, filter_app, map_app. f_equal. replace (ad_first a + (S q - ad_first a))%nat with (S q) by lia. cbn [filter].
        unfold calls_at. rewrite Es, Hc by lia. destruct (io_due _ _ _ (S q)); [|reflexivity]. cbn [map].
        now rewrite Hev, Nat.div_mul by lia.
      * rewrite !Nat.min_r by lia. rewrite Hlate, app_nil_r; [reflexivity|]. unfold ad_last_nano. nia.
    + assert (Eq : (S u / nanos)%nat = (u / nanos)%nat).
      { symmetry. apply Nat.div_unique with (r := S (Nat.modulo u nanos)); lia. }
      rewrite Eq, Hin, app_nil_r; [reflexivity|]. pose proof (Nat.div_mod (S u) nanos ltac:(lia)). rewrite Eq in H. lia.
Qed.

End Adapter.

(** ** SerialSimulator *)

Section Serial.
Context (start last wp sp : nat) (ends : nat -> bool).
Hypothesis Hwp : (1 <= wp)%nat.
Hypothesis Hsp : (1 <= sp)%nat.

Notation step := (serial_sim_step last wp sp ends).

(** The steerer's calls for steps from [start] on, the first of which comes on
    top of the initial call. *)
Definition serial_steerer_calls (s : nat) : list iocall :=
  (start, IoInitialized) :: map (fun t => (t, IoStep)) (filter (fun t => Nat.eqb (Nat.modulo t sp) 0) (seq start (s - start))).

Definition serial_ended (s : nat) : bool :=
  ends start || existsb ends (filter (fun t => Nat.eqb (Nat.modulo t sp) 0) (seq start (s - start))).

Definition serial_ok (s : serial) : Prop :=
  (start <= sr_step s <= last)%nat /\
  sr_writer s = io_schedule start last wp (sr_step s) /\
  sr_steerer s = serial_steerer_calls (sr_step s) /\
  sr_ended s = serial_ended (sr_step s).

Lemma schedule_S s : (start <= s)%nat -> (S s <= last)%nat ->
  io_schedule start last wp (S s) = io_schedule start last wp s ++
    if io_due start last wp (S s) then [(S s, io_event start last (S s))] else [].
Proof.
  intros H1 H2. unfold io_schedule, io_steps. rewrite !Nat.min_l by lia. replace (S (S s) - start)%nat with (S (S s - start)) by lia.
  rewrite seq_S, filter_app, map_app. f_equal. replace (start + (S s - start))%nat with (S s) by lia. cbn [filter].
  now destruct (io_due _ _ _ _).
Qed.

Lemma step_ok s : (sr_step s < last)%nat -> serial_ok s -> serial_ok (step s) /\ sr_step (step s) = S (sr_step s).
Proof.
  intros Hl (Hs & Hw & Hst & He). destruct s as [s w st e]. cbn [sr_step sr_writer sr_steerer sr_ended] in *.
  assert (Hin : exists st' e', handle_input sp ends IoStep (mkSerial s w st e) = mkSerial s w st' e' /\
    st' = serial_steerer_calls (S s) /\ e' = serial_ended (S s)).
  { unfold handle_input. cbn [is_step negb orb sr_step sr_writer sr_steerer sr_ended].
    unfold serial_steerer_calls, serial_ended in *. replace (S s - start)%nat with (S (s - start)) by lia.
    rewrite seq_S, filter_app. replace (start + (s - start))%nat with s by lia. cbn [filter]. rewrite existsb_app, map_app.
    destruct (Nat.eqb (Nat.modulo s sp) 0).
    - do 2 eexists. split; [reflexivity|]. cbn [map existsb]. subst. split; [reflexivity|]. now rewrite orb_false_r, orb_assoc.
    - do 2 eexists. split; [reflexivity|]. cbn [map existsb]. subst. now rewrite app_nil_r, orb_false_r. }
  destruct Hin as (st' & e' & Ein & -> & ->). unfold serial_sim_step. rewrite Ein. cbn [sr_step sr_writer sr_steerer sr_ended].
  unfold handle_output. cbn [sr_step sr_writer sr_steerer sr_ended].
  pose proof (schedule_S s ltac:(lia) ltac:(lia)) as Hsch. rewrite <- Hw in Hsch.
  destruct (Nat.eqb_spec (S s) last) as [e1|e1].
  - cbn [is_step negb orb]. split; [|reflexivity]. split; [cbn; lia|]. cbn [sr_step sr_writer sr_steerer sr_ended]. split; [|auto].
    rewrite Hsch. unfold io_due, io_event. rewrite (proj2 (Nat.eqb_eq _ _) e1). rewrite orb_true_r. reflexivity.
  - cbn [is_step negb orb]. unfold io_due, io_event in Hsch. rewrite (proj2 (Nat.eqb_neq (S s) start)) in Hsch by lia.
    rewrite (proj2 (Nat.eqb_neq _ _) e1) in Hsch. cbn [orb] in Hsch.
    destruct (Nat.eqb (Nat.modulo (S s) wp) 0).
    + split; [|reflexivity]. split; [cbn; lia|]. cbn [sr_step sr_writer sr_steerer sr_ended]. auto.
    + split; [|reflexivity]. split; [cbn; lia|]. cbn [sr_step sr_writer sr_steerer sr_ended]. rewrite app_nil_r in Hsch. auto.
Qed.

(** The loop stops at the first step before which the steerer has ended the
    simulation, or at the last one. *)
Lemma loop_ok fuel : forall s, serial_ok s -> (last - sr_step s <= fuel)%nat ->
  exists s', serial_loop last wp sp ends fuel s = Some s' /\ serial_ok s' /\ (sr_step s <= sr_step s')%nat /\
    (sr_step s' = last \/ sr_ended s' = true) /\ (forall t, (sr_step s <= t < sr_step s')%nat -> serial_ended t = false).
Proof.
  induction fuel as [|fuel IH]; intros s Hok Hf.
  - exists s. cbn [serial_loop]. assert (Hs : (sr_step s <= last)%nat) by apply Hok. rewrite (proj2 (Nat.ltb_ge _ _)) by lia.
    split; [reflexivity|]. split; [exact Hok|]. split; [lia|]. split; [left; lia|]. intros; lia.
  - cbn [serial_loop]. assert (Hs : (sr_step s <= last)%nat) by apply Hok. destruct (Nat.ltb_spec (sr_step s) last) as [Hl|Hl].
    + destruct (sr_ended s) eqn:Ee.
      * exists s. split; [reflexivity|]. split; [exact Hok|]. split; [lia|]. split; [auto|]. intros; lia.
      * destruct (step_ok s Hl Hok) as [Hok' E']. destruct (IH (step s) Hok' ltac:(lia)) as (s' & E & Hs' & Hle & Hd & Ht).
        exists s'. split; [exact E|]. split; [exact Hs'|]. split; [lia|]. split; [exact Hd|]. intros t Ht'.
        destruct (Nat.eq_dec t (sr_step s)) as [->|Hne]; [|apply Ht; lia]. destruct Hok as (_ & _ & _ & He). congruence.
    + exists s. split; [reflexivity|]. split; [exact Hok|]. split; [lia|]. split; [left; lia|]. intros; lia.
Qed.

Lemma run_ok fuel : (start < last)%nat -> (last - start <= fuel)%nat -> exists s,
  serial_sim_run start last wp sp ends fuel = Some (mkSerial (sr_step s) (sr_writer s) (sr_steerer s ++ [(sr_step s, IoAllDone)]) (sr_ended s || ends (sr_step s))) /\
  serial_ok s /\ (sr_step s = last \/ sr_ended s = true) /\ (forall t, (start <= t < sr_step s)%nat -> serial_ended t = false).
Proof.
  intros Hl Hf. unfold serial_sim_run.
  change (handle_output wp IoInitialized (handle_input sp ends IoInitialized (mkSerial start [] [] false)))
    with (mkSerial start [(start, IoInitialized)] [(start, IoInitialized)] (ends start)).
  destruct (loop_ok fuel (mkSerial start [(start, IoInitialized)] [(start, IoInitialized)] (ends start))) as (s & -> & Hok & _ & Hd & Ht).
  - split; [cbn; lia|]. cbn [sr_step sr_writer sr_steerer sr_ended]. split; [|split].
    + unfold io_schedule, io_steps. rewrite Nat.min_l by lia. replace (S start - start)%nat with 1%nat by lia. cbn [seq filter].
      unfold io_due, io_event. rewrite Nat.eqb_refl. cbn [orb map]. rewrite (proj2 (Nat.eqb_neq start last)) by lia. now rewrite Nat.eqb_refl.
    + unfold serial_steerer_calls. now rewrite Nat.sub_diag.
    + unfold serial_ended. rewrite Nat.sub_diag. cbn. now rewrite orb_false_r.
  - cbn. lia.
  - exists s. cbn [option_map]. split; [reflexivity|]. auto.
Qed.
End Serial.

(** ** HierarchicalSimulator *)

Section Hier.
Context (nanos start last period : nat).
Hypothesis Hn : (1 <= nanos)%nat.
Hypothesis Hp : (1 <= period)%nat.
Hypothesis Hsl : (start <= last)%nat.
Notation T0 := (start * nanos)%nat. Notation TL := (last * nanos)%nat.

Definition evEnd := mkEv true false.
Definition evBal := mkEv false true.

(** The next time to balance loads after [now]. *)
Definition next_balance (now : nat) : nat := (T0 + S (Nat.div (now - T0) period) * period)%nat.

Definition pending (now : nat) : list (nat * evset) :=
  if Nat.ltb TL (next_balance now) then [(TL, evEnd)]
  else if Nat.eqb TL (next_balance now) then [(TL, mkEv true true)]
  else [(next_balance now, evBal); (TL, evEnd)].

Definition hier_ok (s : hier) (k : nat) : Prop :=
  hs_now s = (T0 + k)%nat /\ hs_balanced s = balance_times T0 period (T0 + k) /\ hs_updated s = seq T0 k /\
  ((T0 + k < TL)%nat -> hs_events s = pending (T0 + k)).

Lemma next_gt_now now : (T0 <= now)%nat -> (now < next_balance now)%nat.
Proof.
  intros H. unfold next_balance. pose proof (Nat.div_mod (now - T0) period ltac:(lia)). pose proof (Nat.mod_upper_bound (now - T0) period ltac:(lia)). nia.
Qed.

Lemma next_stable now t : (T0 <= now)%nat -> (now <= t < next_balance now)%nat -> Nat.div (t - T0) period = Nat.div (now - T0) period.
Proof.
  unfold next_balance. intros H1 H2. pose proof (Nat.div_mod (now - T0) period ltac:(lia)). pose proof (Nat.mod_upper_bound (now - T0) period ltac:(lia)).
  symmetry. apply Nat.div_unique with (r := (t - T0 - period * ((now - T0) / period))%nat); nia.
Qed.

Lemma next_hit now : (T0 <= now)%nat -> Nat.div (next_balance now - T0) period = S (Nat.div (now - T0) period).
Proof. intros H. unfold next_balance. rewrite Nat.add_comm, Nat.add_sub. apply Nat.div_mul. lia. Qed.

Lemma next_next now : (T0 <= now)%nat -> next_balance (next_balance now) = (next_balance now + period)%nat.
Proof. intros H. unfold next_balance at 1. rewrite next_hit by auto. unfold next_balance. lia. Qed.

Lemma init_ok : hier_ok (hier_init nanos start last period) 0.
Proof.
  split; [cbn; lia|]. unfold hier_init. cbn [hs_balanced hs_updated hs_events hs_now]. split; [|split].
  - unfold balance_times. rewrite Nat.add_0_r, Nat.sub_diag, Nat.div_0_l by lia. reflexivity.
  - reflexivity.
  - intros H. rewrite Nat.add_0_r in *. unfold insert_balance, pending, next_balance. rewrite Nat.sub_diag, Nat.div_0_l by lia. rewrite Nat.mul_1_l.
    cbn [ev_add]. fold evEnd. destruct (Nat.ltb_spec TL (T0 + period)).
    + rewrite (proj2 (Nat.leb_gt _ _)) by lia. reflexivity.
    + rewrite (proj2 (Nat.leb_le _ _)) by lia. destruct (Nat.eqb_spec TL (T0 + period)) as [e|e].
      * rewrite (proj2 (Nat.ltb_ge _ _)) by lia. rewrite (proj2 (Nat.eqb_eq _ _)) by lia. reflexivity.
      * rewrite (proj2 (Nat.ltb_lt _ _)) by lia. reflexivity.
Qed.

(** One hop. *)
Lemma hop_ok s k t e m hop : hier_ok s k -> (T0 + k < TL)%nat -> hs_events s = (t, e) :: m -> (1 <= hop)%nat -> (hop <= t - hs_now s)%nat ->
  exists s', handle_events nanos last period (mkHier (hs_now s + hop) (hs_events s) (hs_balanced s) (hs_updated s ++ seq (hs_now s) hop)) = Ok s' /\
    hier_ok s' (k + hop) /\ (t <= TL)%nat.
Proof.
  intros (Hnow & Hbal & Hupd & Hev) HkL Ee Hh1 Hh2. specialize (Hev HkL). rewrite Hev in Ee. rewrite Hev.
  pose proof (next_gt_now (T0 + k) ltac:(lia)) as Hgt. set (now := (T0 + k)%nat) in *. assert (HT : (T0 <= now)%nat) by lia.
  assert (Hu : hs_updated s ++ seq (hs_now s) hop = seq T0 (k + hop)) by (rewrite Hupd, Hnow; unfold now; rewrite <- seq_app; reflexivity).
  rewrite Hu, Hnow in *. clear Hu Hupd Hev.
  assert (HtB : (t <= next_balance now)%nat /\ (t <= TL)%nat).
  { unfold pending in Ee. destruct (Nat.ltb_spec TL (next_balance now)); [injection Ee; lia|].
    destruct (Nat.eqb_spec TL (next_balance now)); injection Ee; lia. }
  destruct (Nat.eq_dec (now + hop) t) as [Et|Et].
  - (* the event is reached *)
    unfold handle_events. cbn [hs_events hs_now hs_balanced hs_updated]. rewrite Ee. rewrite Et, Nat.ltb_irrefl.
    destruct (ev_balance e) eqn:Eb.
    + assert (Htn : t = next_balance now).
      { unfold pending in Ee. destruct (Nat.ltb_spec TL (next_balance now)); [injection Ee as <- <- <-; discriminate|].
        destruct (Nat.eqb_spec TL (next_balance now)); injection Ee as <- <- <-; auto. }
      eexists. split; [reflexivity|]. split; [|lia]. split; [cbn [hs_now]; unfold now in *; lia|]. cbn [hs_balanced hs_updated hs_events].
      replace (T0 + (k + hop))%nat with t by (unfold now in *; lia). split; [|split; [reflexivity|]].
      * rewrite Hbal. unfold balance_times. rewrite Htn, next_hit by auto. rewrite (seq_S (Nat.div (now - T0) period) 1), map_app. cbn [map]. f_equal.
      * intros HtL. assert (Hm : (t, e) :: m = [(t, evBal); (TL, evEnd)]).
        { unfold pending in Ee. destruct (Nat.ltb_spec TL (next_balance now)); [lia|]. destruct (Nat.eqb_spec TL (next_balance now)); [lia|]. rewrite <- Ee. congruence. }
        rewrite Hm. unfold insert_balance. unfold pending. rewrite <- Htn in *.
        assert (Hnn : next_balance t = (t + period)%nat) by (rewrite Htn at 1; rewrite next_next by auto; lia). rewrite Hnn.
        destruct (Nat.ltb_spec TL (t + period)) as [H1|H1].
        -- rewrite (proj2 (Nat.leb_gt _ _)) by lia. reflexivity.
        -- rewrite (proj2 (Nat.leb_le _ _)) by lia. cbn [ev_add]. rewrite (proj2 (Nat.ltb_ge (t + period) t)), (proj2 (Nat.eqb_neq (t + period) t)) by lia.
           cbn [tl]. destruct (Nat.eqb_spec TL (t + period)).
           ++ rewrite (proj2 (Nat.ltb_ge _ _)) by lia. rewrite (proj2 (Nat.eqb_eq _ _)) by lia. reflexivity.
           ++ rewrite (proj2 (Nat.ltb_lt _ _)) by lia. reflexivity.
    + assert (Htl : t = TL /\ (TL < next_balance now)%nat).
      { unfold pending in Ee. destruct (Nat.ltb_spec TL (next_balance now)); [injection Ee as <- <- <-; auto|].
        destruct (Nat.eqb_spec TL (next_balance now)); injection Ee as <- <- <-; discriminate. }
      eexists. split; [reflexivity|]. split; [|lia]. split; [cbn [hs_now]; unfold now in *; lia|]. cbn [hs_balanced hs_updated hs_events].
      replace (T0 + (k + hop))%nat with t by (unfold now in *; lia). split; [|split; [reflexivity|lia]].
      rewrite Hbal. unfold balance_times. rewrite (next_stable now t) by lia. reflexivity.
  - (* not yet *)
    unfold handle_events. cbn [hs_events hs_now hs_balanced hs_updated]. rewrite Ee. rewrite (proj2 (Nat.ltb_ge t (now + hop))), (proj2 (Nat.ltb_lt (now + hop) t)) by lia.
    eexists. split; [reflexivity|]. split; [|lia]. split; [cbn [hs_now]; unfold now in *; lia|]. cbn [hs_balanced hs_updated hs_events].
    replace (T0 + (k + hop))%nat with (now + hop)%nat by (unfold now in *; lia).
    pose proof (next_stable now (now + hop) HT ltac:(lia)) as Hd. split; [|split; [reflexivity|]].
    + rewrite Hbal. unfold balance_times. now rewrite Hd.
    + intros _. rewrite <- Ee. unfold pending, next_balance. now rewrite Hd.
Qed.

Lemma steps_ok fuel : forall s k rem, hier_ok s k -> (T0 + k + rem <= TL)%nat -> (rem <= fuel)%nat ->
  exists s', hier_steps nanos last period fuel s rem = Ok s' /\ hier_ok s' (k + rem).
Proof.
  induction fuel as [|fuel IH]; intros s k rem Hok HL Hf.
  - assert (rem = O) by lia. subst rem. exists s. rewrite Nat.add_0_r. auto.
  - destruct rem as [|rem]; [exists s; rewrite Nat.add_0_r; auto|]. cbn [hier_steps].
    destruct (hs_events s) as [|(t & e) m] eqn:Ee.
    + exfalso. destruct Hok as (_ & _ & _ & He). rewrite He in Ee by lia. unfold pending in Ee.
      destruct (Nat.ltb TL (next_balance (T0 + k))); [discriminate|]. destruct (Nat.eqb TL (next_balance (T0 + k))); discriminate.
    + assert (Hnow : hs_now s = (T0 + k)%nat) by apply Hok.
      assert (Ht : (T0 + k < t)%nat).
      { destruct Hok as (_ & _ & _ & He). rewrite He in Ee by lia. pose proof (next_gt_now (T0 + k) ltac:(lia)). unfold pending in Ee.
        destruct (Nat.ltb_spec TL (next_balance (T0 + k))); [injection Ee; lia|]. destruct (Nat.eqb_spec TL (next_balance (T0 + k))); injection Ee; lia. }
      set (hop := Nat.min (S rem) (t - hs_now s)). rewrite <- Ee.
      destruct (hop_ok s k t e m hop Hok ltac:(lia) Ee ltac:(lia) ltac:(lia)) as (s' & E & Hok' & _). rewrite E.
      destruct (IH s' (k + hop)%nat (S rem - hop)%nat Hok' ltac:(lia) ltac:(lia)) as (s'' & E' & Hok''). exists s''. split; [exact E'|].
      replace (k + S rem)%nat with (k + hop + (S rem - hop))%nat by lia. exact Hok''.
Qed.

Lemma time_to_last_ok s k : hier_ok s k -> (T0 + k < TL)%nat -> time_to_last s = (TL - (T0 + k))%nat.
Proof.
  intros (Hnow & _ & _ & He) HL. unfold time_to_last. rewrite He by auto. rewrite Hnow. f_equal. unfold pending.
  destruct (Nat.ltb _ _); [reflexivity|]. destruct (Nat.eqb _ _); reflexivity.
Qed.
End Hier.
