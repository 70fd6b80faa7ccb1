(** HPXDataflowSimulator doesn't get stuck and terminates. *)
From Verif Require Import Base DataflowModel DataflowSpec DataflowFacts DataflowSafe.
From Coq Require Import ZifyBool ZifyNat.

Lemma some_or_none {A} (P : A -> bool) l : (exists x, In x l /\ P x = true) \/ (forall x, In x l -> P x = false).
Proof.
  destruct (existsb P l) eqn:E.
  - left. now apply existsb_exists.
  - right. intros x I. destruct (P x) eqn:Ex; [ | reflexivity ]. rewrite <- E. symmetry. apply existsb_exists. now exists x.
Qed.

Lemma min_of {A} (f : A -> Z) l : l <> [] -> exists m, In m l /\ forall x, In x l -> f m <= f x.
Proof.
  induction l as [|a l IH]; [ easy | ]. intros _. destruct l as [|b l].
  - exists a. split; [ now left | ]. intros x [ <- |[]]. lia.
  - destruct (IH ltac:(discriminate)) as (m & Im & Hm). destruct (Z_le_gt_dec (f a) (f m)) as [L|L].
    + exists a. split; [ now left | ]. intros x [ <- |I]; [ lia | ]. specialize (Hm x I). lia.
    + exists m. split; [ now right | ]. intros x [ <- |I]; [ lia | auto ].
Qed.

Section Live.
Context {C M : Type} (D : dataflow C M).
Notation N := (total D). Notation cells := (all_cells D). Notation nb := (df_nb D).
Hypothesis OK : df_ok D.

Lemma all_of_some {A B} (f : A -> option B) l : (forall a, In a l -> f a <> None) -> exists r, all_of f l = Some r.
Proof.
  induction l as [|a l IH]; intros H; [ now exists [] | ]. destruct IH as (r & E); [ intros x I; apply H; now right | ].
  cbn. rewrite E. destruct (f a) eqn:Ea; [ eauto | ]. exfalso. apply (H a); [ now left | exact Ea ].
Qed.

Lemma begin_possible g id j : inv D g -> In id cells -> g_net g = [] -> k_run (g_comp g id) = None ->
  In j (k_built (g_comp g id)) -> first_of D j <= k_done (g_comp g id) -> k_done (g_comp g id) < end_of D j ->
  (forall x, In x cells -> k_done (g_comp g id) <= k_done (g_comp g x)) -> exists g', fire_begin D id g = Next g'.
Proof.
  intros (W & HM) I En Er Ij F E Min. unfold fire_begin. rewrite Er.
  assert (Ex : existsb (fun k => (first_of D k <=? k_done (g_comp g id)) && (k_done (g_comp g id) <? end_of D k)) (k_built (g_comp g id)) = true).
  { apply existsb_exists. exists j. split; [ exact Ij | lia ]. }
  rewrite Ex.
  destruct (all_of_some (fun n => incoming D g id n (k_done (g_comp g id))) (nb id)) as (r & ->); [ | eauto ].
  intros n Hn. destruct (ok_sym D OK id n I Hn) as (In_ & Hb). unfold incoming. destruct (0 <? k_done (g_comp g id)) eqn:Et; [ | discriminate ].
  match goal with |- context [find ?h ?l] => destruct (find h l) as [q|] eqn:Fq; [ destruct q; discriminate | exfalso ] end.
  assert (S : sent_to g n id (k_done (g_comp g id))) by (split; [ lia | left; now apply Min ]).
  apply (w_sent D g W n id _ In_ Hb) in S. unfold mails in S. rewrite En in S. cbn in S. apply in_map_iff in S.
  destruct S as ([[[f to] s] m] & Ek & Hq). unfold key in Ek. injection Ek as -> -> ->.
  pose proof (find_none _ _ Fq _ Hq) as Q. cbn in Q. lia.
Qed.

Lemma chunk_of t : 0 <= t < N -> exists j, live D j /\ first_of D j <= t < end_of D j.
Proof.
  intros H. pose proof (ok_nano D OK). pose proof (ok_chunk D OK). unfold total in H.
  set (s := df_chunk D * df_nano D). assert (0 < s) by (unfold s; nia). exists (t / s).
  pose proof (Z.div_mod t s ltac:(lia)) as E. pose proof (Z.mod_pos_bound t s ltac:(lia)) as B.
  assert (Q : 0 <= t / s) by (apply Z.div_pos; lia). set (q := t / s) in *. set (r := t mod s) in *. clearbody q r.
  unfold live, first_of, end_of. replace (q * df_chunk D * df_nano D) with (s * q) by (unfold s; ring).
  assert (s * q < df_max D * df_nano D) by lia.
  assert (q * df_chunk D < df_max D) by (unfold s in *; nia).
  repeat split; lia.
Qed.

Theorem progress g : inv D g -> finished D g \/ exists a g', fire D a g = Next g'.
Proof.
  intros V. pose proof V as (W & HM). set (locs := seq 0 (length (df_locs D))).
  assert (Locs : forall l, In l locs <-> (l < length (df_locs D))%nat) by (intros l; unfold locs; rewrite in_seq; lia).
  (* components *)
  destruct (some_or_none (fun id => negb (k_made (g_comp g id))) cells) as [(id & I & E)|Made].
  { right. exists (LMake id). cbn. unfold fire_make. change (concat (df_locs D)) with cells. rewrite (proj2 (memZ_spec id _) I), E. cbn [andb]. eauto. }
  assert (Made' : forall id, In id cells -> k_made (g_comp g id) = true).
  { intros id I. specialize (Made id I). now destruct (k_made (g_comp g id)). } clear Made.
  (* launching *)
  destruct (some_or_none (fun l => match m_phase (g_main g l) with Launching _ _ => true | _ => false end) locs) as [(l & I & E)|NotL].
  { right. exists (LLaunch l). cbn. unfold fire_launch. apply Locs in I.
    assert ((l <? length (df_locs D))%nat = true) as -> by lia. cbn [negb].
    destruct (m_phase (g_main g l)) as [k [|id todo]|k| |]; try discriminate; [ | eauto ].
    destruct (cells_of D l) eqn:Ec; [ | eauto ]. exfalso. revert Ec. apply (ok_locs D OK). unfold cells_of. now apply nth_In. }
  (* setup *)
  destruct (some_or_none (fun id => negb (Nat.eqb (length (k_tasks (g_comp g id))) 0)) cells) as [(id & I & E)|NotT].
  { right. destruct (k_tasks (g_comp g id)) as [|k r] eqn:Et; [ discriminate | ]. exists (LSetup id k). cbn. unfold fire_setup.
    rewrite Et. cbn [take1]. rewrite Z.eqb_refl, (Made' id I).
    assert (linked D g id = true) as ->.
    { apply forallb_forall. intros n Hn. destruct (ok_sym D OK id n I Hn) as (In_ & Hb). rewrite (Made' n In_). now apply memZ_spec in Hb as ->. }
    rewrite orb_true_r. cbn. eauto. }
  assert (Built : forall id j, In id cells -> has (g_comp g id) j -> In j (k_built (g_comp g id))).
  { intros id j I. specialize (NotT id I). unfold has. destruct (k_tasks (g_comp g id)); [ auto | discriminate ]. } clear NotT.
  (* messages *)
  destruct (g_net g) as [|q net] eqn:En.
  2: { right. exists (LDeliver 0). cbn. pose proof (inv_deliver D 0 g V) as (R & _). unfold fire_deliver in *. rewrite En in *. cbn in *.
       destruct (existsb _ (g_inbox g)); [ congruence | eauto ]. }
  (* updates *)
  destruct (some_or_none (fun id => match k_run (g_comp g id) with Some _ => true | None => false end) cells) as [(id & I & E)|NotR].
  { right. exists (LStep id). cbn. apply (inv_step D OK id g V). now destruct (k_run (g_comp g id)). }
  assert (Idle : forall id, In id cells -> k_run (g_comp g id) = None).
  { intros id I. specialize (NotR id I). now destruct (k_run (g_comp g id)). } clear NotR.
  (* signals *)
  destruct (some_or_none (fun l => match m_phase (g_main g l), cells_of D l with
     | Returned, _ => false | _, [] => false | _, id :: _ => existsb (fun j => end_of D j <=? k_done (g_comp g id)) (m_conts (g_main g l)) end) locs) as [(l & I & E)|NotS].
  { right. destruct (cells_of D l) as [|id r] eqn:Ec; [ destruct (m_phase (g_main g l)); discriminate | ].
    assert (Ex : existsb (fun j => end_of D j <=? k_done (g_comp g id)) (m_conts (g_main g l)) = true) by (destruct (m_phase (g_main g l)); congruence).
    apply existsb_exists in Ex. destruct Ex as (j & Ij & Ej). exists (LSignal l j). cbn. unfold fire_signal.
    destruct (take1_some _ _ Ij) as (r' & ->). rewrite Ec, Ej. destruct (m_phase (g_main g l)); try discriminate; eauto. }
  (* at the semaphore *)
  assert (Pass : forall l k id, In l locs -> m_phase (g_main g l) = Waiting k -> In id (cells_of D l) ->
      (forall x, In x (cells_of D l) -> end_of D k <= k_done (g_comp g x)) -> exists a g', fire D a g = Next g').
  { intros l k id Il Ep Iid Hx. exists (LLaunch l). cbn. unfold fire_launch. specialize (NotS l Il). apply Locs in Il.
    assert ((l <? length (df_locs D))%nat = true) as -> by lia. cbn [negb]. rewrite Ep in *.
    destruct (cells_of D l) as [|id0 r] eqn:Ec; [ easy | ].
    pose proof (p_phase D g l (HM l)) as P. rewrite Ep in P.
    destruct (p_sig D g l (HM l) k P ltac:(rewrite Ep; cbn; lia)) as [S|S].
    - exfalso. assert (Q : existsb (fun j => end_of D j <=? k_done (g_comp g id0)) (m_conts (g_main g l)) = true); [ | congruence ].
      apply existsb_exists. exists k. split; [ exact S | ]. specialize (Hx id0 ltac:(now left)). lia.
    - pose proof (ok_chunk D OK). assert (k * df_chunk D - 2 * df_chunk D <=? m_lower (g_main g l) = true) as -> by lia. eauto. }
  destruct (some_or_none (fun l => match m_phase (g_main g l) with Returned => false | _ => true end) locs) as [(l & Il & E)|AllR].
  2: { left. intros l L. specialize (AllR l (proj2 (Locs l) L)). destruct (m_phase (g_main g l)); congruence. }
  right. pose proof (NotL l Il) as NL.
  assert (Ne : cells_of D l <> []) by (apply (ok_locs D OK); unfold cells_of; apply nth_In; now apply Locs).
  assert (Nc : cells <> []). { destruct (cells_of D l) as [|x r] eqn:Ec; [ easy | ]. intros Q. assert (Ix : In x cells) by (apply (cells_of_in D l); rewrite Ec; now left). rewrite Q in Ix. easy. }
  destruct (min_of (fun id => k_done (g_comp g id)) cells Nc) as (m & Im & Min). cbn in Min.
  pose proof (w_comp D g W m Im) as (Hd & _).
  destruct (Z_lt_ge_dec (k_done (g_comp g m)) N) as [Lt|Ge].
  - destruct (chunk_of (k_done (g_comp g m)) ltac:(lia)) as (j & Lj & Hj). destruct (cells_loc D m Im) as (l' & L' & I').
    assert (Begin : has (g_comp g m) j -> exists a g', fire D a g = Next g').
    { intros H. exists (LBegin m). cbn. apply (begin_possible g m j V Im En (Idle m Im)); [ now apply Built | lia | lia | exact Min ]. }
    pose proof (NotL l' (proj2 (Locs l') L')) as NL'.
    pose proof (p_has D g l' (HM l') m j I' Lj) as Hh. pose proof (p_phase D g l' (HM l')) as P.
    destruct (m_phase (g_main g l')) as [k todo|k| |] eqn:Ep; [ discriminate | | | ].
    + destruct (Z_le_gt_dec j k) as [Le|Gt]; [ apply Begin, Hh; exact Le | ].
      apply (Pass l' k m (proj2 (Locs l') L') Ep I'). intros x Ix. specialize (Min x (cells_of_in D l' x Ix)).
      pose proof (ok_chunk D OK). pose proof (ok_nano D OK). unfold first_of in Hj. unfold end_of.
      assert (Z.min (df_max D) (k * df_chunk D + df_chunk D) <= j * df_chunk D) by nia. nia.
    + apply Begin, Hh. exact I.
    + specialize (P m I'). lia.
  - assert (Fin : forall x, In x (cells_of D l) -> N <= k_done (g_comp g x)).
    { intros x Ix. specialize (Min x (cells_of_in D l x Ix)). lia. }
    destruct (m_phase (g_main g l)) as [k todo|k| |] eqn:Ep; [ discriminate | | | discriminate ].
    + destruct (cells_of D l) as [|x r] eqn:Ec; [ easy | ]. apply (Pass l k x Il Ep); rewrite Ec; [ now left | ].
      intros y Iy. specialize (Fin y Iy). pose proof (end_of_max D OK k). lia.
    + exists (LLaunch l). cbn. unfold fire_launch. apply Locs in Il.
      assert ((l <? length (df_locs D))%nat = true) as -> by lia. cbn [negb]. rewrite Ep.
      assert (forallb (fun id => df_max D * df_nano D <=? k_done (g_comp g id)) (cells_of D l) = true) as ->; [ | eauto ].
      apply forallb_forall. intros x Ix. specialize (Fin x Ix). unfold total in Fin. lia.
Qed.

(** ** How much is left to do *)

Fixpoint pcost (msg : Z -> M) (p : act C M) : nat :=
  match p with
  | Finish _ => 1
  | Look n k => 1 + pcost msg (k (msg n))
  | Send _ _ k => 2 + pcost msg k
  end.

(** The last [n] updates of a cell *)
Fixpoint future (n : nat) (id : Z) : nat :=
  match n with
  | O => 0
  | S n' => let t := N - Z.of_nat n in
      (2 + pcost (fun f => msg_at D t f id) (update_at D t id) + 2 * length (nb id) + future n' id)%nat
  end.

Definition run_work (id t : Z) (r : option (running C M)) : nat :=
  match r with
  | None => future (Z.to_nat (N - t)) id
  | Some (User p _ _) => pcost (fun f => msg_at D t f id) p + 2 * length (nb id) + 1 + future (Z.to_nat (N - t - 1)) id
  | Some (Empties todo _) => 2 * length todo + 1 + future (Z.to_nat (N - t - 1)) id
  end%nat.

Definition work (id : Z) (k : component C M) : nat :=
  ((if k_made k then 0 else 1) + length (k_tasks k) + run_work id (k_done k) (k_run k))%nat.

Definition phase_work (l : nat) (p : phase) : nat :=
  let n := length (cells_of D l) in
  let rest k := (Z.to_nat (df_max D - (k + 1) * df_chunk D) * (2 * n + 4))%nat in
  match p with
  | Launching k todo => rest k + 2 * length todo + 4
  | Waiting k => rest k + 2
  | Collecting => 1
  | Returned => 0
  end%nat.

Definition main_work (l : nat) (m : main) : nat := (length (m_conts m) + phase_work l (m_phase m))%nat.

Definition sumf {A} (f : A -> nat) (l : list A) : nat := fold_right (fun a n => (f a + n)%nat) O l.

Definition todo_of (g : conf C M) : nat :=
  (sumf (fun id => work id (g_comp g id)) cells + length (g_net g) + sumf (fun l => main_work l (g_main g l)) (seq 0 (length (df_locs D))))%nat.

Lemma sumf_ext {A} (f h : A -> nat) l : (forall a, In a l -> f a = h a) -> sumf f l = sumf h l.
Proof. intros H. unfold sumf. induction l as [|a l IH]; cbn; [ reflexivity | ]. rewrite (H a), IH; auto; [ intros b Ib; apply H; now right | now left ]. Qed.

(** A change at one place *)
Lemma sumf_change {A} (f h : A -> nat) l a : NoDup l -> In a l -> (forall b, In b l -> b <> a -> f b = h b) ->
  (sumf f l + h a = sumf h l + f a)%nat.
Proof.
  induction l as [|x l IH]; [ easy | ]. intros Nd I H. inversion Nd as [|? ? Nx Nd']; subst.
  change (sumf f (x :: l)) with (f x + sumf f l)%nat. change (sumf h (x :: l)) with (h x + sumf h l)%nat.
  destruct I as [ -> | I ].
  - rewrite (sumf_ext f h l); [ lia | ]. intros b Ib. apply H; [ now right | congruence ].
  - assert (x <> a) by congruence. rewrite (H x) by (auto; now left). pose proof (IH Nd' I (fun b Ib Nb => H b (or_intror Ib) Nb)). lia.
Qed.

Lemma work_change g id k' : In id cells ->
  (sumf (fun j => work j (put (g_comp g) id k' j)) cells + work id (g_comp g id) = sumf (fun j => work j (g_comp g j)) cells + work id k')%nat.
Proof.
  intros I. pose proof (sumf_change (fun j => work j (put (g_comp g) id k' j)) (fun j => work j (g_comp g j)) cells id (ok_cells D OK) I) as H.
  cbn in H. rewrite put_eq in H. apply H. intros b _ Nb. now rewrite put_ne.
Qed.

Lemma main_change (g : conf C M) l m' : (l < length (df_locs D))%nat ->
  (sumf (fun j => main_work j (nput (g_main g) l m' j)) (seq 0 (length (df_locs D))) + main_work l (g_main g l) =
   sumf (fun j => main_work j (g_main g j)) (seq 0 (length (df_locs D))) + main_work l m')%nat.
Proof.
  intros L. pose proof (sumf_change (fun j => main_work j (nput (g_main g) l m' j)) (fun j => main_work j (g_main g j)) (seq 0 (length (df_locs D))) l (seq_NoDup _ _) ltac:(apply in_seq; lia)) as H.
  cbn in H. rewrite nput_eq in H. apply H. intros b _ Nb. now rewrite nput_ne.
Qed.

Lemma comp_less g id k' n' : In id cells -> (work id k' + n' < work id (g_comp g id))%nat ->
  (sumf (fun j => work j (put (g_comp g) id k' j)) cells + n' < sumf (fun j => work j (g_comp g j)) cells)%nat.
Proof. intros I H. pose proof (work_change g id k' I). lia. Qed.

Lemma next_phase_work l k : 0 <= k -> (phase_work l (next_phase D l (k + 1)) < phase_work l (Waiting k))%nat.
Proof.
  intros K. unfold next_phase. pose proof (ok_chunk D OK). destruct ((k + 1) * df_chunk D <? df_max D) eqn:E; cbn -[Nat.mul Z.mul]; [ | lia ].
  set (n := length (cells_of D l)).
  assert (S (Z.to_nat (df_max D - (k + 1 + 1) * df_chunk D)) <= Z.to_nat (df_max D - (k + 1) * df_chunk D))%nat by nia.
  nia.
Qed.

Theorem todo_decreases a g g' : inv D g -> fire D a g = Next g' -> (todo_of g' < todo_of g)%nat.
Proof.
  intros V H. pose proof V as (W & HM). unfold todo_of. destruct a; cbn in H.
  - unfold fire_make in H. destruct (memZ id (concat (df_locs D)) && negb (k_made (g_comp g id))) eqn:E; [ | discriminate ].
    injection H as <-. cbn [with_comp g_comp g_net g_main]. apply andb_prop in E. destruct E as (E1 & E2).
    apply memZ_spec in E1. change (In id cells) in E1.
    match goal with |- context [put (g_comp g) id ?k] => pose proof (comp_less g id k 0 E1) as Q end.
    unfold work in Q at 1 2. cbn [k_made k_tasks k_done k_run] in Q. destruct (k_made (g_comp g id)); [ discriminate | ]. lia.
  - unfold fire_launch in H. destruct (l <? length (df_locs D))%nat eqn:L; cbn [negb] in H; [ | discriminate ].
    assert (L' : (l < length (df_locs D))%nat) by lia. pose proof (p_phase D g l (HM l)) as P.
    destruct (m_phase (g_main g l)) as [k [|id todo]|k| |] eqn:Ep.
    + destruct (cells_of D l) eqn:Ec; [ discriminate | ]. injection H as <-. cbn [with_main g_comp g_net g_main].
      match goal with |- context [nput (g_main g) l ?m] => pose proof (main_change g l m L') as Q end.
      unfold main_work in Q at 2 4. cbn [m_conts m_phase] in Q. rewrite app_length, Ep in Q. cbn [length] in Q. unfold phase_work in Q. cbn [length] in Q. lia.
    + injection H as <-. cbn [with_main with_comp g_comp g_net g_main].
      assert (I : In id cells). { apply (cells_of_in D l). destruct P as (_ & pre & ->). apply in_or_app. right. now left. }
      match goal with |- context [nput (g_main g) l ?m] => pose proof (main_change g l m L') as Q end.
      match goal with |- context [put (g_comp g) id ?k] => pose proof (work_change g id k I) as Q' end.
      unfold main_work in Q at 2 4. cbn [m_conts m_phase] in Q. rewrite Ep in Q. unfold phase_work in Q. cbn [length] in Q.
      unfold work in Q' at 2 4. cbn [k_made k_tasks k_done k_run] in Q'. rewrite app_length in Q'. cbn [length] in Q'. lia.
    + destruct (_ <=? _); [ | discriminate ]. injection H as <-. cbn [with_main g_comp g_net g_main].
      match goal with |- context [nput (g_main g) l ?m] => pose proof (main_change g l m L') as Q end.
      unfold main_work in Q at 2 4. cbn [m_conts m_phase] in Q. rewrite Ep in Q. pose proof (next_phase_work l k ltac:(destruct P; lia)). lia.
    + destruct (forallb _ _); [ | discriminate ]. injection H as <-. cbn [with_main g_comp g_net g_main].
      match goal with |- context [nput (g_main g) l ?m] => pose proof (main_change g l m L') as Q end.
      unfold main_work in Q at 2 4. cbn [m_conts m_phase] in Q. rewrite Ep in Q. cbn [phase_work] in Q. lia.
    + discriminate.
  - unfold fire_signal in H. destruct (take1 k (m_conts (g_main g l))) as [conts|] eqn:T; [ | discriminate ].
    destruct (cells_of D l) as [|id r] eqn:Ec; [ discriminate | ]. destruct (end_of D k <=? k_done (g_comp g id)) eqn:Ed; [ | discriminate ].
    assert (g' = with_main g l (mkMain (m_phase (g_main g l)) (Z.max (m_lower (g_main g l)) (k * df_chunk D)) conts)) as ->
      by (destruct (m_phase (g_main g l)); congruence).
    assert (L' : (l < length (df_locs D))%nat).
    { destruct (lt_dec l (length (df_locs D))) as [L|L]; [ exact L | ]. unfold cells_of in Ec. rewrite nth_overflow in Ec by lia. discriminate. }
    cbn [with_main g_comp g_net g_main].
    match goal with |- context [nput (g_main g) l ?m] => pose proof (main_change g l m L') as Q end.
    unfold main_work in Q at 2 4. cbn [m_conts m_phase] in Q. destruct (take1_in _ _ _ T) as (_ & Tl & _). lia.
  - unfold fire_setup in H. destruct (take1 k (k_tasks (g_comp g id))) as [tasks|] eqn:T; [ | discriminate ].
    destruct (k_made (g_comp g id) && (negb (k =? 0) || linked D g id)); [ | discriminate ]. injection H as <-.
    destruct (take1_in _ _ _ T) as (T1 & T2 & _).
    assert (I : In id cells).
    { destruct (in_dec Z.eq_dec id cells) as [I|I]; [ exact I | ]. destruct (w_none D g W id I) as (_ & _ & E). rewrite E in T1. easy. }
    cbn [with_comp g_comp g_net g_main].
    match goal with |- context [put (g_comp g) id ?k] => pose proof (work_change g id k I) as Q' end.
    unfold work in Q' at 2 4. cbn [k_made k_tasks k_done k_run] in Q'. lia.
  - destruct (begin_spec D OK id g g' V H) as (I & Er & Ht & ->). pose proof (w_comp D g W id I) as (Hd & _). cbn [with_comp g_comp g_net g_main].
    match goal with |- context [put (g_comp g) id ?k] => pose proof (work_change g id k I) as Q' end.
    unfold work in Q' at 2 4. cbn [k_made k_tasks k_done k_run with_run] in Q'. rewrite Er in Q'. unfold run_work in Q'.
    set (t := k_done (g_comp g id)) in *. replace (Z.to_nat (N - t)) with (S (Z.to_nat (N - t - 1))) in Q' by lia.
    cbn [future] in Q'. replace (N - Z.of_nat (S (Z.to_nat (N - t - 1)))) with t in Q' by lia. lia.
  - unfold fire_step in H. destruct (k_run (g_comp g id)) as [r|] eqn:Er; [ | discriminate ].
    assert (I : In id cells).
    { destruct (in_dec Z.eq_dec id cells) as [I|I]; [ exact I | ]. destruct (w_none D g W id I). congruence. }
    pose proof (w_comp D g W id I) as (Hd & R). rewrite Er in R.
    destruct r as [[c|n k|n m k] msgs sent|[|n todo] sent].
    + injection H as <-. cbn [with_comp g_comp g_net g_main].
      match goal with |- context [put (g_comp g) id ?k] => pose proof (work_change g id k I) as Q' end.
      unfold work in Q' at 2 4. cbn [k_made k_tasks k_done k_run with_run] in Q'. rewrite Er in Q'. cbn [run_work pcost] in Q'. lia.
    + destruct R as (Ht & -> & (In_ & _) & _). rewrite (lookup_map (fun n => msg_at D (k_done (g_comp g id)) n id)) in H by exact In_.
      injection H as <-. cbn [with_comp g_comp g_net g_main].
      match goal with |- context [put (g_comp g) id ?k] => pose proof (work_change g id k I) as Q' end.
      unfold work in Q' at 2 4. cbn [k_made k_tasks k_done k_run with_run] in Q'. rewrite Er in Q'. cbn [run_work pcost] in Q'. lia.
    + unfold emit in H. destruct (memZ n (nb id)); [ | discriminate ]. injection H as <-. cbn [g_comp g_net g_main].
      match goal with |- context [put (g_comp g) id ?k] => pose proof (work_change g id k I) as Q' end.
      unfold work in Q' at 2 4. cbn [k_made k_tasks k_done k_run with_run] in Q'. rewrite Er in Q'. cbn [run_work pcost] in Q'.
      rewrite app_length. cbn [length]. lia.
    + injection H as <-. cbn [with_comp g_comp g_net g_main].
      match goal with |- context [put (g_comp g) id ?k] => pose proof (work_change g id k I) as Q' end.
      unfold work in Q' at 2 4. cbn [k_made k_tasks k_done k_run with_run] in Q'. rewrite Er in Q'. cbn [run_work length] in Q'.
      replace (N - (k_done (g_comp g id) + 1)) with (N - k_done (g_comp g id) - 1) in Q' by lia. lia.
    + destruct (memZ n sent).
      * injection H as <-. cbn [with_comp g_comp g_net g_main].
        match goal with |- context [put (g_comp g) id ?k] => pose proof (work_change g id k I) as Q' end.
        unfold work in Q' at 2 4. cbn [k_made k_tasks k_done k_run with_run] in Q'. rewrite Er in Q'. cbn [run_work length] in Q'. lia.
      * unfold emit in H. destruct (memZ n (nb id)); [ | discriminate ]. injection H as <-. cbn [g_comp g_net g_main].
        match goal with |- context [put (g_comp g) id ?k] => pose proof (work_change g id k I) as Q' end.
        unfold work in Q' at 2 4. cbn [k_made k_tasks k_done k_run with_run] in Q'. rewrite Er in Q'. cbn [run_work length] in Q'.
        rewrite app_length. cbn [length]. lia.
  - unfold fire_deliver in H. destruct (take_nth n (g_net g)) as [[q net]|] eqn:T; [ | discriminate ].
    destruct (existsb _ (g_inbox g)); [ discriminate | ]. injection H as <-. cbn [g_comp g_net g_main].
    destruct (take_nth_spec _ _ _ _ T) as (a & b & E1 & ->). rewrite E1, !app_length. cbn [length]. lia.
Qed.

Theorem bounded ls g g' : inv D g -> execute D ls g = Next g' -> (length ls + todo_of g' <= todo_of g)%nat.
Proof.
  revert g. induction ls as [|a ls IH]; cbn; intros g V H; [ injection H as <-; lia | ].
  destruct (fire D a g) as [g1| |] eqn:E; try discriminate. pose proof (todo_decreases a g g1 V E).
  specialize (IH g1 (inv_fire D OK a g g1 V E) H). lia.
Qed.

(** From everywhere the end can be reached. *)
Theorem completes g : inv D g -> exists ls g', execute D ls g = Next g' /\ finished D g'.
Proof.
  remember (todo_of g) as n eqn:En. revert g En. induction n as [n IH] using lt_wf_ind. intros g -> V.
  destruct (progress g V) as [F|(a & g1 & E)]; [ now exists [], g | ].
  destruct (IH (todo_of g1) (todo_decreases a g g1 V E) g1 eq_refl (inv_fire D OK a g g1 V E)) as (ls & g' & H & F).
  exists (a :: ls), g'. cbn. now rewrite E.
Qed.
End Live.
