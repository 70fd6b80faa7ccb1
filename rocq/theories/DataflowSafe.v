(** Every step preserves the invariants of HPXDataflowSimulator. *)
From Verif Require Import Base DataflowModel DataflowSpec DataflowFacts.
From Coq Require Import ZifyBool ZifyNat.

Section Safe.
Context {C M : Type} (D : dataflow C M).
Notation N := (total D). Notation cells := (all_cells D). Notation nb := (df_nb D).

Definition live (k : Z) : Prop := 0 <= k /\ k * df_chunk D < df_max D.

Definition has (k : component C M) (j : Z) : Prop := In j (k_tasks k ++ k_built k).

Definition launched (p : phase) (id j : Z) : Prop :=
  match p with Launching k todo => j < k \/ (j = k /\ ~ In id todo) | Waiting k => j <= k | _ => True end.

Definition registered (p : phase) (j : Z) : Prop :=
  match p with Launching k _ => j < k | Waiting k => j <= k | _ => True end.

Record main_ok (g : conf C M) (l : nat) : Prop := {
  p_phase : match m_phase (g_main g l) with
    | Launching k todo => live k /\ exists pre, cells_of D l = pre ++ todo
    | Waiting k => live k
    | Collecting => True
    | Returned => forall id, In id (cells_of D l) -> N <= k_done (g_comp g id) end;
  p_has : forall id j, In id (cells_of D l) -> live j -> launched (m_phase (g_main g l)) id j -> has (g_comp g id) j;
  p_sig : forall j, live j -> registered (m_phase (g_main g l)) j -> In j (m_conts (g_main g l)) \/ j * df_chunk D <= m_lower (g_main g l) }.


Lemma main_ok_comp g g' l : main_ok g l -> g_main g' l = g_main g l ->
  (forall id j, has (g_comp g id) j -> has (g_comp g' id) j) ->
  (forall id, In id cells -> k_done (g_comp g id) <= k_done (g_comp g' id)) -> main_ok g' l.
Proof.
  intros [P H S] E Hh Hd. constructor; rewrite E.
  - destruct (m_phase (g_main g l)); auto. intros id I. specialize (P id I). specialize (Hd id (cells_of_in D l id I)). lia.
  - intros id j I L R. apply Hh. now apply (H id j).
  - exact S.
Qed.

Definition inv (g : conf C M) : Prop := winv D g /\ forall l, main_ok g l.

Hypothesis OK : df_ok D.

Lemma next_phase_ok l k : 0 <= k ->
  match next_phase D l k with
  | Launching k todo => live k /\ exists pre, cells_of D l = pre ++ todo
  | Collecting => True | _ => False end.
Proof.
  intros H. unfold next_phase. destruct (k * df_chunk D <? df_max D) eqn:E; [ | exact I ].
  unfold live. split; [ lia | now exists [] ].
Qed.

Lemma inv_start : inv (start D).
Proof.
  split.
  - constructor; cbn; auto.
    + intros id I. unfold comp_ok, run_ok; cbn. split; [ | reflexivity ].
      pose proof (ok_max D OK). pose proof (ok_nano D OK). unfold total. nia.
    + easy.
    + easy.
    + intros f to s _ _ (A & [B|(_ & [])]). cbn in B. lia.
    + constructor.
  - intros l. pose proof (next_phase_ok l 0 ltac:(lia)) as P. constructor; cbn.
    + destruct (next_phase D l 0); tauto.
    + intros id j I (L1 & L2) H. exfalso. unfold next_phase, launched in H. destruct (0 * df_chunk D <? df_max D) eqn:E.
      * destruct H as [H|(-> & H)]; [ lia | contradiction ].
      * pose proof (ok_chunk D OK). nia.
    + intros j (L1 & L2) H. unfold next_phase, registered in H. destruct (0 * df_chunk D <? df_max D) eqn:E; [ lia | ].
      pose proof (ok_chunk D OK). nia.
Qed.

Ltac mains_same HM := intros l'; apply (main_ok_comp _ _ l' (HM l')); [ reflexivity | | ].

Lemma inv_make id g g' : inv g -> fire_make D id g = Next g' -> inv g'.
Proof.
  intros (W & HM) H. unfold fire_make in H. destruct (memZ id (concat (df_locs D)) && negb (k_made (g_comp g id))); [ | discriminate ].
  injection H as <-.
  assert (E : forall j, k_tasks (g_comp (with_comp g id (mkComp true (k_tasks (g_comp g id)) (k_built (g_comp g id)) (k_cell (g_comp g id)) (k_done (g_comp g id)) (k_run (g_comp g id)))) j) = k_tasks (g_comp g j) /\
    k_built (g_comp (with_comp g id (mkComp true (k_tasks (g_comp g id)) (k_built (g_comp g id)) (k_cell (g_comp g id)) (k_done (g_comp g id)) (k_run (g_comp g id)))) j) = k_built (g_comp g j)).
  { intros j. cbn. destruct (Z.eq_dec j id) as [ -> | Ne ]; [ now rewrite put_eq | now rewrite put_ne ]. }
  split.
  - apply (winv_like D g); auto.
    + intros j. cbn. destruct (Z.eq_dec j id) as [ -> | Ne ]; [ rewrite put_eq | rewrite put_ne by exact Ne ]; repeat split.
    + intros j J. rewrite (proj1 (E j)), (proj2 (E j)). destruct (w_none D g W j J). tauto.
    + intros j k. rewrite (proj1 (E j)), (proj2 (E j)). apply (w_chunk D g W).
  - mains_same HM.
    + intros j k. unfold has. rewrite (proj1 (E j)), (proj2 (E j)). auto.
    + intros j J. cbn. destruct (Z.eq_dec j id) as [ -> | Ne ]; [ rewrite put_eq | rewrite put_ne by exact Ne ]; cbn; lia.
Qed.

Lemma inv_setup id k g g' : inv g -> fire_setup D id k g = Next g' -> inv g'.
Proof.
  intros (W & HM) H. unfold fire_setup in H. destruct (take1 k (k_tasks (g_comp g id))) as [tasks|] eqn:T; [ | discriminate ].
  destruct (k_made (g_comp g id) && (negb (k =? 0) || linked D g id)); [ | discriminate ]. injection H as <-.
  destruct (take1_in _ _ _ T) as (T1 & _ & T2).
  assert (I : In id cells).
  { destruct (in_dec Z.eq_dec id cells) as [I|I]; [ exact I | ]. destruct (w_none D g W id I) as (_ & _ & E). rewrite E in T1. easy. }
  assert (P : forall j, In j (tasks ++ k_built (g_comp g id) ++ [k]) <-> In j (k_tasks (g_comp g id) ++ k_built (g_comp g id))).
  { intros j. rewrite !in_app_iff, T2. cbn. intuition congruence. }
  split.
  - apply (winv_like D g); auto.
    + intros j. cbn. destruct (Z.eq_dec j id) as [ -> | Ne ]; [ rewrite put_eq | rewrite put_ne by exact Ne ]; repeat split.
    + intros j J. cbn. rewrite put_ne by congruence. now apply (w_none D g W).
    + intros j x. cbn. destruct (Z.eq_dec j id) as [ -> | Ne ]; [ rewrite put_eq; cbn [k_tasks k_built]; rewrite P | rewrite put_ne by exact Ne ]; apply (w_chunk D g W).
  - mains_same HM.
    + intros j x. unfold has. cbn. destruct (Z.eq_dec j id) as [ -> | Ne ]; [ rewrite put_eq; cbn [k_tasks k_built]; rewrite P | rewrite put_ne by exact Ne ]; auto.
    + intros j J. cbn. destruct (Z.eq_dec j id) as [ -> | Ne ]; [ rewrite put_eq | rewrite put_ne by exact Ne ]; cbn; lia.
Qed.

(** A new state of a locality's [run()] *)
Lemma winv_main g l m : winv D g -> winv D (with_main g l m).
Proof. intros W. apply (winv_like D g); auto; [ intros j; repeat split | intros j J; destruct (w_none D g W j J); tauto | apply (w_chunk D g W) ]. Qed.

Lemma mains_main g l m : (forall l', main_ok g l') -> main_ok (with_main g l m) l -> forall l', main_ok (with_main g l m) l'.
Proof.
  intros HM H l'. destruct (Nat.eq_dec l' l) as [ -> | Ne ]; [ exact H | ].
  apply (main_ok_comp g _ l' (HM l')); cbn; auto; [ now rewrite nput_ne | intros; lia ].
Qed.

Lemma inv_signal l k g g' : inv g -> fire_signal D l k g = Next g' -> inv g'.
Proof.
  intros (W & HM) H. unfold fire_signal in H. destruct (take1 k (m_conts (g_main g l))) as [conts|] eqn:T; [ | discriminate ].
  destruct (cells_of D l) as [|id r] eqn:Ec; [ discriminate | ]. destruct (end_of D k <=? k_done (g_comp g id)) eqn:Ed; [ | discriminate ].
  assert (g' = with_main g l (mkMain (m_phase (g_main g l)) (Z.max (m_lower (g_main g l)) (k * df_chunk D)) conts) /\ m_phase (g_main g l) <> Returned) as (-> & NR).
  { destruct (m_phase (g_main g l)) eqn:E; try discriminate; injection H as <-; split; congruence. }
  split; [ now apply winv_main | ]. apply mains_main; [ exact HM | ]. destruct (HM l) as [P Hh S].
  constructor; cbn [with_main g_main g_comp]; rewrite nput_eq; cbn [m_phase m_conts m_lower].
  - exact P.
  - exact Hh.
  - intros j Lj R. destruct (S j Lj R) as [Hj|Hj]; [ | right; lia ].
    apply (take1_in _ _ _ T) in Hj. destruct Hj as [ -> | Hj ]; [ right; lia | now left ].
Qed.

Lemma next_phase_launched l k id j : live j -> In id (cells_of D l) -> 0 <= k -> launched (next_phase D l (k + 1)) id j -> j <= k.
Proof.
  intros (L1 & L2) I K H. unfold next_phase, launched in H. destruct ((k + 1) * df_chunk D <? df_max D) eqn:E.
  - destruct H as [H|(-> & H)]; [ lia | contradiction ].
  - pose proof (ok_chunk D OK). nia.
Qed.

Lemma next_phase_registered l k j : live j -> registered (next_phase D l (k + 1)) j -> j <= k.
Proof.
  intros (L1 & L2) H. unfold next_phase, registered in H. destruct ((k + 1) * df_chunk D <? df_max D) eqn:E; [ lia | ].
  pose proof (ok_chunk D OK). nia.
Qed.

Lemma inv_launch l g g' : inv g -> fire_launch D l g = Next g' -> inv g'.
Proof.
  intros (W & HM) H. unfold fire_launch in H. destruct (negb (l <? length (df_locs D))%nat); [ discriminate | ].
  pose proof (HM l) as [P Hh S]. destruct (m_phase (g_main g l)) as [k todo|k| |] eqn:Ep; [ | | | discriminate ].
  - destruct P as (Lk & pre & Ec). destruct todo as [|id todo].
    + assert (g' = with_main g l (mkMain (Waiting k) (m_lower (g_main g l)) (m_conts (g_main g l) ++ [k]))) as -> by (destruct (cells_of D l); congruence).
      split; [ now apply winv_main | ]. apply mains_main; [ exact HM | ].
      constructor; cbn [with_main g_main g_comp]; rewrite nput_eq; cbn [m_phase m_conts m_lower].
      * exact Lk.
      * intros id j I Lj R. apply (Hh id j I Lj). cbn in R |- *. destruct (Z.eq_dec j k) as [ -> | Ne ]; [ right; auto | left; lia ].
      * intros j Lj R. cbn in R. rewrite in_app_iff. cbn. destruct (Z.eq_dec j k) as [ -> | Ne ]; [ left; auto | ].
        destruct (S j Lj ltac:(cbn; lia)); [ left; now left | now right ].
    + injection H as <-. assert (I : In id (cells_of D l)) by (rewrite Ec; apply in_or_app; right; now left).
      assert (Ic : In id cells) by (eapply cells_of_in; exact I).
      set (k' := mkComp _ _ _ _ _ _).
      assert (P' : forall j x, In x (k_tasks (put (g_comp g) id k' j) ++ k_built (put (g_comp g) id k' j)) <-> In x (k_tasks (g_comp g j) ++ k_built (g_comp g j)) \/ (j = id /\ x = k)).
      { intros j x. destruct (Z.eq_dec j id) as [ -> | Ne ]; [ rewrite put_eq | rewrite put_ne by exact Ne; tauto ].
        unfold k'. cbn. rewrite !in_app_iff. cbn. intuition congruence. }
      assert (Lk' : forall j, like (g_comp g j) (put (g_comp g) id k' j)).
      { intros j. destruct (Z.eq_dec j id) as [ -> | Ne ]; [ rewrite put_eq | rewrite put_ne by exact Ne ]; repeat split. }
      split.
      * apply winv_main. apply (winv_like D g); auto.
        -- intros j J. cbn. rewrite put_ne by congruence. now apply (w_none D g W).
        -- intros j x. cbn [with_comp g_comp]. rewrite P'. intros [Q|(-> & ->)]; [ revert Q; apply (w_chunk D g W) | apply Lk ].
      * apply mains_main.
        -- mains_same HM.
           ++ intros j x Hx. unfold has. cbn [with_comp g_comp]. rewrite P'. now left.
           ++ intros j J. cbn. destruct (Lk' j) as (_ & E & _). lia.
        -- constructor; cbn [with_main with_comp g_main g_comp]; rewrite nput_eq; cbn [m_phase m_conts m_lower].
           ++ split; [ exact Lk | ]. exists (pre ++ [id]). now rewrite <- app_assoc.
           ++ intros j x J Lx R. unfold has. rewrite P'. cbn in R. destruct R as [R|(-> & R)].
              ** left. apply (Hh j x J Lx). cbn. now left.
              ** destruct (Z.eq_dec j id) as [ -> | Ne ]; [ right; auto | ].
                 left. apply (Hh j k J Lx). cbn. right. split; [ reflexivity | ]. intros [Q|Q]; [ congruence | contradiction ].
           ++ intros j Lj R. apply (S j Lj). exact R.
  - destruct (k * df_chunk D - 2 * df_chunk D <=? m_lower (g_main g l)); [ | discriminate ]. injection H as <-.
    split; [ now apply winv_main | ]. apply mains_main; [ exact HM | ].
    pose proof (next_phase_ok l (k + 1) ltac:(destruct P; lia)) as Pn.
    constructor; cbn [with_main g_main g_comp]; rewrite nput_eq; cbn [m_phase m_conts m_lower].
    + destruct (next_phase D l (k + 1)); tauto.
    + intros id j I Lj R. apply (Hh id j I Lj). cbn. destruct P. now apply (next_phase_launched l k id j).
    + intros j Lj R. apply (S j Lj). cbn. now apply (next_phase_registered l k j).
  - destruct (forallb _ (cells_of D l)) eqn:F; [ | discriminate ]. injection H as <-.
    split; [ now apply winv_main | ]. apply mains_main; [ exact HM | ].
    constructor; cbn [with_main g_main g_comp]; rewrite nput_eq; cbn [m_phase m_conts m_lower].
    + intros id I. rewrite forallb_forall in F. specialize (F id I). unfold total. lia.
    + intros id j I Lj _. now apply (Hh id j I Lj).
    + intros j Lj _. now apply (S j Lj).
Qed.

Lemma all_of_map {A B} (f : A -> option B) (h : A -> B) l r :
  all_of f l = Some r -> (forall a b, In a l -> f a = Some b -> b = h a) -> r = map h l.
Proof.
  revert r. induction l as [|a l IH]; cbn; intros r H Hf; [ congruence | ].
  destruct (f a) as [b|] eqn:E; [ | discriminate ]. destruct (all_of f l) as [r'|] eqn:F; [ | discriminate ].
  injection H as <-. rewrite <- (Hf a b) by auto. f_equal. apply IH; auto.
Qed.

Lemma incoming_spec g id n t m : winv D g -> incoming D g id n t = Some m -> 0 <= t -> m = msg_at D t n id.
Proof.
  intros W H T. unfold incoming in H. destruct (0 <? t) eqn:E.
  - match type of H with context [find ?h ?l] => destruct (find h l) as [[[[f to] s] x]|] eqn:F; [ | discriminate ] end. cbn in H. injection H as <-.
    apply find_some in F. destruct F as (F & K). assert (f = n /\ to = id /\ s = t) as (-> & -> & ->) by lia.
    destruct (w_mail D g W n id t x) as (_ & _ & _ & Em); [ apply in_or_app; now right | exact Em ].
  - assert (t = 0) as -> by lia. injection H as <-. reflexivity.
Qed.

Lemma end_of_max k : end_of D k <= N.
Proof. pose proof (ok_nano D OK). unfold end_of, total. nia. Qed.

Lemma begin_spec id g g' : inv g -> fire_begin D id g = Next g' ->
  In id cells /\ k_run (g_comp g id) = None /\ k_done (g_comp g id) < N /\
  g' = with_comp g id (with_run (g_comp g id) (User (update_at D (k_done (g_comp g id)) id) (map (fun n => msg_at D (k_done (g_comp g id)) n id) (nb id)) [])).
Proof.
  intros (W & HM) H. unfold fire_begin in H. destruct (k_run (g_comp g id)) as [r|] eqn:Er; [ discriminate | ].
  destruct (existsb _ (k_built (g_comp g id))) eqn:Ex; [ | discriminate ].
  apply existsb_exists in Ex. destruct Ex as (k & Ik & Hk).
  assert (I : In id cells).
  { destruct (in_dec Z.eq_dec id cells) as [I|I]; [ exact I | ]. destruct (w_none D g W id I) as (_ & E & _). rewrite E in Ik. easy. }
  destruct (w_comp D g W id I) as (Ht & R). rewrite Er in R. cbn in R.
  destruct (all_of _ (nb id)) as [msgs|] eqn:A; [ | discriminate ]. injection H as <-.
  pose proof (end_of_max k).
  split; [ exact I | ]. split; [ reflexivity | ]. split; [ lia | ].
  unfold with_run, update_at. rewrite <- R. do 3 f_equal. f_equal.
  eapply all_of_map; [ exact A | ]. intros n m _ E. cbn in E. apply (incoming_spec g); [ exact W | exact E | lia ].
Qed.

Lemma inv_begin id g g' : inv g -> fire_begin D id g = Next g' -> inv g'.
Proof.
  intros V H. destruct (begin_spec id g g' V H) as (I & Er & Ht & ->). destruct V as (W & HM).
  destruct (w_comp D g W id I) as (Hd & R). rewrite Er in R. cbn in R.
  split.
  - apply winv_comp; auto.
    + split; [ exact Hd | ]. cbn. split; [ exact Ht | ]. split; [ reflexivity | ].
      split; [ apply (ok_polite D OK); [ exact I | lia ] | ].
      exists []. split; [ reflexivity | ]. split; [ constructor | ]. split; [ intros x [] | ].
      cbn. destruct (result_of _ (update_at D _ id)); reflexivity.
    + intros to s _. unfold sent_to. rewrite Er. cbn. tauto.
  - mains_same HM.
    + intros j x. unfold has. cbn. destruct (Z.eq_dec j id) as [ -> | Ne ]; [ rewrite put_eq | rewrite put_ne by exact Ne ]; auto.
    + intros j J. cbn. destruct (Z.eq_dec j id) as [ -> | Ne ]; [ rewrite put_eq | rewrite put_ne by exact Ne ]; cbn; lia.
Qed.

Lemma lookup_map (h : Z -> M) ids n : In n ids -> lookup ids (map h ids) n = Some (h n).
Proof.
  induction ids as [|i ids IH]; cbn; [ easy | ]. intros H. destruct (i =? n) eqn:E; [ f_equal; f_equal; lia | ].
  apply IH. destruct H; [ lia | exact H ].
Qed.

Lemma mail_notin l n : ~ In n (map fst l) -> mail D l n = df_default D.
Proof.
  unfold mail. intros H. match goal with |- context [find ?h l] => destruct (find h l) as [[a b]|] eqn:F; [ | reflexivity ] end.
  apply find_some in F. destruct F as (F & E). exfalso. apply H. apply in_map_iff. exists (a, b). cbn in *. split; [ lia | exact F ].
Qed.

Lemma mail_in l1 n m l2 : ~ In n (map fst l1) -> mail D (l1 ++ (n, m) :: l2) n = m.
Proof.
  unfold mail. induction l1 as [|[a b] l1 IH]; cbn; intros H; [ now rewrite Z.eqb_refl | ].
  destruct (a =? n) eqn:E; [ exfalso; apply H; left; lia | ]. apply IH. tauto.
Qed.

(** A step of a cell's update: never raises *)
Lemma inv_step id g : inv g ->
  fire_step D id g <> Raises /\ (k_run (g_comp g id) <> None -> exists g', fire_step D id g = Next g') /\ forall g', fire_step D id g = Next g' -> inv g'.
Proof.
  intros (W & HM). unfold fire_step. destruct (k_run (g_comp g id)) as [r|] eqn:Er; [ | split; [ easy | split; [ easy | discriminate ] ] ].
  assert (I : In id cells).
  { destruct (in_dec Z.eq_dec id cells) as [I|I]; [ exact I | ]. destruct (w_none D g W id I). congruence. }
  pose proof (w_comp D g W id I) as Hc. destruct Hc as (Hd & R). rewrite Er in R. set (t := k_done (g_comp g id)) in *.
  assert (Mains : forall k' net, k_tasks k' = k_tasks (g_comp g id) -> k_built k' = k_built (g_comp g id) -> t <= k_done k' ->
    forall l', main_ok (mkConf (put (g_comp g) id k') (g_main g) net (g_inbox g)) l').
  { intros k' net E1 E2 E3. mains_same HM.
    - intros j x. unfold has. cbn. destruct (Z.eq_dec j id) as [ -> | Ne ]; [ rewrite put_eq, E1, E2 | rewrite put_ne by exact Ne ]; auto.
    - intros j J. cbn. destruct (Z.eq_dec j id) as [ -> | Ne ]; [ rewrite put_eq | rewrite put_ne by exact Ne ]; cbn; unfold t in *; lia. }
  destruct r as [p msgs sent|todo sent].
  - destruct R as (Ht & -> & Pp & ps & Es & Nd & Inc & Hres). destruct p as [c|n k|n m k].
    + (* the cell has been updated *)
      split; [ easy | split; [ eauto | ] ]. intros g' H. injection H as <-. split; [ | apply Mains; cbn; auto; lia ].
      cbn in Hres. rewrite app_nil_r in Hres.
      apply winv_comp; auto.
      * split; [ exact Hd | ]. cbn. split; [ exact Ht | ]. split.
        -- rewrite cell_next by lia. fold t. now rewrite Hres.
        -- exists []. split; [ reflexivity | ]. intros n. unfold sends_at. fold t. rewrite Hres. cbn. rewrite Es. tauto.
      * intros to s _. unfold sent_to. rewrite Er. cbn. tauto.
    + cbn in Pp. destruct Pp as (In_ & Pp). rewrite (lookup_map (fun n => msg_at D t n id)) by exact In_.
      split; [ easy | split; [ eauto | ] ]. intros g' H. injection H as <-. split; [ | apply Mains; cbn; auto; lia ].
      apply winv_comp; auto.
      * split; [ exact Hd | ]. cbn. split; [ exact Ht | ]. split; [ reflexivity | ]. split; [ exact Pp | ].
        exists ps. split; [ exact Es | ]. split; [ exact Nd | ]. split; [ exact Inc | exact Hres ].
      * intros to s _. unfold sent_to. rewrite Er. cbn. tauto.
    + cbn in Pp. destruct Pp as (In_ & Ns & Pp). unfold emit. rewrite (proj2 (memZ_spec n (nb id)) In_).
      split; [ easy | split; [ eauto | ] ]. intros g' H. injection H as <-. split; [ | apply Mains; cbn; auto; lia ].
      cbn in Hres. destruct (result_of (fun n => msg_at D t n id) k) as [c' l] eqn:Ek.
      apply winv_emit; auto.
      * rewrite Er. exact Ns.
      * split; [ exact Hd | ]. cbn. fold t. split; [ exact Ht | ]. split; [ reflexivity | ]. split; [ exact Pp | ].
        exists (ps ++ [(n, m)]). split; [ rewrite map_app, <- Es; reflexivity | ].
        split. { apply NoDup_Add with (a := n) (l := sent); [ rewrite <- (app_nil_r sent) at 1; apply Add_app | now split ]. }
        split. { intros x Hx. apply in_app_or in Hx. destruct Hx as [Hx|[ <- |[]]]; auto. }
        fold t. rewrite Hres, Ek, <- app_assoc. reflexivity.
      * intros x. rewrite Er. cbn. rewrite in_app_iff. cbn. intuition congruence.
      * fold t. rewrite msg_next by lia. unfold sends_at. rewrite Hres. cbn. symmetry. apply mail_in. now rewrite <- Es.
  - destruct R as (Ht & Ec & pre & En & Hs). destruct todo as [|n todo].
    + rewrite app_nil_r in En. split; [ easy | split; [ eauto | ] ]. intros g' H. injection H as <-. split; [ | apply Mains; cbn; auto; unfold t; lia ].
      assert (Sub : forall x, In x (map fst (sends_at D t id)) -> In x (nb id)).
      { intros x Hx. eapply polite_sends; [ | exact Hx ]. apply (ok_polite D OK); [ exact I | lia ]. }
      apply winv_comp; auto.
      * split; cbn; [ unfold t in *; lia | exact Ec ].
      * intros to s Hto. unfold sent_to. rewrite Er. cbn. fold t. rewrite Hs, <- En.
        split; [ intros (A & [B|(_ & [])]) | intros (A & [B|(B & _)]) ]; (split; [ exact A | ]).
        -- destruct (Z.eq_dec s (t + 1)) as [ -> | Ne ]; [ right; auto | left; lia ].
        -- left; lia.
        -- left; lia.
    + assert (In_ : In n (nb id)) by (rewrite En; apply in_or_app; right; now left).
      assert (En' : nb id = (pre ++ [n]) ++ todo) by (now rewrite <- app_assoc).
      destruct (memZ n sent) eqn:Em.
      * apply memZ_spec in Em. split; [ easy | split; [ eauto | ] ]. intros g' H. injection H as <-. split; [ | apply Mains; cbn; auto; lia ].
        apply winv_comp; auto.
        -- split; [ exact Hd | ]. cbn. fold t. split; [ exact Ht | ]. split; [ exact Ec | ]. exists (pre ++ [n]). split; [ exact En' | ].
           intros x. rewrite Hs, in_app_iff. cbn. split; [ tauto | ]. intros [A|[A|[ <- |[]]]]; [ tauto | tauto | ]. now apply Hs.
        -- intros to s _. unfold sent_to. rewrite Er. cbn. tauto.
      * apply memZ_false in Em. unfold emit. rewrite (proj2 (memZ_spec n (nb id)) In_).
        split; [ easy | split; [ eauto | ] ]. intros g' H. injection H as <-. split; [ | apply Mains; cbn; auto; lia ].
        apply winv_emit; auto.
        -- rewrite Er. exact Em.
        -- split; [ exact Hd | ]. cbn. fold t. split; [ exact Ht | ]. split; [ exact Ec | ]. exists (pre ++ [n]). split; [ exact En' | ].
           intros x. rewrite !in_app_iff, Hs. cbn. tauto.
        -- intros x. rewrite Er. cbn. rewrite in_app_iff. cbn. intuition congruence.
        -- fold t. rewrite msg_next by lia. symmetry. apply mail_notin. intros Q. apply Em. apply Hs. now left.
Qed.

Lemma key_eqb_spec a b : key_eqb a b = true <-> a = b.
Proof.
  destruct a as [[a1 a2] a3], b as [[b1 b2] b3]. unfold key_eqb. split; [ intros H; assert (a1 = b1 /\ a2 = b2 /\ a3 = b3) as (-> & -> & ->) by lia; reflexivity | ].
  intros H. injection H as -> -> ->. lia.
Qed.

Lemma inv_deliver n g : inv g -> fire_deliver n g <> Raises /\ forall g', fire_deliver n g = Next g' -> inv g'.
Proof.
  intros (W & HM). unfold fire_deliver. destruct (take_nth n (g_net g)) as [[q net]|] eqn:T; [ | split; [ easy | discriminate ] ].
  destruct (take_nth_spec _ _ _ _ T) as (a & b & E1 & E2).
  pose proof (w_nodup D g W) as Nd. unfold mails in Nd. rewrite E1, map_app, map_app in Nd. cbn in Nd.
  rewrite <- app_assoc in Nd. cbn in Nd.
  assert (Nq : ~ In (key q) (map key a ++ map key b ++ map key (g_inbox g))) by (now apply NoDup_remove_2 in Nd).
  destruct (existsb _ (g_inbox g)) eqn:Ex.
  { exfalso. apply existsb_exists in Ex. destruct Ex as (q' & Iq & Eq). apply key_eqb_spec in Eq. apply Nq. rewrite !in_app_iff. right. right.
    rewrite Eq. now apply in_map. }
  split; [ easy | ]. intros g' H. injection H as <-.
  assert (Pm : forall x, In x (mails (mkConf (g_comp g) (g_main g) net (g_inbox g ++ [q]))) <-> In x (mails g)).
  { intros x. unfold mails. cbn. rewrite E1, E2, !in_app_iff. cbn. tauto. }
  split.
  - constructor; cbn [g_comp].
    + apply (w_comp D g W).
    + apply (w_none D g W).
    + apply (w_chunk D g W).
    + intros f to s m Hm. apply Pm in Hm. apply (w_mail D g W f to s m Hm).
    + intros f to s A B S. specialize (w_sent D g W f to s A B S) as Hk. apply in_map_iff in Hk. destruct Hk as (x & <- & Hx).
      apply in_map. now apply Pm.
    + unfold mails. cbn. rewrite E2, !map_app. cbn. rewrite app_assoc.
      apply NoDup_Add with (a := key q) (l := (map key a ++ map key b) ++ map key (g_inbox g)).
      * rewrite <- (app_nil_r ((map key a ++ map key b) ++ map key (g_inbox g))) at 1. apply Add_app.
      * rewrite <- app_assoc. split; [ now apply NoDup_remove_1 in Nd | exact Nq ].
  - intros l'. apply (main_ok_comp g _ l' (HM l')); cbn; auto. intros; lia.
Qed.

Theorem inv_fire a g g' : inv g -> fire D a g = Next g' -> inv g'.
Proof.
  intros V H. destruct a; cbn in H.
  - now apply (inv_make id g g').
  - now apply (inv_launch l g g').
  - now apply (inv_signal l k g g').
  - now apply (inv_setup id k g g').
  - now apply (inv_begin id g g').
  - now apply (inv_step id g V).
  - now apply (inv_deliver n g V).
Qed.

Lemma inv_execute ls g g' : inv g -> execute D ls g = Next g' -> inv g'.
Proof.
  revert g. induction ls as [|a ls IH]; cbn; intros g V H; [ congruence | ].
  destruct (fire D a g) as [g1| |] eqn:E; try discriminate. eapply IH; [ eapply inv_fire; eauto | exact H ].
Qed.

Theorem inv_reached g : reached D g -> inv g.
Proof. intros (ls & H). eapply inv_execute; [ exact inv_start | exact H ]. Qed.

(** The only thing that can go wrong *)
Theorem raises_signal a g : inv g -> fire D a g = Raises ->
  exists l k, a = LSignal l k /\ m_phase (g_main g l) = Returned /\ forall id, In id (cells_of D l) -> k_done (g_comp g id) = N.
Proof.
  intros V H. destruct a; cbn in H.
  - unfold fire_make in H. destruct (_ && _); discriminate.
  - exfalso. unfold fire_launch in H. destruct (negb (l <? length (df_locs D))%nat) eqn:L; [ discriminate | ].
    destruct (m_phase (g_main g l)) as [k [|id todo]|k| |]; try discriminate.
    + destruct (cells_of D l) eqn:Ec; [ | discriminate ]. revert Ec. apply (ok_locs D OK). unfold cells_of. apply nth_In. lia.
    + destruct (_ <=? _); discriminate.
    + destruct (forallb _ _); discriminate.
  - unfold fire_signal in H. destruct (take1 k _); [ | discriminate ]. destruct (cells_of D l) as [|id r] eqn:Ec; [ discriminate | ].
    destruct (end_of D k <=? _); [ | discriminate ]. destruct (m_phase (g_main g l)) eqn:Ep; try discriminate.
    exists l, k. split; [ reflexivity | ]. split; [ exact Ep | ]. destruct V as (W & HM). pose proof (p_phase g l (HM l)) as P. rewrite Ep in P.
    intros j J. specialize (P j J). pose proof (w_comp D g W j (cells_of_in D l j J)) as (Hd & _). lia.
  - unfold fire_setup in H. destruct (take1 k _); [ | discriminate ]. destruct (_ && _); discriminate.
  - unfold fire_begin in H. destruct (k_run _); [ discriminate | ]. destruct (existsb _ _); [ | discriminate ]. destruct (all_of _ _); discriminate.
  - now apply (inv_step id g V) in H.
  - now apply (inv_deliver n g V) in H.
Qed.
End Safe.
