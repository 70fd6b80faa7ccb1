(** Invariants of HPXDataflowSimulator *)
From Verif Require Import Base DataflowModel DataflowSpec.
From Coq Require Import ZifyBool ZifyNat.

Lemma memZ_spec x l : memZ x l = true <-> In x l.
Proof.
  unfold memZ. rewrite existsb_exists. split.
  - intros (y & Hy & E). apply Z.eqb_eq in E. now subst.
  - intros H. exists x. split; [ exact H | apply Z.eqb_refl ].
Qed.

Lemma memZ_false x l : memZ x l = false <-> ~ In x l.
Proof. rewrite <- memZ_spec. destruct (memZ x l); split; congruence. Qed.

Lemma put_eq {A} (f : Z -> A) i v : put f i v i = v.
Proof. unfold put. now rewrite Z.eqb_refl. Qed.

Lemma put_ne {A} (f : Z -> A) i j v : j <> i -> put f i v j = f j.
Proof. intros H. unfold put. now rewrite (proj2 (Z.eqb_neq _ _) H). Qed.

Lemma nput_eq {A} (f : nat -> A) i v : nput f i v i = v.
Proof. unfold nput. now rewrite Nat.eqb_refl. Qed.

Lemma nput_ne {A} (f : nat -> A) i j v : j <> i -> nput f i v j = f j.
Proof. intros H. unfold nput. now rewrite (proj2 (Nat.eqb_neq _ _) H). Qed.

Lemma take1_in x l r : take1 x l = Some r -> In x l /\ length l = S (length r) /\ forall y, In y l <-> y = x \/ In y r.
Proof.
  revert r. induction l as [|a l IH]; cbn; [ discriminate | ]. intros r.
  destruct (x =? a) eqn:E.
  - intros H. injection H as <-. apply Z.eqb_eq in E. subst a. repeat split; auto; firstorder congruence.
  - destruct (take1 x l) as [r'|] eqn:T; [ | discriminate ]. intros H. injection H as <-.
    destruct (IH r' eq_refl) as (H1 & H2 & H3). cbn. split; [ now right | ]. split; [ lia | ].
    intros y. rewrite H3. tauto.
Qed.

Lemma take1_some x l : In x l -> exists r, take1 x l = Some r.
Proof.
  induction l as [|a l IH]; cbn; [ easy | ]. intros H. destruct (x =? a) eqn:E; [ eauto | ].
  destruct H as [ -> | H ]; [ rewrite Z.eqb_refl in E; discriminate | ].
  destruct (IH H) as (r & ->). cbn. eauto.
Qed.

Lemma take_nth_spec {A} n (l : list A) q r : take_nth n l = Some (q, r) ->
  exists a b, l = a ++ q :: b /\ r = a ++ b.
Proof.
  revert n r. induction l as [|x l IH]; intros n r; destruct n; cbn; try discriminate.
  - intros H. injection H as <- <-. now exists [], l.
  - destruct (take_nth n l) as [[q' r']|] eqn:T; [ | discriminate ]. cbn. intros H. injection H as <- <-.
    destruct (IH n r' T) as (a & b & -> & ->). now exists (x :: a), b.
Qed.

Section Facts.
Context {C M : Type} (D : dataflow C M).
Notation N := (total D). Notation cells := (all_cells D). Notation nb := (df_nb D).

Lemma cells_of_in l id : In id (cells_of D l) -> In id cells.
Proof.
  unfold cells_of, all_cells. intros H. apply in_concat. exists (nth l (df_locs D) []). split; [ | exact H ].
  destruct (lt_dec l (length (df_locs D))) as [L|L]; [ now apply nth_In | ].
  rewrite nth_overflow in H by lia. easy.
Qed.

Lemma cells_loc id : In id cells -> exists l, (l < length (df_locs D))%nat /\ In id (cells_of D l).
Proof.
  unfold all_cells. intros H. apply in_concat in H. destruct H as (x & Hx & H).
  destruct (In_nth _ _ [] Hx) as (l & L & E). exists l. unfold cells_of. now rewrite E.
Qed.

Lemma nodup_concat_in {A} (ls : list (list A)) l : NoDup (concat ls) -> In l ls -> NoDup l.
Proof.
  induction ls as [|a ls IH]; cbn; [ easy | ]. intros H [ -> | I ].
  - clear - H. induction l as [|x l IH]; [ constructor | ]. cbn in H. inversion H; subst. constructor; [ | auto ].
    intros I. apply H2. apply in_or_app. now left.
  - apply IH; [ | exact I ]. clear - H. induction a as [|x a IH]; [ exact H | ]. inversion H; subst. auto.
Qed.

Lemma cells_of_nodup l : NoDup cells -> NoDup (cells_of D l).
Proof.
  intros H. unfold cells_of. destruct (lt_dec l (length (df_locs D))) as [L|L].
  - eapply nodup_concat_in; [ exact H | now apply nth_In ].
  - rewrite nth_overflow by lia. constructor.
Qed.

(** ** Rounds *)

Definition sends_at (t id : Z) : list (Z * M) := snd (result_of (fun n => msg_at D t n id) (update_at D t id)).

Lemma cell_next t id : 0 <= t -> cell_at D (t + 1) id = fst (result_of (fun n => msg_at D t n id) (update_at D t id)).
Proof.
  intros H. unfold cell_at, update_at, msg_at, cell_at. replace (Z.to_nat (t + 1)) with (S (Z.to_nat t)) by lia.
  cbn. destruct (rounds D (Z.to_nat t)) as [c m]. cbn. now rewrite Z2Nat.id by lia.
Qed.

Lemma msg_next t id n : 0 <= t -> msg_at D (t + 1) id n = mail D (sends_at t id) n.
Proof.
  intros H. unfold sends_at, update_at, msg_at, cell_at. replace (Z.to_nat (t + 1)) with (S (Z.to_nat t)) by lia.
  cbn. destruct (rounds D (Z.to_nat t)) as [c m]. cbn. now rewrite Z2Nat.id by lia.
Qed.

Lemma polite_sends nbs (msg : Z -> M) sent (p : act C M) : polite nbs msg sent p ->
  forall n, In n (map fst (snd (result_of msg p))) -> In n nbs.
Proof.
  revert sent. induction p as [c | n k IH | n m k IH]; cbn; intros sent H x Hx; [ easy | | ].
  - destruct H. eauto.
  - destruct H as (H1 & _ & H2). destruct (result_of msg k) as [c l] eqn:E. cbn in *. destruct Hx as [ <- | Hx ]; [ exact H1 | eauto ].
Qed.

(** ** What is true of cells and messages *)

Definition sent_of (r : option (running C M)) : list Z :=
  match r with None => [] | Some (User _ _ s) => s | Some (Empties _ s) => s end.

Definition run_ok (id : Z) (c : C) (t : Z) (r : option (running C M)) : Prop :=
  match r with
  | None => c = cell_at D t id
  | Some (User p msgs sent) =>
      t < N /\ msgs = map (fun n => msg_at D t n id) (nb id) /\
      polite (nb id) (fun n => msg_at D t n id) sent p /\
      exists ps, sent = map fst ps /\ NoDup sent /\ incl sent (nb id) /\
        result_of (fun n => msg_at D t n id) (update_at D t id) =
        (let '(c', l) := result_of (fun n => msg_at D t n id) p in (c', ps ++ l))
  | Some (Empties todo sent) =>
      t < N /\ c = cell_at D (t + 1) id /\
      exists pre, nb id = pre ++ todo /\ forall n, In n sent <-> In n (map fst (sends_at t id)) \/ In n pre
  end.

Definition comp_ok (id : Z) (k : component C M) : Prop :=
  0 <= k_done k <= N /\ run_ok id (k_cell k) (k_done k) (k_run k).

(** Messages which have been sent *)
Definition sent_to (g : conf C M) (f to s : Z) : Prop :=
  1 <= s /\ (s <= k_done (g_comp g f) \/ (s = k_done (g_comp g f) + 1 /\ In to (sent_of (k_run (g_comp g f))))).

Definition mails (g : conf C M) : list (message M) := g_net g ++ g_inbox g.

Record winv (g : conf C M) : Prop := {
  w_comp : forall id, In id cells -> comp_ok id (g_comp g id);
  w_none : forall id, ~ In id cells -> k_run (g_comp g id) = None /\ k_built (g_comp g id) = [] /\ k_tasks (g_comp g id) = [];
  w_chunk : forall id k, In k (k_tasks (g_comp g id) ++ k_built (g_comp g id)) -> 0 <= k;
  w_mail : forall f to s m, In (f, to, s, m) (mails g) -> In f cells /\ In to (nb f) /\ sent_to g f to s /\ m = msg_at D s f to;
  w_sent : forall f to s, In f cells -> In to (nb f) -> sent_to g f to s -> In (f, to, s) (map key (mails g));
  w_nodup : NoDup (map key (mails g)) }.

Hypothesis OK : df_ok D.

Lemma run_sent_nb id k n : In id cells -> comp_ok id k -> In n (sent_of (k_run k)) -> In n (nb id).
Proof.
  intros I (Ht & R) H. unfold run_ok in R. destruct (k_run k) as [[p msgs sent|todo sent]|]; cbn in H; [ | | easy ].
  - destruct R as (_ & _ & _ & ps & _ & _ & S & _). now apply S.
  - destruct R as (L & _ & pre & E & S). apply S in H. destruct H as [H|H].
    + eapply polite_sends; [ | exact H ]. apply (ok_polite D OK); [ exact I | lia ].
    + rewrite E. apply in_or_app. now left.
Qed.

(** Components which only differ in what isn't part of the above *)
Definition like (k k' : component C M) : Prop := k_cell k = k_cell k' /\ k_done k = k_done k' /\ k_run k = k_run k'.

Lemma winv_like g g' : winv g -> (forall id, like (g_comp g id) (g_comp g' id)) -> g_net g = g_net g' -> g_inbox g = g_inbox g' ->
  (forall id, ~ In id cells -> k_built (g_comp g' id) = [] /\ k_tasks (g_comp g' id) = []) ->
  (forall id k, In k (k_tasks (g_comp g' id) ++ k_built (g_comp g' id)) -> 0 <= k) -> winv g'.
Proof.
  intros W L En Ei Hn Hc.
  assert (Em : mails g' = mails g) by (unfold mails; now rewrite En, Ei).
  assert (St : forall f to s, sent_to g' f to s <-> sent_to g f to s).
  { intros f to s. unfold sent_to. destruct (L f) as (_ & -> & ->). tauto. }
  constructor.
  - intros id I. specialize (w_comp g W id I). unfold comp_ok. destruct (L id) as (-> & -> & ->). tauto.
  - intros id I. destruct (L id) as (_ & _ & E). rewrite <- E. split; [ now apply (w_none g W) | now apply Hn ].
  - exact Hc.
  - intros f to s m H. rewrite Em in H. rewrite St. now apply (w_mail g W).
  - intros f to s. rewrite St, Em. apply (w_sent g W).
  - rewrite Em. apply (w_nodup g W).
Qed.

(** A change of one component without any message *)
Lemma winv_comp g id k' : winv g -> In id cells ->
  k_tasks k' = k_tasks (g_comp g id) -> k_built k' = k_built (g_comp g id) -> comp_ok id k' ->
  (forall to s, In to (nb id) ->
    (1 <= s /\ (s <= k_done k' \/ (s = k_done k' + 1 /\ In to (sent_of (k_run k'))))) <-> sent_to g id to s) ->
  winv (with_comp g id k').
Proof.
  intros W I Et Eb Hk Hs.
  assert (St : forall f to s, In to (nb f) -> sent_to (with_comp g id k') f to s <-> sent_to g f to s).
  { intros f to s T. unfold sent_to at 1. cbn. destruct (Z.eq_dec f id) as [ -> | Ne ].
    - rewrite put_eq. now apply Hs.
    - rewrite put_ne by exact Ne. reflexivity. }
  constructor.
  - intros j J. cbn. destruct (Z.eq_dec j id) as [ -> | Ne ]; [ now rewrite put_eq | ].
    rewrite put_ne by exact Ne. now apply (w_comp g W).
  - intros j J. cbn. rewrite put_ne by congruence. now apply (w_none g W).
  - intros j k. cbn. destruct (Z.eq_dec j id) as [ -> | Ne ]; [ rewrite put_eq, Et, Eb | rewrite put_ne by exact Ne ]; apply (w_chunk g W).
  - intros f to s m H. change (mails (with_comp g id k')) with (mails g) in H.
    destruct (w_mail g W f to s m H) as (A & B & S & E). rewrite St by exact B. tauto.
  - intros f to s A B. change (mails (with_comp g id k')) with (mails g). rewrite St by exact B. now apply (w_sent g W).
  - apply (w_nodup g W).
Qed.

(** A new message *)
Lemma winv_emit g id n m r : winv g -> In id cells -> In n (nb id) -> ~ In n (sent_of (k_run (g_comp g id))) ->
  comp_ok id (with_run (g_comp g id) r) -> (forall x, In x (sent_of (Some r)) <-> x = n \/ In x (sent_of (k_run (g_comp g id)))) ->
  m = msg_at D (k_done (g_comp g id) + 1) id n ->
  winv (mkConf (put (g_comp g) id (with_run (g_comp g id) r)) (g_main g) (g_net g ++ [(id, n, k_done (g_comp g id) + 1, m)]) (g_inbox g)).
Proof.
  intros W I Hn Ns Hk Hr Em. set (k := g_comp g id) in *. set (q := (id, n, k_done k + 1, m)).
  set (g' := mkConf _ _ _ _).
  assert (T0 : 0 <= k_done k) by apply (w_comp g W id I).
  assert (Perm : forall x, In x (mails g') <-> x = q \/ In x (mails g)).
  { intros x. unfold mails, g'. cbn. rewrite !in_app_iff. cbn. intuition congruence. }
  assert (St : forall f to s, sent_to g' f to s <-> (f, to, s) = (id, n, k_done k + 1) \/ sent_to g f to s).
  { intros f to s. unfold sent_to, g'. cbn [g_comp]. destruct (Z.eq_dec f id) as [ -> | Ne ].
    - rewrite put_eq. change (k_done (with_run k r)) with (k_done k). change (k_run (with_run k r)) with (Some r). fold k.
      rewrite Hr. split.
      + intros (P & [Q | (Q & [ -> | Q' ])]); [ tauto | left; congruence | tauto ].
      + intros [E | (P & Q)]; [ | tauto ]. injection E as -> ->. split; [ lia | right; auto ].
    - rewrite put_ne by exact Ne. split; [ tauto | intros [E|H]; [ congruence | exact H ] ]. }
  assert (Fresh : ~ In (key q) (map key (mails g))).
  { intros H. apply in_map_iff in H. destruct H as ([[[f to] s] m'] & E & H). unfold key, q in E. injection E as -> -> ->.
    destruct (w_mail g W _ _ _ _ H) as (_ & _ & (_ & [S|(_ & S)]) & _); [ fold k in S; lia | contradiction ]. }
  constructor.
  - intros j J. unfold g'. cbn. destruct (Z.eq_dec j id) as [ -> | Ne ]; [ now rewrite put_eq | ].
    rewrite put_ne by exact Ne. now apply (w_comp g W).
  - intros j J. unfold g'. cbn. rewrite put_ne by congruence. now apply (w_none g W).
  - intros j k'. unfold g'. cbn. destruct (Z.eq_dec j id) as [ -> | Ne ]; [ rewrite put_eq | rewrite put_ne by exact Ne ]; apply (w_chunk g W).
  - intros f to s m' H. apply Perm in H. rewrite St. destruct H as [E|H].
    + unfold q in E. injection E as -> -> -> ->. repeat split; auto.
    + destruct (w_mail g W _ _ _ _ H) as (A & B & S & E). auto.
  - intros f to s A B. rewrite St. intros H. apply in_map_iff. destruct H as [E|H].
    + exists q. split; [ unfold q, key; congruence | apply Perm; now left ].
    + apply (w_sent g W) in H; [ | exact A | exact B ]. apply in_map_iff in H. destruct H as (x & E & H). exists x. split; [ exact E | apply Perm; now right ].
  - unfold mails, g'. cbn. rewrite map_app, map_app, <- app_assoc. cbn.
    apply NoDup_Add with (a := key q) (l := map key (mails g)).
    + unfold mails. rewrite map_app. apply Add_app.
    + split; [ apply (w_nodup g W) | exact Fresh ].
Qed.
End Facts.
