(** HPXDataflowSimulator: whatever the scheduler and the network do, the cells
    go through the same states as if all of them were updated at once. *)
From Verif Require Import Base DataflowModel DataflowSpec DataflowFacts DataflowSafe DataflowLive.
From Coq Require Import ZifyBool ZifyNat.

(** At any time a cell which isn't being updated has the state of the round it
    is in. *)
Theorem C117_cells {C M} (D : dataflow C M) ls g id :
  df_ok D -> execute D ls (start D) = Next g -> In id (all_cells D) ->
  0 <= k_done (g_comp g id) <= total D /\ (k_run (g_comp g id) = None -> k_cell (g_comp g id) = cell_at D (k_done (g_comp g id)) id).
Proof.
  intros OK H I. destruct (inv_reached D OK g (ex_intro _ ls H)) as (W & _). destruct (w_comp D g W id I) as (Hd & R).
  split; [ exact Hd | ]. intros E. rewrite E in R. exact R.
Qed.
Print Assumptions C117_cells.

(** When the update of a cell begins, it gets the number of the nano step, of
    the step, its neighbors and the messages which they have sent in the
    previous round. *)
Theorem C117_updates {C M} (D : dataflow C M) ls g id g' :
  df_ok D -> execute D ls (start D) = Next g -> fire D (LBegin id) g = Next g' ->
  let t := k_done (g_comp g id) in
  0 <= t < total D /\
  k_run (g_comp g' id) = Some (User (df_update D (t mod df_nano D) (t / df_nano D) (df_nb D id) (cell_at D t id))
                                    (map (fun n => msg_at D t n id) (df_nb D id)) []).
Proof.
  intros OK H F. pose proof (inv_reached D OK g (ex_intro _ ls H)) as V.
  destruct (begin_spec D OK id g g' V F) as (I & _ & Ht & ->). destruct V as (W & _). destruct (w_comp D g W id I) as (Hd & _).
  cbn. rewrite put_eq. split; [ lia | reflexivity ].
Qed.
Print Assumptions C117_updates.

(** In the end all cells have been updated as often as they should. *)
Theorem C117_results {C M} (D : dataflow C M) ls g :
  df_ok D -> execute D ls (start D) = Next g -> finished D g ->
  forall id, In id (all_cells D) ->
    k_done (g_comp g id) = df_max D * df_nano D /\ k_run (g_comp g id) = None /\ k_cell (g_comp g id) = cell_at D (df_max D * df_nano D) id.
Proof.
  intros OK H F id I. destruct (inv_reached D OK g (ex_intro _ ls H)) as (W & HM).
  destruct (cells_loc D id I) as (l & L & Il). pose proof (p_phase D g l (HM l)) as P. rewrite (F l L) in P. specialize (P id Il).
  destruct (w_comp D g W id I) as (Hd & R). assert (E : k_done (g_comp g id) = total D) by lia. rewrite E in R.
  split; [ exact E | ]. destruct (k_run (g_comp g id)) as [[]|]; cbn in R; [ lia | lia | split; [ reflexivity | exact R ] ].
Qed.
Print Assumptions C117_results.

(** Nothing throws, except for late continuations (see C122): when run() of
    the locality has returned already and all of its updates are done. *)
Theorem C117_exceptions {C M} (D : dataflow C M) ls g a :
  df_ok D -> execute D ls (start D) = Next g -> fire D a g = Raises ->
  exists l k, a = LSignal l k /\ m_phase (g_main g l) = Returned /\
    forall id, In id (cells_of D l) -> k_done (g_comp g id) = df_max D * df_nano D.
Proof. intros OK H F. exact (raises_signal D OK a g (inv_reached D OK g (ex_intro _ ls H)) F). Qed.
Print Assumptions C117_exceptions.

(** No deadlocks: unless run() has returned everywhere there is something to do. *)
Theorem C118_progress {C M} (D : dataflow C M) ls g :
  df_ok D -> execute D ls (start D) = Next g -> finished D g \/ exists a g', fire D a g = Next g'.
Proof. intros OK H. exact (progress D OK g (inv_reached D OK g (ex_intro _ ls H))). Qed.
Print Assumptions C118_progress.

(** No livelocks: the length of executions is bounded. *)
Theorem C118_terminates {C M} (D : dataflow C M) :
  df_ok D -> exists bound, forall ls g, execute D ls (start D) = Next g -> (length ls <= bound)%nat.
Proof.
  intros OK. exists (todo_of D (start D)). intros ls g H. pose proof (bounded D OK ls (start D) g (inv_start D OK) H). lia.
Qed.
Print Assumptions C118_terminates.

Theorem C118_completes {C M} (D : dataflow C M) ls g :
  df_ok D -> execute D ls (start D) = Next g -> exists ls' g', execute D ls' g = Next g' /\ finished D g'.
Proof. intros OK H. exact (completes D OK g (inv_reached D OK g (ex_intro _ ls H))). Qed.
Print Assumptions C118_completes.

(** Four cells in a circle on two localities. Cells add up all messages and tell
    one of their neighbors. *)
Definition ring_nb (id : Z) : list Z := if id =? 0 then [1; 3] else if id =? 1 then [0; 2] else if id =? 2 then [1; 3] else [0; 2].

Fixpoint look_all (nbs : list Z) (s : Z) (k : Z -> act Z Z) : act Z Z :=
  match nbs with [] => k s | n :: nbs' => Look n (fun m => look_all nbs' (s + m) k) end.

Definition ring_update (nano step : Z) (nbs : list Z) (c : Z) : act Z Z :=
  look_all nbs c (fun s => Send (if nano =? 0 then nth 0 nbs 0 else nth 1 nbs 0) (s + step) (Finish s)).

Definition ring : dataflow Z Z := mkDataflow [[0; 1]; [2; 3]] ring_nb 2 2 0 3 ring_update 100 (fun id => id).

Lemma ring_ok : df_ok ring.
Proof.
  constructor; try (cbn; lia).
  - cbn. repeat constructor; cbn; lia.
  - cbn. intros l [ <- |[ <- |[]]]; discriminate.
  - cbn. unfold ring_nb. intros id _. destruct (id =? 0), (id =? 1), (id =? 2); repeat constructor; cbn; intuition lia.
  - cbn. intros id n I H. destruct I as [ <- |[ <- |[ <- |[ <- |[]]]]]; cbn in H; destruct H as [ <- |[ <- |[]]]; cbn; lia.
  - intros id t I _.
    assert (G : forall nano step c msg a b, polite [a; b] msg [] (ring_update nano step [a; b] c)).
    { intros nano step c msg a b. unfold ring_update. cbn. destruct (nano =? 0); tauto. }
    unfold update_at. cbn [df_update df_nb ring]. unfold ring_nb. destruct (id =? 0), (id =? 1), (id =? 2); apply G.
Qed.

Example C117_example : exists ls g, execute ring ls (start ring) = Next g /\ finished ring g /\
  map (fun id => k_cell (g_comp g id)) [0; 1; 2; 3] = [12676; 12675; 6436; 6437].
Proof.
  destruct (C118_completes ring [] (start ring) ring_ok eq_refl) as (ls & g & H & F).
  exists ls, g. split; [ exact H | ]. split; [ exact F | ].
  transitivity (map (cell_at ring 6) [0; 1; 2; 3]).
  - apply map_ext_in. intros id I. now apply (C117_results ring ls g ring_ok H F).
  - vm_compute. reflexivity.
Qed.

(** ** What isn't as one might expect *)

(** A cell whose neighbor doesn't have it as its neighbor waits for ever. *)
Record waits {C M} (D : dataflow C M) (id : Z) (g : conf C M) : Prop := {
  v_built : ~ In 0 (k_built (g_comp g id));
  v_run : k_run (g_comp g id) = None;
  v_done : k_done (g_comp g id) = 0;
  v_pos : forall k, In k (k_tasks (g_comp g id) ++ k_built (g_comp g id)) -> 0 <= k;
  v_phase : forall l, match m_phase (g_main g l) with Launching k _ => 0 <= k | Waiting k => 0 <= k | Collecting => True | Returned => ~ In id (cells_of D l) end }.

Lemma waits_comp {C M} (D : dataflow C M) id g j k' net inbox : waits D id g ->
  (j = id -> ~ In 0 (k_built k') /\ k_run k' = None /\ k_done k' = 0 /\ forall k, In k (k_tasks k' ++ k_built k') -> 0 <= k) ->
  waits D id (mkConf (put (g_comp g) j k') (g_main g) net inbox).
Proof.
  intros [A1 A2 A3 A4 A5] H. destruct (Z.eq_dec j id) as [ -> | Ne ].
  - destruct (H eq_refl) as (B1 & B2 & B3 & B4). constructor; cbn; rewrite ?put_eq; auto.
  - constructor; cbn; rewrite ?put_ne by congruence; auto.
Qed.

Lemma waits_main {C M} (D : dataflow C M) id g l m : waits D id g ->
  match m_phase m with Launching k _ => 0 <= k | Waiting k => 0 <= k | Collecting => True | Returned => ~ In id (cells_of D l) end ->
  waits D id (with_main g l m).
Proof.
  intros [A1 A2 A3 A4 A5] H. constructor; cbn; auto. intros l'. destruct (Nat.eq_dec l' l) as [ -> | Ne ]; [ now rewrite nput_eq | rewrite nput_ne by exact Ne; apply A5 ].
Qed.

Lemma waits_fire {C M} (D : dataflow C M) id n a g g' :
  0 < df_nano D -> 0 < df_chunk D -> 0 < df_max D -> In n (df_nb D id) -> ~ In id (df_nb D n) ->
  waits D id g -> fire D a g = Next g' -> waits D id g'.
Proof.
  intros Hn Hc Hx In_ Nb V H. pose proof V as [A1 A2 A3 A4 A5]. destruct a; cbn in H.
  - unfold fire_make in H. destruct (_ && _); [ | discriminate ]. injection H as <-. apply waits_comp; [ exact V | ]. intros ->. cbn. auto.
  - unfold fire_launch in H. destruct (negb _); [ discriminate | ]. pose proof (A5 l) as P.
    assert (Np : forall k, 0 <= k -> match next_phase D l k with Launching k _ => 0 <= k | Waiting k => 0 <= k | Collecting => True | Returned => ~ In id (cells_of D l) end).
    { intros k K. unfold next_phase. destruct (_ <? _); auto. }
    destruct (m_phase (g_main g l)) as [k [|j todo]|k| |] eqn:Ep.
    + destruct (cells_of D l); [ discriminate | ]. injection H as <-. now apply waits_main.
    + injection H as <-. apply waits_main; [ | exact P ]. apply waits_comp; [ exact V | ]. intros ->. cbn. repeat split; auto.
      intros x I. rewrite <- app_assoc, in_app_iff in I. cbn in I. destruct I as [I|[ <- |I]]; [ apply A4, in_or_app; now left | exact P | apply A4, in_or_app; now right ].
    + destruct (_ <=? _); [ | discriminate ]. injection H as <-. apply waits_main; [ exact V | ]. cbn [m_phase]. apply Np. lia.
    + destruct (forallb _ (cells_of D l)) eqn:F; [ | discriminate ]. injection H as <-. apply waits_main; [ exact V | ]. cbn [m_phase].
      intros I. rewrite forallb_forall in F. specialize (F id I). cbn in F. rewrite A3 in F. nia.
    + discriminate.
  - unfold fire_signal in H. destruct (take1 _ _) as [conts|]; [ | discriminate ]. destruct (cells_of D l) eqn:Ec; [ discriminate | ]. destruct (_ <=? _); [ | discriminate ].
    pose proof (A5 l) as P. destruct (m_phase (g_main g l)) eqn:Ep; try discriminate; injection H as <-; apply waits_main; auto.
  - unfold fire_setup in H. destruct (take1 k _) as [tasks|] eqn:T; [ | discriminate ].
    destruct (k_made (g_comp g id0) && (negb (k =? 0) || linked D g id0)) eqn:E; [ | discriminate ]. injection H as <-. apply waits_comp; [ exact V | ]. intros ->.
    destruct (take1_in _ _ _ T) as (T1 & _ & T2).
    assert (Lf : linked D g id = false).
    { unfold linked. destruct (forallb _ _) eqn:F; [ | reflexivity ]. rewrite forallb_forall in F. specialize (F n In_). cbn in F.
      apply memZ_false in Nb. rewrite Nb, andb_false_r in F. discriminate. }
    rewrite Lf, orb_false_r in E. assert (k <> 0) by lia. cbn. repeat split; auto.
    + rewrite in_app_iff. cbn. intuition congruence.
    + intros x I. apply A4. rewrite !in_app_iff in *. rewrite T2. cbn in I. intuition congruence.
  - unfold fire_begin in H. destruct (k_run (g_comp g id0)) eqn:Er; [ discriminate | ]. destruct (existsb _ _) eqn:Ex; [ | discriminate ].
    destruct (all_of _ _); [ | discriminate ]. injection H as <-. apply waits_comp; [ exact V | ]. intros ->. exfalso.
    apply existsb_exists in Ex. destruct Ex as (k & Ik & Hk). rewrite A3 in Hk. unfold first_of in Hk.
    assert (0 <= k) by (apply A4, in_or_app; now right). assert (k = 0) by nia. congruence.
  - unfold fire_step in H. destruct (k_run (g_comp g id0)) as [r|] eqn:Er; [ | discriminate ].
    assert (Ne : id0 <> id) by congruence.
    destruct r as [[c|m k|m x k] msgs sent|[|m todo] sent].
    + injection H as <-. apply waits_comp; [ exact V | ]. intros E. contradiction.
    + destruct (lookup _ _ _); [ | discriminate ]. injection H as <-. apply waits_comp; [ exact V | ]. intros E. contradiction.
    + unfold emit in H. destruct (memZ _ _); [ | discriminate ]. injection H as <-. apply waits_comp; [ exact V | ]. intros E. contradiction.
    + injection H as <-. apply waits_comp; [ exact V | ]. intros E. contradiction.
    + destruct (memZ m sent); [ injection H as <-; apply waits_comp; [ exact V | intros E; contradiction ] | ].
      unfold emit in H. destruct (memZ _ _); [ | discriminate ]. injection H as <-. apply waits_comp; [ exact V | ]. intros E. contradiction.
  - unfold fire_deliver in H. destruct (take_nth _ _) as [[q net]|]; [ | discriminate ]. destruct (existsb _ _); [ discriminate | ].
    injection H as <-. constructor; auto.
Qed.

Theorem C119_asymmetric_hangs {C M} (D : dataflow C M) id n ls g :
  0 < df_nano D -> 0 < df_chunk D -> 0 < df_max D -> In id (all_cells D) -> In n (df_nb D id) -> ~ In id (df_nb D n) ->
  execute D ls (start D) = Next g -> ~ finished D g.
Proof.
  intros Hn Hc Hx I In_ Nb H F.
  assert (V : waits D id g).
  { assert (V0 : waits D id (start D)).
    { constructor; cbn; auto; [ easy | ]. intros l. unfold next_phase. destruct (_ <? _); auto; lia. }
    revert V0 H. generalize (start D). induction ls as [|a ls IH]; cbn; intros g0 V0 H; [ congruence | ].
    destruct (fire D a g0) as [g1| |] eqn:E; try discriminate. eapply IH; [ eapply waits_fire; eauto | exact H ]. }
  destruct (cells_loc D id I) as (l & L & Il). pose proof (v_phase D id g V l) as P. rewrite (F l L) in P. contradiction.
Qed.
Print Assumptions C119_asymmetric_hangs.

(** Two cells; one of them reads what the other one sends. *)
Definition pair_nb (id : Z) : list Z := if id =? 0 then [1] else [].
Definition asymmetric : dataflow Z Z := mkDataflow [[0; 1]] pair_nb 1 1 0 1 (fun _ _ _ c => Finish c) 0 (fun id => id).

Theorem C119_asymmetric_refuted : exists D : dataflow Z Z,
  (forall id n, In id (all_cells D) -> In n (df_nb D id) -> In n (all_cells D)) /\
  (forall id t, In id (all_cells D) -> polite (df_nb D id) (fun n => msg_at D t n id) [] (update_at D t id)) /\
  0 < df_nano D /\ 0 < df_chunk D /\ 0 < df_max D /\
  forall ls g, execute D ls (start D) = Next g -> ~ finished D g.
Proof.
  exists asymmetric. split; [ | split; [ | split; [ reflexivity | split; [ reflexivity | split; [ reflexivity | ] ] ] ] ].
  - cbn. intros id n [ <- |[ <- |[]]] H; cbn in H; [ destruct H as [ <- |[]]; tauto | easy ].
  - intros id t _. exact I.
  - intros ls g. apply (C119_asymmetric_hangs asymmetric 0 1); cbn; try reflexivity; [ now left | now left | easy ].
Qed.
Print Assumptions C119_asymmetric_refuted.

(** More localities than cells *)
Theorem C120_empty_locality_refuted : exists (D : dataflow Z Z) ls,
  NoDup (all_cells D) /\ (forall id, df_nb D id = []) /\ 0 < df_max D /\ execute D ls (start D) = Raises.
Proof.
  exists (mkDataflow [[0]; []] (fun _ => []) 1 5 0 10 (fun _ _ _ c => Finish c) 0 (fun id => id)), [LLaunch 1].
  split; [ cbn; repeat constructor; easy | ]. repeat split.
Qed.
Print Assumptions C120_empty_locality_refuted.

(** The simulation doesn't start with the Initializer's first step: this cell
    keeps a record of the steps in which it has been updated. *)
Definition history : dataflow (list Z) Z := mkDataflow [[0]] (fun _ => []) 1 5 3 5 (fun _ step _ c => Finish (c ++ [step])) 0 (fun _ => []).

Lemma history_ok : df_ok history.
Proof.
  constructor; try (cbn; lia).
  - cbn. repeat constructor; easy.
  - cbn. intros l [ <- |[]]; discriminate.
  - cbn. constructor.
Qed.

Theorem C121_start_step_refuted : exists (D : dataflow (list Z) Z) ls g,
  df_ok D /\ 0 < df_start D < df_max D /\ execute D ls (start D) = Next g /\ finished D g /\
  (forall step nano nbs c, df_update D nano step nbs c = Finish (c ++ [step])) /\ df_init D 0 = [] /\
  k_cell (g_comp g 0) = [0; 1; 2; 3; 4] /\ df_start D = 3.
Proof.
  destruct (C118_completes history [] (start history) history_ok eq_refl) as (ls & g & H & F).
  exists history, ls, g. split; [ exact history_ok | ]. split; [ cbn; lia | ]. split; [ exact H | ]. split; [ exact F | ].
  split; [ reflexivity | ]. split; [ reflexivity | ]. split; [ | reflexivity ].
  destruct (C117_results history ls g history_ok H F 0 ltac:(now left)) as (_ & _ & ->). vm_compute. reflexivity.
Qed.
Print Assumptions C121_start_step_refuted.

(** A continuation may use the semaphore when run() has returned. *)
Theorem C122_late_signal_refuted : exists (D : dataflow (list Z) Z) ls, df_ok D /\ execute D ls (start D) = Raises.
Proof.
  exists history, ([LMake 0; LLaunch 0; LLaunch 0; LSetup 0 0] ++ concat (repeat [LBegin 0; LStep 0; LStep 0] 5) ++ [LLaunch 0; LLaunch 0; LSignal 0 0]).
  split; [ exact history_ok | vm_compute; reflexivity ].
Qed.
Print Assumptions C122_late_signal_refuted.

(** A cell which sends two messages to a neighbor in the same update *)
Definition chatty : dataflow Z Z :=
  mkDataflow [[0; 1]] (fun id => if id =? 0 then [1] else [0]) 1 5 0 1
    (fun _ _ nbs c => Send (hd 0 nbs) 1 (Send (hd 0 nbs) 2 (Finish c))) 0 (fun id => id).

Theorem C123_two_messages_refuted : exists (D : dataflow Z Z) ls,
  (forall id n, In id (all_cells D) -> In n (df_nb D id) -> In n (all_cells D) /\ In id (df_nb D n)) /\
  (forall nano step id c, In id (all_cells D) -> exists n m m', In n (df_nb D id) /\ df_update D nano step (df_nb D id) c = Send n m (Send n m' (Finish c))) /\
  execute D ls (start D) = Raises.
Proof.
  exists chatty, ([LMake 0; LMake 1; LLaunch 0; LLaunch 0; LLaunch 0; LSetup 0 0; LSetup 1 0; LBegin 0; LStep 0; LStep 0; LDeliver 0; LDeliver 0]).
  split; [ | split ].
  - cbn. intros id n [ <- |[ <- |[]]] H; cbn in H; destruct H as [ <- |[]]; cbn; tauto.
  - intros nano step id c [ <- |[ <- |[]]]; cbn; [ exists 1, 1, 2 | exists 0, 1, 2 ]; auto.
  - vm_compute. reflexivity.
Qed.
Print Assumptions C123_two_messages_refuted.
