(** What a simulation by HPXDataflowSimulator should come to: rounds in which
    all cells are updated at the same time. All messages sent in one round are
    seen in the next one; in the first round, and where nothing was sent,
    the message is the default. *)
From Verif Require Import Base DataflowModel.

Section Spec.
Context {C M : Type} (D : dataflow C M).

Definition all_cells : list Z := concat (df_locs D).

(** The number of updates of every cell *)
Definition total : Z := df_max D * df_nano D.

(** What an update comes to if [msg] are the messages: the new cell and what it
    sends *)
Fixpoint result_of (msg : Z -> M) (p : act C M) : C * list (Z * M) :=
  match p with
  | Finish c => (c, [])
  | Look n k => result_of msg (k (msg n))
  | Send n m k => let '(c, l) := result_of msg k in (c, (n, m) :: l)
  end.

Definition mail (l : list (Z * M)) (n : Z) : M :=
  match find (fun q => fst q =? n) l with Some q => snd q | None => df_default D end.

(** The cells and the messages (sender, receiver) after [n] rounds *)
Fixpoint rounds (n : nat) : (Z -> C) * (Z -> Z -> M) :=
  match n with
  | O => (df_init D, fun _ _ => df_default D)
  | S n' =>
      let '(c, m) := rounds n' in
      let t := Z.of_nat n' in
      let res id := result_of (fun f => m f id) (df_update D (t mod df_nano D) (t / df_nano D) (df_nb D id) (c id)) in
      (fun id => fst (res id), fun id to => mail (snd (res id)) to)
  end.

Definition cell_at (t id : Z) : C := fst (rounds (Z.to_nat t)) id.
Definition msg_at (t from to : Z) : M := snd (rounds (Z.to_nat t)) from to.

(** The update of a cell in round [t] *)
Definition update_at (t id : Z) : act C M :=
  df_update D (t mod df_nano D) (t / df_nano D) (df_nb D id) (cell_at t id).

(** An update which only looks at messages from neighbors and sends at most one
    message to each of them *)
Fixpoint polite (nbs : list Z) (msg : Z -> M) (sent : list Z) (p : act C M) : Prop :=
  match p with
  | Finish _ => True
  | Look n k => In n nbs /\ polite nbs msg sent (k (msg n))
  | Send n m k => In n nbs /\ ~ In n sent /\ polite nbs msg (sent ++ [n]) k
  end.

(** Every locality has cells, neighbors are mutual and updates are polite. *)
Record df_ok : Prop := {
  ok_cells : NoDup all_cells;
  ok_locs : forall l, In l (df_locs D) -> l <> [];
  ok_nano : 0 < df_nano D;
  ok_chunk : 0 < df_chunk D;
  ok_max : 0 <= df_max D;
  ok_nodup : forall id, In id all_cells -> NoDup (df_nb D id);
  ok_sym : forall id n, In id all_cells -> In n (df_nb D id) -> In n all_cells /\ In id (df_nb D n);
  ok_polite : forall id t, In id all_cells -> 0 <= t < total ->
    polite (df_nb D id) (fun n => msg_at t n id) [] (update_at t id) }.

(** A configuration which some execution leads to *)
Definition reached (g : conf C M) : Prop := exists l, execute D l (start D) = Next g.

(** [run()] has returned everywhere. *)
Definition finished (g : conf C M) : Prop := forall l, (l < length (df_locs D))%nat -> m_phase (g_main g l) = Returned.
End Spec.
