(** HPXDataflowSimulator. Definitions only.

    Source: /repo/src/libgeodecomp/parallelization/hpxdataflowsimulator.h and
    /repo/src/libgeodecomp/communication/hpxreceiver.h. An execution is a
    sequence of labels, chosen by the scheduler and the network: [fire] says
    what an event does in a configuration, whether it has to wait ([Blocks]) or
    whether it throws an exception or is undefined behaviour ([Raises]). All
    localities are part of one configuration.

    What HPX guarantees is assumed: actions, dataflow and continuations run
    once, after the futures they depend on have become ready; messages arrive
    once, in any order. A receiver's buffer holds one message per step. To store
    a second one raises (in HPX it depends on the timing whether this raises or
    the message is lost). Integers are unbounded, names of endpoints are pairs
    of IDs. *)
From Verif Require Import Base.

(** The body of a cell's [update(hood, event)]: it may look at messages
    ([hood\[id\]], lines 79-88) and send some ([hood.send()], lines 99-130) as it
    likes; in the end the cell has a new state. *)
Inductive act (C M : Type) :=
  | Finish (c : C)
  | Look (id : Z) (k : M -> act C M)
  | Send (id : Z) (m : M) (k : act C M).
Arguments Finish {C M} c. Arguments Look {C M} id k. Arguments Send {C M} id m k.

(** The arguments of the constructor (lines 311-319), what is obtained from the
    Initializer, the cells of each locality ([localRegion], line 367) and their
    neighbors (line 384). [df_update] gets [event.nanoStep()], [event.step()],
    [hood.neighbors()] and the cell. *)
Record dataflow (C M : Type) := mkDataflow {
  df_locs : list (list Z); df_nb : Z -> list Z; df_nano : Z; df_chunk : Z; df_start : Z; df_max : Z;
  df_update : Z -> Z -> list Z -> C -> act C M; df_default : M; df_init : Z -> C }.
Arguments mkDataflow {C M}. Arguments df_locs {C M}. Arguments df_nb {C M}. Arguments df_nano {C M}. Arguments df_chunk {C M}.
Arguments df_start {C M}. Arguments df_max {C M}. Arguments df_update {C M}. Arguments df_default {C M}. Arguments df_init {C M}.

(** A call to [CellComponent::update] (lines 237-252) which has started: within
    the update of the cell, or sending empty messages. [sent] is
    [sentNeighbors], [msgs] are the values of the futures. *)
Inductive running (C M : Type) :=
  | User (p : act C M) (msgs : list M) (sent : list Z)
  | Empties (todo : list Z) (sent : list Z).
Arguments User {C M}. Arguments Empties {C M}.

(** A component: has its constructor finished; calls to [setupDataflow] which
    are still to be executed (numbers of chunks) and those which have been;
    the cell; the number of updates which have finished; the current update. *)
Record component (C M : Type) := mkComp {
  k_made : bool; k_tasks : list Z; k_built : list Z; k_cell : C; k_done : Z; k_run : option (running C M) }.
Arguments mkComp {C M}. Arguments k_made {C M}. Arguments k_tasks {C M}. Arguments k_built {C M}.
Arguments k_cell {C M}. Arguments k_done {C M}. Arguments k_run {C M}.

(** Where [run()] (lines 336-432) of a locality is: within the inner loop for a
    chunk (lines 411-417), with some cells left; at [semaphore.wait()] (line 425);
    at [when_all().get()] (line 431); behind. *)
Inductive phase := Launching (k : Z) (todo : list Z) | Waiting (k : Z) | Collecting | Returned.

(** [m_lower] is the lower limit of the semaphore, [m_conts] are the chunks
    whose continuation (lines 419-423) hasn't been executed. *)
Record main := mkMain { m_phase : phase; m_lower : Z; m_conts : list Z }.

(** A message: sender, receiver, step and contents *)
Definition message (M : Type) : Type := Z * Z * Z * M.

(** [g_net] are messages on their way, [g_inbox] those which have been stored. *)
Record conf (C M : Type) := mkConf { g_comp : Z -> component C M; g_main : nat -> main; g_net : list (message M); g_inbox : list (message M) }.
Arguments mkConf {C M}. Arguments g_comp {C M}. Arguments g_main {C M}. Arguments g_net {C M}. Arguments g_inbox {C M}.

Inductive label :=
  | LMake (id : Z)             (* the constructor of a component *)
  | LLaunch (l : nat)          (* a step of [run()] *)
  | LSignal (l : nat) (k : Z)  (* the continuation for chunk [k] *)
  | LSetup (id k : Z)          (* [setupDataflow] for chunk [k] *)
  | LBegin (id : Z)            (* [update()] starts *)
  | LStep (id : Z)             (* a step of [update()] *)
  | LDeliver (n : nat).        (* a message arrives *)

Inductive outcome (A : Type) := Next (a : A) | Blocks | Raises.
Arguments Next {A} a. Arguments Blocks {A}. Arguments Raises {A}.

Definition put {A} (f : Z -> A) (i : Z) (v : A) : Z -> A := fun j => if j =? i then v else f j.
Definition nput {A} (f : nat -> A) (i : nat) (v : A) : nat -> A := fun j => if Nat.eqb j i then v else f j.
Definition memZ (x : Z) (l : list Z) : bool := existsb (Z.eqb x) l.

(** [l] without the first [x], if there is one *)
Fixpoint take1 (x : Z) (l : list Z) : option (list Z) :=
  match l with [] => None | y :: l' => if x =? y then Some l' else option_map (cons y) (take1 x l') end.

Fixpoint take_nth {A} (n : nat) (l : list A) : option (A * list A) :=
  match l, n with
  | [], _ => None
  | a :: l', O => Some (a, l')
  | a :: l', S n' => option_map (fun p => (fst p, a :: snd p)) (take_nth n' l')
  end.

Section Dataflow.
Context {C M : Type} (D : dataflow C M).

Definition cells_of (l : nat) : list Z := nth l (df_locs D) [].

(** [step * NANO_STEPS + nanoStep]: the number of updates before a chunk, and
    before the end of a chunk (lines 205, 409) *)
Definition first_of (k : Z) : Z := k * df_chunk D * df_nano D.
Definition end_of (k : Z) : Z := Z.min (df_max D) (k * df_chunk D + df_chunk D) * df_nano D.

(** [for (startStep = 0; startStep < maxTimeSteps; startStep += chunkSize)]
    (line 408). The Initializer's [startStep()] isn't used. *)
Definition next_phase (l : nat) (k : Z) : phase := if k * df_chunk D <? df_max D then Launching k (cells_of l) else Collecting.

Definition start : conf C M :=
  mkConf (fun id => mkComp false [] [] (df_init D id) 0 None) (fun l => mkMain (next_phase l 0) 0 []) [] [].

Definition with_comp (g : conf C M) (id : Z) (k : component C M) : conf C M := mkConf (put (g_comp g) id k) (g_main g) (g_net g) (g_inbox g).
Definition with_main (g : conf C M) (l : nat) (m : main) : conf C M := mkConf (g_comp g) (nput (g_main g) l m) (g_net g) (g_inbox g).

(** The constructor (lines 159-173) creates receivers for the messages from all
    neighbors. *)
Definition fire_make (id : Z) (g : conf C M) : outcome (conf C M) :=
  let k := g_comp g id in
  if memZ id (concat (df_locs D)) && negb (k_made k)
  then Next (with_comp g id (mkComp true (k_tasks k) (k_built k) (k_cell k) (k_done k) (k_run k)))
  else Blocks.

(** [run()]: launches one [setupDataflow] after the other (lines 411-417). The
    first future of the chunk then gets a continuation (line 419), which is
    undefined behaviour if there is none. [wait(startStep)] waits until
    [startStep - lookAheadDistance] is no more than the lower limit (line 425).
    Finally all cells have to be done (line 431). *)
Definition fire_launch (l : nat) (g : conf C M) : outcome (conf C M) :=
  if negb (l <? length (df_locs D))%nat then Blocks else
  let m := g_main g l in
  match m_phase m with
  | Launching k (id :: todo) =>
      let c := g_comp g id in
      Next (with_main (with_comp g id (mkComp (k_made c) (k_tasks c ++ [k]) (k_built c) (k_cell c) (k_done c) (k_run c)))
                      l (mkMain (Launching k todo) (m_lower m) (m_conts m)))
  | Launching k [] =>
      match cells_of l with
      | [] => Raises
      | _ => Next (with_main g l (mkMain (Waiting k) (m_lower m) (m_conts m ++ [k])))
      end
  | Waiting k =>
      if k * df_chunk D - 2 * df_chunk D <=? m_lower m
      then Next (with_main g l (mkMain (next_phase l (k + 1)) (m_lower m) (m_conts m)))
      else Blocks
  | Collecting =>
      if forallb (fun id => df_max D * df_nano D <=? k_done (g_comp g id)) (cells_of l)
      then Next (with_main g l (mkMain Returned (m_lower m) (m_conts m)))
      else Blocks
  | Returned => Blocks
  end.

(** The continuation (lines 419-423) runs when the last update of the chunk has
    finished. The semaphore is a local variable of [run()]. *)
Definition fire_signal (l : nat) (k : Z) (g : conf C M) : outcome (conf C M) :=
  let m := g_main g l in
  match take1 k (m_conts m), cells_of l with
  | Some conts, id :: _ =>
      if end_of k <=? k_done (g_comp g id)
      then match m_phase m with
           | Returned => Raises
           | _ => Next (with_main g l (mkMain (m_phase m) (Z.max (m_lower m) (k * df_chunk D)) conts))
           end
      else Blocks
  | _, _ => Blocks
  end.

(** [setupDataflow] (lines 196-234). The first chunk waits for the receivers of
    all neighbors (lines 175-194). The receiver for messages of [id] is
    registered by the neighbor's constructor if [id] is a neighbor, too. *)
Definition linked (g : conf C M) (id : Z) : bool :=
  forallb (fun n => k_made (g_comp g n) && memZ id (df_nb D n)) (df_nb D id).

Definition fire_setup (id k : Z) (g : conf C M) : outcome (conf C M) :=
  let c := g_comp g id in
  match take1 k (k_tasks c) with
  | Some tasks =>
      if k_made c && (negb (k =? 0) || linked g id)
      then Next (with_comp g id (mkComp (k_made c) tasks (k_built c ++ [k]) (k_cell c) (k_done c) (k_run c)))
      else Blocks
  | None => Blocks
  end.

(** The receiver's future (lines 210-216): [None] if it isn't ready. *)
Definition incoming (g : conf C M) (id n t : Z) : option M :=
  if 0 <? t then option_map snd (find (fun q => let '(f, to, s, _) := q in (f =? n) && (to =? id) && (s =? t)) (g_inbox g))
  else Some (df_default D).

(** All of them *)
Fixpoint all_of {A B} (f : A -> option B) (l : list A) : option (list B) :=
  match l with
  | [] => Some []
  | a :: l' => match f a, all_of f l' with Some b, Some r => Some (b :: r) | _, _ => None end
  end.

(** [update()] starts (lines 218-226): the previous update has finished, the
    chunk has been set up and all messages are there. *)
Definition fire_begin (id : Z) (g : conf C M) : outcome (conf C M) :=
  let c := g_comp g id in
  let t := k_done c in
  match k_run c with
  | Some _ => Blocks
  | None =>
      if existsb (fun k => (first_of k <=? t) && (t <? end_of k)) (k_built c)
      then match all_of (fun n => incoming g id n t) (df_nb D id) with
           | Some msgs =>
               Next (with_comp g id (mkComp (k_made c) (k_tasks c) (k_built c) (k_cell c) t
                 (Some (User (df_update D (t mod df_nano D) (t / df_nano D) (df_nb D id) (k_cell c)) msgs []))))
           | None => Blocks
           end
      else Blocks
  end.

(** [operator\[\]] (lines 79-88): the message at the same position as the ID *)
Fixpoint lookup (ids : list Z) (msgs : list M) (id : Z) : option M :=
  match ids, msgs with
  | i :: ids', m :: msgs' => if i =? id then Some m else lookup ids' msgs' id
  | _, _ => None
  end.

Definition with_run (c : component C M) (r : running C M) : component C M :=
  mkComp (k_made c) (k_tasks c) (k_built c) (k_cell c) (k_done c) (Some r).

(** [send] (lines 99-130): to a neighbor, for the next step *)
Definition emit (g : conf C M) (id n : Z) (m : M) (r : running C M) : outcome (conf C M) :=
  let c := g_comp g id in
  if memZ n (df_nb D id)
  then Next (mkConf (put (g_comp g) id (with_run c r)) (g_main g) (g_net g ++ [(id, n, k_done c + 1, m)]) (g_inbox g))
  else Raises.

(** One step of [update()] (lines 237-252, 132-140) *)
Definition fire_step (id : Z) (g : conf C M) : outcome (conf C M) :=
  let c := g_comp g id in
  match k_run c with
  | None => Blocks
  | Some (User (Finish v) msgs sent) =>
      Next (with_comp g id (mkComp (k_made c) (k_tasks c) (k_built c) v (k_done c) (Some (Empties (df_nb D id) sent))))
  | Some (User (Look n p) msgs sent) =>
      match lookup (df_nb D id) msgs n with
      | Some m => Next (with_comp g id (with_run c (User (p m) msgs sent)))
      | None => Raises
      end
  | Some (User (Send n m p) msgs sent) => emit g id n m (User p msgs (sent ++ [n]))
  | Some (Empties (n :: todo) sent) =>
      if memZ n sent then Next (with_comp g id (with_run c (Empties todo sent)))
      else emit g id n (df_default D) (Empties todo (sent ++ [n]))
  | Some (Empties [] sent) =>
      Next (with_comp g id (mkComp (k_made c) (k_tasks c) (k_built c) (k_cell c) (k_done c + 1) None))
  end.

(** [HPXReceiver::receive] (hpxreceiver.h:98-101) *)
Definition key (q : message M) : Z * Z * Z := let '(f, to, t, _) := q in (f, to, t).
Definition key_eqb (a b : Z * Z * Z) : bool :=
  let '(a1, a2, a3) := a in let '(b1, b2, b3) := b in (a1 =? b1) && (a2 =? b2) && (a3 =? b3).

Definition fire_deliver (n : nat) (g : conf C M) : outcome (conf C M) :=
  match take_nth n (g_net g) with
  | None => Blocks
  | Some (q, net) =>
      if existsb (fun q' => key_eqb (key q) (key q')) (g_inbox g) then Raises
      else Next (mkConf (g_comp g) (g_main g) net (g_inbox g ++ [q]))
  end.

Definition fire (a : label) (g : conf C M) : outcome (conf C M) :=
  match a with
  | LMake id => fire_make id g
  | LLaunch l => fire_launch l g
  | LSignal l k => fire_signal l k g
  | LSetup id k => fire_setup id k g
  | LBegin id => fire_begin id g
  | LStep id => fire_step id g
  | LDeliver n => fire_deliver n g
  end.

(** An execution *)
Fixpoint execute (l : list label) (g : conf C M) : outcome (conf C M) :=
  match l with
  | [] => Next g
  | a :: l' => match fire a g with Next g' => execute l' g' | Blocks => Blocks | Raises => Raises end
  end.
End Dataflow.
