(** ParallelMemoryWriter. Definitions only.

    Source: io/parallelmemorywriter.h, together with MPILayer's sendRegion,
    recvRegion, sendUnregisteredRegion and recvUnregisteredRegion
    (communication/mpilayer.h:260-289, 303-325), all below
    /repo/src/libgeodecomp. The nodes run concurrently; all messages between
    two nodes have the same tag, hence they stay in order. A Region and the
    cells which follow it are represented by one message: its cells are sent
    from the sender's grid asynchronously, which does not matter as the
    sender's part of the grid doesn't change before [waitAll]. Sending blocks
    unless fewer than [cap] messages to that node are under way; apart from
    this, a message is handed over once the receiver waits for it, so [cap] may
    be 0. Calls which return immediately (parallelmemorywriter.h:45-47, see
    [pm_skips]) don't have any effect and are left out. *)
From Verif Require Import Base RegionModel RegionIterModel CoordModel RegionOpsModel RegionObjModel UpdateModel GridModel GridReach PartitionManagerModel CollectModel.

(** [(event == WRITER_STEP_FINISHED) && (step % period != 0)]
    (parallelmemorywriter.h:45-47) *)
Definition pm_skips {C E} (finished : E -> bool) (period : Z) (k : wcall C E) : bool :=
  finished (k_event k) && negb (k_step k mod period =? 0).

(** The pairs of nodes which exchange cells, in the order of the loops
    (parallelmemorywriter.h:61-67) *)
Definition pm_pairs (size : nat) : list (nat * nat) :=
  filter (fun p => negb (fst p =? snd p)%nat) (list_prod (seq 0 size) (seq 0 size)).

(** A message: the Streaks of a Region, the cells per Streak. *)
Notation pmessage C := (list streak * list (list C))%type.

(** Per node: the number of finished calls, how far the current one is
    (0: about to start, 1 + p: at the p-th pair) and the grids per step. Per
    pair of nodes: the messages under way. *)
Record pstate (C : Type) := mkPm {
  m_call : nat -> nat; m_pos : nat -> nat; m_chan : nat -> nat -> list (pmessage C); m_grids : nat -> Z -> dgrid C
}.
Arguments mkPm {C}. Arguments m_call {C}. Arguments m_pos {C}. Arguments m_chan {C}. Arguments m_grids {C}.

(** [Local q]: node q does something on its own. [Post q]: it sends without
    waiting. [Fetch q]: it receives a message which is under way. [Meet s r]:
    a message is handed over. *)
Inductive pevent := Local (q : nat) | Post (q : nat) | Fetch (q : nat) | Meet (s r : nat).

Section Writer.
Context {C E : Type}.
Variable t : topology.
Variable dflt : C.
Variable size cap num : nat.
Variable eager : bool.                    (* does [waitAll] return before all messages have been received? *)
Variable calls : nat -> nat -> wcall C E.

Notation pstate := (pstate C). Notation pmessage := (pmessage C).

Definition put2 {A} (f : nat -> nat -> A) (i j : nat) (a : A) : nat -> nat -> A := fun x y => if (x =? i)%nat && (y =? j)%nat then a else f x y.
Definition put_grid (f : nat -> Z -> dgrid C) (q : nat) (z : Z) (g : dgrid C) : nat -> Z -> dgrid C := fun x y => if (x =? q)%nat && (y =? z) then g else f x y.

(** New writers: [grids[step]] creates an empty grid. *)
Definition pm_init (dim : nat) : pstate :=
  mkPm (fun _ => O) (fun _ => O) (fun _ _ => []) (fun _ _ => dg_make (mkBox (repeat 0 dim) (repeat 0 dim)) dflt dflt (repeat 0 dim)).

(** Streak by streak from the simulator's grid to the own one
    (parallelmemorywriter.h:53-58) *)
Fixpoint copy_streaks (src g : dgrid C) (ss : list streak) : option (dgrid C) :=
  match ss with
  | [] => Some g
  | s :: ss' => obind (dg_get_streak t src s) (fun buf => obind (dg_set_streak t g s buf) (fun g' => copy_streaks src g' ss'))
  end.

(** The first part of [stepFinished] (parallelmemorywriter.h:49-59) *)
Definition store_own (g : dgrid C) (k : wcall C E) : option (dgrid C) :=
  let g1 := if CoordModel.coord_eqb (b_dim (dg_box g)) (k_dims k) then g
            else dg_make (mkBox (zeros (k_dims k)) (k_dims k)) dflt dflt (zeros (k_dims k)) in
  obind (reg_streaks (k_region k)) (fun ss =>
  option_map (fun g2 => dg_set_edge g2 (g_edge (d_grid (k_grid k)))) (copy_streaks (k_grid k) g1 ss)).

(** As many cells as the Streak is long, starting at the address of the first
    one (mpilayer.h:303-325). Beyond the grid's rows that's undefined. *)
Definition raw_read (g : dgrid C) (s : streak) : option (list C) :=
  if box_in_bounds_streak (dg_box g) s then dg_get_streak t g s else None.

Definition raw_write (g : dgrid C) (s : streak) (cells : list C) : option (dgrid C) :=
  if box_in_bounds_streak (dg_box g) s then dg_set_streak t g s cells else None.

(** [sendRegion] and [sendUnregisteredRegion] (mpilayer.h:260-270, 315-325) *)
Definition outgoing (g : dgrid C) (k : wcall C E) : option pmessage :=
  obind (reg_streaks (k_region k)) (fun ss => option_map (fun cells => (ss, cells)) (mapo (raw_read g) ss)).

(** [recvRegion] and [recvUnregisteredRegion] (mpilayer.h:276-289, 303-313):
    one message of cells per Streak of the Region received *)
Fixpoint write_all (g : dgrid C) (ss : list streak) (cells : list (list C)) : option (dgrid C) :=
  match ss, cells with
  | [], _ => Some g
  | s :: ss', v :: cells' => obind (raw_write g s v) (fun g' => write_all g' ss' cells')
  | _ :: _, [] => None
  end.

Definition incoming (g : dgrid C) (k : wcall C E) (m : pmessage) : option (dgrid C) :=
  obind (reg_streaks (rg_idx (rg_insert_all (rg_new (length (k_dims k))) (fst m)))) (fun ss => write_all g ss (snd m)).

(** [sendRecvGrid] (parallelmemorywriter.h:72-93): the next pair of a node *)
Definition at_pair (s : pstate) (q : nat) : option (nat * nat) :=
  match m_pos s q with O => None | S p => if (m_call s q <? num)%nat then nth_error (pm_pairs size) p else None end.

Definition advance (s : pstate) (q : nat) : nat -> nat := put (m_pos s) q (S (m_pos s q)).

Definition own_grid (s : pstate) (q : nat) : dgrid C := m_grids s q (k_step (calls q (m_call s q))).

(** A step of [stepFinished] (parallelmemorywriter.h:36-70) on some nodes. *)
Definition pm_step (s : pstate) (e : pevent) : outcome pstate :=
  match e with
  | Local q =>
      let k := calls q (m_call s q) in
      if negb ((q <? size)%nat && (m_call s q <? num)%nat) then Blocked
      else match m_pos s q with
      | O => match store_own (own_grid s q) k with
             | Some g => Next (mkPm (m_call s) (advance s q) (m_chan s) (put_grid (m_grids s) q (k_step k) g))
             | None => Crash
             end
      | S p =>
          match nth_error (pm_pairs size) p with
          | Some (a, b) => if (a =? q)%nat || (b =? q)%nat then Blocked else Next (mkPm (m_call s) (advance s q) (m_chan s) (m_grids s))
          | None => (* waitAll *)
              if eager || forallb (fun r => match m_chan s q r with [] => true | _ => false end) (seq 0 size)
              then Next (mkPm (put (m_call s) q (S (m_call s q))) (put (m_pos s) q O) (m_chan s) (m_grids s))
              else Blocked
          end
      end
  | Post q =>
      match at_pair s q with
      | Some (a, b) =>
          if (a =? q)%nat && (length (m_chan s a b) <? cap)%nat then
            match outgoing (own_grid s q) (calls q (m_call s q)) with
            | Some m => Next (mkPm (m_call s) (advance s q) (put2 (m_chan s) a b (m_chan s a b ++ [m])) (m_grids s))
            | None => Crash
            end
          else Blocked
      | None => Blocked
      end
  | Fetch q =>
      match at_pair s q with
      | Some (a, b) =>
          if (b =? q)%nat then
            match m_chan s a b with
            | m :: ms =>
                match incoming (own_grid s q) (calls q (m_call s q)) m with
                | Some g => Next (mkPm (m_call s) (advance s q) (put2 (m_chan s) a b ms) (put_grid (m_grids s) q (k_step (calls q (m_call s q))) g))
                | None => Crash
                end
            | [] => Blocked
            end
          else Blocked
      | None => Blocked
      end
  | Meet a b =>
      match at_pair s a, at_pair s b, m_chan s a b with
      | Some (a1, b1), Some (a2, b2), [] =>
          if (a1 =? a)%nat && (b1 =? b)%nat && (a2 =? a)%nat && (b2 =? b)%nat then
            match obind (outgoing (own_grid s a) (calls a (m_call s a))) (incoming (own_grid s b) (calls b (m_call s b))) with
            | Some g => Next (mkPm (m_call s) (put (advance s a) b (S (m_pos s b))) (m_chan s) (put_grid (m_grids s) b (k_step (calls b (m_call s b))) g))
            | None => Crash
            end
          else Blocked
      | _, _, _ => Blocked
      end
  end.
End Writer.
