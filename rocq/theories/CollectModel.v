(** CollectingWriter. Definitions only.

    Source: /repo/src/libgeodecomp/io/collectingwriter.h, together with
    MPILayer::sendRegion and recvRegion (communication/mpilayer.h) and
    Region::toVector and load (geometry/region.h), all below
    /repo/src/libgeodecomp. The nodes run concurrently. Messages from one node
    to the root stay in order; a region and the cells which follow it are
    represented by one message. Up to [w_cap] messages per node may be under
    way (0 < w_cap), so sending may block, as MPI_Send may do. *)
From Verif Require Import Base RegionModel RegionIterModel CoordModel RegionOpsModel RegionObjModel UpdateModel GridModel GridReach.

(** The arguments of a call to [stepFinished]
    (collectingwriter.h:61-68) *)
Record wcall (C E : Type) := mkCall {
  k_grid : dgrid C; k_region : indices; k_dims : coord; k_step : Z; k_event : E; k_last : bool;
}.
Arguments mkCall {C E}. Arguments k_grid {C E}. Arguments k_region {C E}. Arguments k_dims {C E}.
Arguments k_step {C E}. Arguments k_event {C E}. Arguments k_last {C E}.

(** What the delegate on the root is called with
    (collectingwriter.h:115-117) *)
Record delivery (C E : Type) := mkDelivery { dl_grid : dgrid C; dl_step : Z; dl_event : E }.
Arguments mkDelivery {C E}. Arguments dl_grid {C E}. Arguments dl_step {C E}. Arguments dl_event {C E}.

(** Where the root is: between two calls, or in the loop of its current call
    (collectingwriter.h:84-111), about to deal with the given sender. *)
Inductive phase := Idle | Receiving (sender : nat).

Record wstate (C E : Type) := mkW {
  w_sent : nat -> nat;                             (* calls started, per node *)
  w_chan : nat -> list (list streak * list C);     (* messages under way, per node *)
  w_call : nat;                                    (* calls finished by the root *)
  w_phase : phase;
  w_grid : dgrid C;                                (* globalGrid *)
  w_log : list (delivery C E);                     (* newest first *)
}.
Arguments mkW {C E}. Arguments w_sent {C E}. Arguments w_chan {C E}. Arguments w_call {C E}.
Arguments w_phase {C E}. Arguments w_grid {C E}. Arguments w_log {C E}.

(** The next step of a node other than the root, or of the root. *)
Inductive wevent := Send (rank : nat) | Root.

Inductive outcome (S : Type) := Next (s : S) | Blocked | Crash.
Arguments Next {S}. Arguments Blocked {S}. Arguments Crash {S}.

Section Writer.
Context {C E : Type}.
Variable t : topology.
Variable correct : bool.        (* of the simulator's grids *)
Variable dflt : C.              (* CELL() *)
Variable size root cap num : nat.
Variable calls : nat -> nat -> wcall C E. (* [calls rank i]: the i-th of [num] calls on a node *)

Definition put {A} (f : nat -> A) (i : nat) (a : A) : nat -> A := fun j => if (j =? i)%nat then a else f j.

(** The default constructor: an empty grid. *)
Definition w_init (dim : nat) : wstate C E :=
  mkW (fun _ => O) (fun _ => []) O Idle (dg_make (mkBox (repeat 0 dim) (repeat 0 dim)) dflt dflt (repeat 0 dim)) [].

(** [saveRegion] to the buffer (collectingwriter.h:70-71) *)
Definition saved (k : wcall C E) : option (list C) := dg_save t correct (k_grid k) (k_region k) (zeros (k_dims k)).

(** The root's part before the loop (collectingwriter.h:70-82) *)
Definition load_own (g : dgrid C) (k : wcall C E) : option (dgrid C) :=
  obind (saved k) (fun buf =>
  let g1 := if CoordModel.coord_eqb (b_dim (dg_box g)) (k_dims k) then g
            else dg_make (mkBox (zeros (k_dims k)) (k_dims k)) dflt dflt (zeros (k_dims k)) in
  option_map (fun g2 => dg_set_edge g2 (g_edge (d_grid (k_grid k)))) (dg_load t false g1 (k_region k) (zeros (k_dims k)) buf)).

(** [sendRegion] (mpilayer.h:260-270) with [toVector] (region.h:1219-1224),
    and the cells (collectingwriter.h:101-109) *)
Definition message (k : wcall C E) : option (list streak * list C) :=
  obind (reg_streaks (k_region k)) (fun ss => option_map (fun buf => (ss, buf)) (saved k)).

(** [recvRegion] (mpilayer.h:276-289) with [load] (region.h:691-696), and
    what the root does with the cells (collectingwriter.h:87-100) *)
Definition load_message (g : dgrid C) (k : wcall C E) (m : list streak * list C) : option (dgrid C) :=
  let r := rg_idx (rg_insert_all (rg_new (length (k_dims k))) (fst m)) in
  dg_load t false g r (zeros (k_dims k)) (snd m).

(** One step of [stepFinished] (collectingwriter.h:61-118) on some node. *)
Definition w_step (s : wstate C E) (e : wevent) : outcome (wstate C E) :=
  match e with
  | Send rank =>
      if (rank <? size)%nat && negb (rank =? root)%nat && (w_sent s rank <? num)%nat && (length (w_chan s rank) <? cap)%nat then
        match message (calls rank (w_sent s rank)) with
        | Some m => Next (mkW (put (w_sent s) rank (S (w_sent s rank))) (put (w_chan s) rank (w_chan s rank ++ [m]))
                              (w_call s) (w_phase s) (w_grid s) (w_log s))
        | None => Crash
        end
      else Blocked
  | Root =>
      let k := calls root (w_call s) in
      match w_phase s with
      | Idle =>
          if (w_call s <? num)%nat then
            match load_own (w_grid s) k with
            | Some g => Next (mkW (w_sent s) (w_chan s) (w_call s) (Receiving 0) g (w_log s))
            | None => Crash
            end
          else Blocked
      | Receiving sender =>
          if (sender <? size)%nat then
            if (sender =? root)%nat then Next (mkW (w_sent s) (w_chan s) (w_call s) (Receiving (S sender)) (w_grid s) (w_log s))
            else match w_chan s sender with
                 | m :: ms => match load_message (w_grid s) k m with
                              | Some g => Next (mkW (w_sent s) (put (w_chan s) sender ms) (w_call s) (Receiving (S sender)) g (w_log s))
                              | None => Crash
                              end
                 | [] => Blocked
                 end
          else Next (mkW (w_sent s) (w_chan s) (S (w_call s)) Idle (w_grid s)
                         (if k_last k then mkDelivery (w_grid s) (k_step k) (k_event k) :: w_log s else w_log s))
      end
  end.

End Writer.
