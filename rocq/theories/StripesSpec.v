(** Specification vocabulary for StripingSimulator. *)
From Verif Require Import Base CoordSpec PatchModel StepperModel StripesModel.

(** [parts] cuts [height] rows into [n] stripes. *)
Definition cuts (n : nat) (height : Z) (parts : list Z) : Prop :=
  length parts = S n /\ nth 0 parts 0 = 0 /\ nth n parts 0 = height /\
  forall i, (i < n)%nat -> nth i parts 0 <= nth (S i) parts 0.

(** The cells of stripe [i]. *)
Definition stripe_cells (dim : coord) (parts : list Z) (i : nat) (c : coord) : Prop :=
  in_grid dim c /\ nth i parts 0 <= hd 0 c < nth (S i) parts 0.

(** The LoadBalancer keeps the number of rows. *)
Definition bal_valid (n : nat) (height : Z) (e : sevent) : Prop :=
  match e with
  | SNano _ _ => True
  | SBal ws => length ws = n /\ Forall (fun w => 0 <= w) ws /\ fold_right Z.add 0 ws = height
  end.

(** The serial simulation after [k] nano steps: steerers are called before the
    first nano step of each step. *)
Fixpoint steered_after {C} (upd : nat -> coord -> list C -> C) nb edge nanos steer (area : list coord) (start : nat) (g0 : grid C) (k : nat) : grid C * grid C :=
  match k with
  | O => (g0, g0)
  | S k' =>
      let gs := steered_after upd nb edge nanos steer area start g0 k' in
      let gs' := if Nat.eqb (Nat.modulo k' nanos) 0 then (steer_region steer (start + Nat.div k' nanos) area (fst gs), snd gs) else gs in
      serial_nano upd nb edge area gs' (Nat.modulo k' nanos)
  end.

(** The steps for which [stepFinished] was called. *)
Definition finished_steps {C} (log : list (wcall C)) : list nat :=
  flat_map (fun w => match w with WFinished t _ _ _ => [t] | WRegion _ => [] end) log.

(** A writer on node [i] has been called for all steps from [start] to [t], each
    time with the cells of stripe [i] according to the partition [hist s] of the
    respective step [s], and with their values in the serial simulation. *)
Definition writer_saw {C} (ser : nat -> grid C) (nanos : nat) (dim : coord) (hist : nat -> list Z) (start max_steps t i : nat) (log : list (wcall C)) : Prop :=
  finished_steps log = seq start (S (t - start)) /\
  forall s last cs g, In (WFinished s last cs g) log ->
    NoDup cs /\ (last = true <-> s = max_steps /\ (start < s)%nat) /\
    forall c, (In c cs <-> stripe_cells dim (hist s) i c) /\ (In c cs -> g c = ser ((s - start) * nanos)%nat c).

(** All nodes have reached the last step. *)
Definition all_done {C} (max_steps : nat) (st : stripes C) : Prop :=
  forall i nd, nth_error (ss_nodes st) i = Some nd -> sn_step nd = max_steps /\ sn_nano nd = O.

(** The contract of ParallelWriter (io/parallelwriter.h:69-76): regions in
    [stepFinished] are subsets of that in the latest [setRegion]. *)
Fixpoint within_announced {C} (announced : list coord) (log : list (wcall C)) : Prop :=
  match log with
  | [] => True
  | WRegion r :: log' => within_announced r log'
  | WFinished _ _ cs _ :: log' => incl cs announced /\ within_announced announced log'
  end.
