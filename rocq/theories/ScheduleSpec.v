(** Specification vocabulary: when writers and steerers are to be called. *)
From Verif Require Import Base AdapterModel.

(** In a simulation from step [first] to step [last]. *)
Definition io_due (first last period s : nat) : bool :=
  Nat.eqb s first || Nat.eqb s last || Nat.eqb (Nat.modulo s period) 0.

Definition io_event (first last s : nat) : ioevent :=
  if Nat.eqb s last then IoAllDone else if Nat.eqb s first then IoInitialized else IoStep.

(** The steps from [first] up to [upto], but not beyond [last]. *)
Definition io_steps (first last upto : nat) : list nat := seq first (S (Nat.min upto last) - first).

(** All calls up to step [upto]. *)
Definition io_schedule (first last period upto : nat) : list iocall :=
  map (fun s => (s, io_event first last s)) (filter (io_due first last period) (io_steps first last upto)).

(** Notifications that don't leave out a time step, but may repeat it. *)
Fixpoint gapless (t : nat) (ts : list nat) : Prop :=
  match ts with
  | [] => True
  | t' :: ts' => (t' = t \/ t' = S t) /\ gapless t' ts'
  end.

(** Load balancing [period] apart, from [start] on, up to [now] (both
    inclusive, except for the start itself). *)
Definition balance_times (start period now : nat) : list nat :=
  map (fun k => (start + k * period)%nat) (seq 1 (Nat.div (now - start) period)).
