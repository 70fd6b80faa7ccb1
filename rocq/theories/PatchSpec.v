(** Specification of patch buffers: a queue of patches. *)
From Verif Require Import Base PatchModel.

(** The steps asked for and not yet seen, in no particular order, and the
    patches saved, oldest first, each with its step. *)
Record queue (C : Type) := mkQueue { q_pending : list nat; q_items : list (nat * list C) }.
Arguments mkQueue {C}. Arguments q_pending {C}. Arguments q_items {C}.

Definition queue_full {C} (cap : option nat) (q : queue C) : bool :=
  match cap with None => false | Some k => Nat.leb k (length (q_items q)) end.

(** A queue of at most [cap] patches.
    - A requested step is put in the queue when it is offered. Steps before
      the next requested one are ignored; it is an error to leave a requested
      step out, as well as to exceed the capacity.
    - The oldest patch is handed out to those asking for its step. Asking for
      another one is an error. *)
Definition queue_step {C} (cap : option nat) (cs : list coord) (q : queue C) (o : bop C) : queue C * bres C :=
  match o with
  | OPush t => (mkQueue (t :: q_pending q) (q_items q), RVoid)
  | OPut g t =>
      if existsb (fun x => Nat.ltb x t) (q_pending q) then (q, RThrow)
      else if existsb (Nat.eqb t) (q_pending q) then
        if queue_full cap q then (q, RThrow)
        else (mkQueue (filter (fun x => negb (Nat.eqb t x)) (q_pending q)) (q_items q ++ [(t, map g cs)]), RVoid)
      else (q, RVoid)
  | OGet g t rm =>
      match q_items q with
      | [] => (q, RThrow)
      | (t', p) :: items =>
          if Nat.eqb t t' then (if rm then mkQueue (q_pending q) items else q, loaded (load_region g cs p))
          else (q, RThrow)
      end
  end.

(** No step is requested once it, or a later one, is waiting in the queue. *)
Fixpoint timely {C} (cap : option nat) (cs : list coord) (q : queue C) (ops : list (bop C)) : Prop :=
  match ops with
  | [] => True
  | o :: ops' =>
      (forall t, o = OPush t -> Forall (fun x => fst x < t)%nat (q_items q)) /\
      timely cap cs (fst (queue_step cap cs q o)) ops'
  end.
