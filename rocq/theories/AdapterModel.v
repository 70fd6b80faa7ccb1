(** When writers and steerers are called in parallel simulations. Definitions
    only.

    Sources: parallelization/nesting/parallelwriteradapter.h,
    parallelization/nesting/steereradapter.h,
    parallelization/nesting/commonstepper.h (notifyPatchAccepters,
    notifyPatchProviders).

    Steps are natural numbers without overflow. Periods and NANO_STEPS are
    taken to be positive (the code divides by them). *)
From Verif Require Import Base PatchModel.

(** Result of a step of a simulation: a new state, not (yet) possible, or an
    exception. *)
Inductive outcome (A : Type) := Ok (a : A) | Wait | Fail.
Arguments Ok {A} a. Arguments Wait {A}. Arguments Fail {A}.

(** [nextRequiredNanoStep] (storage/patchaccepter.h:60-67) and
    [nextAvailableNanoStep] (storage/patchprovider.h:64-71) equal to [t]. *)
Definition due_at (s : list nat) (t : nat) : bool :=
  match s with [] => false | m :: _ => Nat.eqb m t end.

(** WriterEvent, SteererEvent (io/writer.h, io/steerer.h) *)
Inductive ioevent := IoInitialized | IoStep | IoAllDone.

(** ** Adapters *)

(** Constant members of ParallelWriterAdapter and SteererAdapter. *)
Record adapter := mkAdapter { ad_nanos : nat; ad_period : nat; ad_first : nat; ad_last : nat }.

Definition ad_first_nano (a : adapter) : nat := ad_first a * ad_nanos a.
Definition ad_last_nano (a : adapter) : nat := ad_last a * ad_nanos a.
Definition ad_stride (a : adapter) : nat := ad_period a * ad_nanos a.

(** [nextNanoStep] (parallelwriteradapter.h:83-87, steereradapter.h:99-104) *)
Definition ad_next (a : adapter) (t : nat) : nat :=
  let n := (t + ad_stride a)%nat in (n - Nat.modulo n (ad_stride a))%nat.

(** Choice of the event (parallelwriteradapter.h:63-69,
    steereradapter.h:69-75). *)
Definition ad_event (a : adapter) (t : nat) : ioevent :=
  if Nat.eqb t (ad_last_nano a) then IoAllDone
  else if Nat.eqb t (ad_first_nano a) then IoInitialized
  else IoStep.

(** A call of the writer or steerer: step and event. *)
Definition iocall := (nat * ioevent)%type.

(** [ParallelWriterAdapter::ParallelWriterAdapter]
    (parallelwriteradapter.h:31-44) *)
Definition writer_init (a : adapter) : list nat :=
  set_add (ad_last_nano a) (set_add (ad_first_nano a) []).

(** [ParallelWriterAdapter::put] (parallelwriteradapter.h:51-89). The state
    consists of the requested steps. *)
Definition writer_put (a : adapter) (req : list nat) (t : nat) : outcome (list nat * list iocall) :=
  match check_put req t with
  | PutIgnore => Ok (req, [])
  | PutThrow => Fail
  | PutAccept =>
      if Nat.ltb (ad_last_nano a) t then Ok (req, [])
      else Ok (set_add (ad_next a t) (tl req), [(Nat.div t (ad_nanos a), ad_event a t)])
  end.

(** [SteererAdapter::SteererAdapter] (steereradapter.h:28-46) *)
Definition steerer_init (a : adapter) : list nat :=
  let offset := Nat.modulo (ad_first a) (ad_period a) in
  let regular := (ad_first a + ad_period a - offset)%nat in
  set_add (ad_last_nano a) (set_add (regular * ad_nanos a) (set_add (ad_first_nano a) [])).

(** [std::set::erase(t)] *)
Definition set_del (t : nat) (s : list nat) : list nat := filter (fun x => negb (Nat.eqb x t)) s.

(** [SteererAdapter::get] with [remove] set (steereradapter.h:53-109). *)
Definition steerer_get (a : adapter) (sto : list nat) (t : nat) : outcome (list nat * list iocall) :=
  if negb (Nat.eqb (Nat.modulo t (ad_nanos a)) 0) then Fail
  else
    let step := Nat.div t (ad_nanos a) in
    let ev := ad_event a t in
    if Nat.ltb (ad_last_nano a) t then Ok (sto, [])
    else match ev with
         | IoStep =>
             if negb (Nat.eqb (Nat.modulo step (ad_period a)) 0) then Fail
             else Ok (set_add (ad_next a t) (set_del t sto), [(step, ev)])
         | _ => Ok (set_add (ad_next a t) (set_del t sto), [(step, ev)])
         end.

(** The stepper's notification of one accepter or provider
    (commonstepper.h:113-156): only if the given step is the next one
    required. *)
Definition notify (call : list nat -> nat -> outcome (list nat * list iocall)) (s : list nat) (t : nat) :
  outcome (list nat * list iocall) :=
  if due_at s t then call s t else Ok (s, []).

Fixpoint notify_all (call : list nat -> nat -> outcome (list nat * list iocall)) (s : list nat) (ts : list nat) :
  outcome (list nat * list iocall) :=
  match ts with
  | [] => Ok (s, [])
  | t :: ts' =>
      match notify call s t with
      | Ok (s', c) =>
          match notify_all call s' ts' with
          | Ok (s'', cs) => Ok (s'', c ++ cs)
          | x => x
          end
      | x => x
      end
  end.

