(** Parallel writers attached to the steppers. Definitions only.

    Sources: parallelization/hiparsimulator.h (addWriter, initSimulation),
    parallelization/nesting/parallelwriteradapter.h,
    parallelization/nesting/commonstepper.h (notifyPatchAccepters). *)
From Verif Require Import Base PatchModel AdapterModel StepperModel.

(** A call of [ParallelWriter::stepFinished] (io/parallelwriter.h): step,
    event, valid region, grid and the flag [lastCall]. *)
Record pwcall (C : Type) := mkCall { pw_step : nat; pw_event : ioevent; pw_region : list coord; pw_grid : grid C; pw_last : bool }.
Arguments mkCall {C}. Arguments pw_step {C}. Arguments pw_event {C}. Arguments pw_region {C}. Arguments pw_grid {C}. Arguments pw_last {C}.

(** The calls of one writer on one node. It is served by two adapters
    (hiparsimulator.h:122-144), one for the ghost zone and one for the inner
    set; the state consists of the requested steps of both. *)
Fixpoint writer_calls {C} (a : adapter) (ghost inner : list nat) (log : list (logent C)) : outcome (list (pwcall C)) :=
  match log with
  | [] => Ok []
  | e :: log' =>
      let s := if lg_rim e then ghost else inner in
      match notify (writer_put a) s (lg_time e) with
      | Ok (s', cs) =>
          match (if lg_rim e then writer_calls a s' inner log' else writer_calls a ghost s' log') with
          | Ok l => Ok (map (fun '(step, ev) => mkCall step ev (lg_region e) (lg_grid e) (negb (lg_rim e))) cs ++ l)
          | x => x
          end
      | _ => Fail
      end
  end.

Definition node_writer {C} (a : adapter) (log : list (logent C)) : outcome (list (pwcall C)) :=
  writer_calls a (writer_init a) (writer_init a) log.
