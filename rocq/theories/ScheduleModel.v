(** The event protocol of the simulators. Definitions only.

    Sources: parallelization/serialsimulator.h,
    parallelization/hierarchicalsimulator.h, parallelization/hiparsimulator.h
    (run, step, nanoStep). *)
From Verif Require Import Base AdapterModel.

(** ** SerialSimulator *)

(** Member stepNum, and the calls of one writer and one steerer so far (the
    loops over all writers and steerers treat each of them alike). The
    parameter [ends step] tells whether the steerer, called for that step,
    asks to end the simulation. *)
Record serial := mkSerial { sr_step : nat; sr_writer : list iocall; sr_steerer : list iocall; sr_ended : bool }.

Section Serial.
Variables (start last wperiod speriod : nat) (ends : nat -> bool).

Definition is_step (e : ioevent) : bool := match e with IoStep => true | _ => false end.

(** [handleOutput] (serialsimulator.h:144-157) *)
Definition handle_output (e : ioevent) (s : serial) : serial :=
  if negb (is_step e) || Nat.eqb (Nat.modulo (sr_step s) wperiod) 0
  then mkSerial (sr_step s) (sr_writer s ++ [(sr_step s, e)]) (sr_steerer s) (sr_ended s)
  else s.

(** [handleInput] (serialsimulator.h:162-180) *)
Definition handle_input (e : ioevent) (s : serial) : serial :=
  if negb (is_step e) || Nat.eqb (Nat.modulo (sr_step s) speriod) 0
  then mkSerial (sr_step s) (sr_writer s) (sr_steerer s ++ [(sr_step s, e)]) (sr_ended s || ends (sr_step s))
  else s.

(** [step] (serialsimulator.h:76-93) without the update of the grid *)
Definition serial_sim_step (s : serial) : serial :=
  let s1 := handle_input IoStep s in
  let s2 := mkSerial (S (sr_step s1)) (sr_writer s1) (sr_steerer s1) (sr_ended s1) in
  handle_output (if Nat.eqb (sr_step s2) last then IoAllDone else IoStep) s2.

(** The loop of [run] (serialsimulator.h:108-114). *)
Fixpoint serial_loop (fuel : nat) (s : serial) : option serial :=
  if Nat.ltb (sr_step s) last then
    if sr_ended s then Some s
    else match fuel with O => None | S f => serial_loop f (serial_sim_step s) end
  else Some s.

(** [run] (serialsimulator.h:98-117) *)
Definition serial_sim_run (fuel : nat) : option serial :=
  let s := handle_output IoInitialized (handle_input IoInitialized (mkSerial start [] [] false)) in
  option_map (handle_input IoAllDone) (serial_loop fuel s).
End Serial.

(** ** HierarchicalSimulator, HiParSimulator *)

(** EventMap: events by nano step, ascending; each event's set is given by
    whether it contains END and LOAD_BALANCING. *)
Record evset := mkEv { ev_end : bool; ev_balance : bool }.

(** [events[t] << e] *)
Fixpoint ev_add (t : nat) (e : evset) (m : list (nat * evset)) : list (nat * evset) :=
  match m with
  | [] => [(t, e)]
  | (t', e') :: m' =>
      if Nat.ltb t t' then (t, e) :: m
      else if Nat.eqb t t' then (t', mkEv (ev_end e || ev_end e') (ev_balance e || ev_balance e')) :: m'
      else (t', e') :: ev_add t e m'
  end.

(** The simulator's state: current nano step, events, nano steps at which
    [balanceLoad] was called, nano steps at which the UpdateGroup has been
    updated. *)
Record hier := mkHier { hs_now : nat; hs_events : list (nat * evset); hs_balanced : list nat; hs_updated : list nat }.

Section Hier.
Variables (nanos start last period : nat).   (* period in nano steps *)

(** [insertNextLoadBalancingEvent] (hierarchicalsimulator.h:62-70) *)
Definition insert_balance (now : nat) (m : list (nat * evset)) : list (nat * evset) :=
  if Nat.leb (now + period) (last * nanos) then ev_add (now + period) (mkEv false true) m else m.

(** [initEvents] (hierarchicalsimulator.h:33-40), at the start *)
Definition hier_init : hier :=
  mkHier (start * nanos) (insert_balance (start * nanos) [((last * nanos)%nat, mkEv true false)]) [] [].

(** [handleEvents] (hierarchicalsimulator.h:42-60); [events.begin()] must
    not be dereferenced if there are no events ([Fail]). *)
Definition handle_events (s : hier) : outcome hier :=
  match hs_events s with
  | [] => Fail
  | (t, e) :: _ =>
      if Nat.ltb t (hs_now s) then Fail
      else if Nat.ltb (hs_now s) t then Ok s
      else
        let m' := if ev_balance e then insert_balance (hs_now s) (hs_events s) else hs_events s in
        let b' := if ev_balance e then hs_balanced s ++ [hs_now s] else hs_balanced s in
        Ok (mkHier (hs_now s) (tl m') b' (hs_updated s))
  end.

(** [nanoStep] (hiparsimulator.h:167-176); [Wait] if out of fuel *)
Fixpoint hier_steps (fuel : nat) (s : hier) (remaining : nat) : outcome hier :=
  match remaining with
  | O => Ok s
  | _ =>
      match fuel, hs_events s with
      | O, _ => Wait
      | _, [] => Fail
      | S f, (t, _) :: _ =>
          let hop := Nat.min remaining (t - hs_now s) in
          let s' := mkHier (hs_now s + hop) (hs_events s) (hs_balanced s) (hs_updated s ++ seq (hs_now s) hop) in
          match handle_events s' with
          | Ok s'' => hier_steps f s'' (remaining - hop)
          | x => x
          end
      end
  end.

(** [timeToLastEvent] (hierarchicalsimulator.h:87-90) *)
Definition time_to_last (s : hier) : nat := fst (List.last (hs_events s) (O, mkEv false false)) - hs_now s.

(** [run], [step] (hiparsimulator.h:76-88), after [initSimulation] *)
Definition hier_run (fuel : nat) (s : hier) : outcome hier := hier_steps fuel s (time_to_last s).
Definition hier_step (fuel : nat) (s : hier) : outcome hier := hier_steps fuel s nanos.
End Hier.
