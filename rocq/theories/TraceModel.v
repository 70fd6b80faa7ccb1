(** Measuring time: Chronometer, TimeStringConversion::renderDuration and
    TracingWriter. Definitions only.

    Sources: /repo/src/libgeodecomp/misc/chronometer.h,
    /repo/src/libgeodecomp/io/timestringconversion.h,
    /repo/src/libgeodecomp/io/tracingwriter.h.

    Points in time are given by whoever calls, in seconds. [None] is undefined
    behaviour: converting a double to an integer which can't hold it. Not
    modelled: Chronometer::report(), TimeStringConversion::renderISO(), how
    doubles are printed. *)
From Coq Require Import ZArith List Bool.
From Verif Require Import Base RegionOpsModel CoordModel ParamModel ImageModel AdapterModel.
Import ListNotations.
Open Scope Z_scope.

(** ** Chronometer *)

(** chronometer.h:142-150 *)
Inductive event :=
  | TimeTotal | TimeCompute | TimeComputeInner | TimeComputeGhost | TimePatchAccepters | TimePatchProviders
  | TimeCommunication | TimeInput | TimeOutput.

Definition event_id (e : event) : nat :=
  match e with
  | TimeTotal => 0 | TimeCompute => 1 | TimeComputeInner => 2 | TimeComputeGhost => 3 | TimePatchAccepters => 4
  | TimePatchProviders => 5 | TimeCommunication => 6 | TimeInput => 7 | TimeOutput => 8
  end%nat.

(** PARENT: the base class of [CLASS_NAME ## Implementation]; [None] is
    BasicTimer. *)
Definition parent (e : event) : option event :=
  match e with TimeComputeInner | TimeComputeGhost => Some TimeCompute | _ => None end.

Section Time.
Context {N : Type} (A : arith N).

Definition chrono := list N.

(** The constructor and [reset] (chronometer.h:228-232, 267-270) *)
Definition chrono_new : chrono := repeat (a_ofZ A 0) 9.
Definition chrono_reset (c : chrono) : chrono := map (fun _ => a_ofZ A 0) c.

(** [interval] (chronometer.h:277-286) *)
Definition interval (c : chrono) (e : event) : option N := nth_error c (event_id e).

(** [totalTimes[ID] += t] (chronometer.h:117-120) *)
Definition bump (i : nat) (t : N) (c : chrono) : chrono :=
  firstn i c ++ match skipn i c with [] => [] | x :: r => a_add A x t :: r end.

(** Destruction of the implementation of an event: its own destructor, then
    the one of its base class, and so on. *)
Fixpoint destruct_impl (fuel : nat) (e : event) (t : N) (c : chrono) : chrono :=
  let c1 := bump (event_id e) t c in
  match fuel, parent e with S f, Some p => destruct_impl f p t c1 | _, _ => c1 end.

(** [addTime] (chronometer.h:313-317) *)
Definition add_time (e : event) (t : N) (c : chrono) : chrono := destruct_impl 8 e t c.

(** [tock] (chronometer.h:319-323), at time [now] *)
Definition tock (e : event) (start now : N) (c : chrono) : chrono := add_time e (a_sub A now start) c.

(** A scoped timer, created at [start] and destroyed at [now]
    (chronometer.h:34-38, 51-54, 135-138) *)
Definition scoped (e : event) (start now : N) (c : chrono) : chrono := destruct_impl 8 e (a_sub A now start) c.

(** [operator+=] (chronometer.h:248-255) *)
Definition chrono_plus (c other : chrono) : chrono := map (fun p => a_add A (fst p) (snd p)) (combine c other).

(** [ratio] (chronometer.h:296-307) *)
Definition ratio (c : chrono) (e1 e2 : event) : option N :=
  obind (interval c e1) (fun x => option_map (fun y =>
    if a_le A y (a_ofZ A 0) && a_le A (a_ofZ A 0) y then a_div A (a_ofZ A 1) (a_ofZ A 2) else a_div A x y) (interval c e2)).

(** What may happen to a chronometer. *)
Inductive chrono_op := CScoped (e : event) (start now : N) | CAdd (e : event) (t : N) | CTock (e : event) (start now : N)
  | CReset | CPlus (other : chrono).

Definition chrono_do (c : chrono) (o : chrono_op) : chrono :=
  match o with
  | CScoped e s n => scoped e s n c
  | CAdd e t => add_time e t c
  | CTock e s n => tock e s n c
  | CReset => chrono_reset c
  | CPlus other => chrono_plus c other
  end.

(** ** TimeStringConversion *)

(** [std::setfill('0') << std::setw(n)] *)
Definition padw (n : nat) (l : list Z) : list Z := repeat 48 (n - length l) ++ l.

(** [int(x)] for an integral [x] *)
Definition to_int (z : Z) : option Z := if (- 2 ^ 31 <=? z) && (z <? 2 ^ 31) then Some z else None.

(** [renderDuration] (timestringconversion.h:38-60) *)
Definition render_duration (x : N) : option (list Z) :=
  obind (a_trunc A x) (fun real =>
  let sub := a_sub A x (a_ofZ A real) in
  obind (to_int real) (fun total =>
  let buf := padw 2 (dec (Z.quot total 3600)) ++ [58] ++ padw 2 (dec (Z.rem (Z.quot total 60) 60)) ++ [58]
             ++ padw 2 (dec (Z.rem total 60)) in
  if a_lt A (a_ofZ A 0) sub then
    obind (a_trunc A (a_mul A sub (a_ofZ A 1000000))) (fun f =>
    option_map (fun fraction => buf ++ [46] ++ padw 6 (dec fraction)) (to_int f))
  else Some buf)).

(** ** TracingWriter *)

(** What is written to the stream, instead of the text. *)
Inductive line :=
  | LInitialized
  | LStep (step max : Z) (elapsed : N) (remaining eta : list Z) (glups bandwidth : N)
  | LAllDone (total : list Z)
  | LTime (t : list Z).

(** The members (tracingwriter.h:81-85); the period is inherited. *)
Record tracing := mkTracing { tr_rank : Z; tr_period : Z; tr_start : N; tr_last : Z; tr_max : Z }.

Definition unsigned (z : Z) : Z := z mod 2 ^ 32.

(** [printTime] (tracingwriter.h:139-143) *)
Definition print_time (now : N) : option (list line) := option_map (fun s => [LTime s]) (render_duration now).

(** [Coord::prod] in ints (coord.h:275-278, 555-559, 862-866): the factors from
    x on; an overflow is undefined. *)
Definition prod_int (dim : coord) : option Z :=
  fold_left (fun o x => obind o (fun p => to_int (p * x))) (rev dim) (Some 1).

(** [normalStepFinished] (tracingwriter.h:112-137); [nanos] is NANO_STEPS,
    [size] sizeof(CELL_TYPE), [now] and [later] what [currentTime] returns. *)
Definition normal_step (nanos size : Z) (w : tracing) (step : Z) (dim : coord) (now later : N) : option (list line) :=
  if negb (step mod tr_period w =? 0) then Some []
  else
    let delta := a_sub A now (tr_start w) in
    let remaining := a_div A (a_mul A delta (a_ofZ A (unsigned (tr_max w - step)))) (a_ofZ A step) in
    let eta := a_add A now remaining in
    obind (prod_int dim) (fun cells =>
    let updates := a_mul A (a_mul A (a_mul A (a_ofZ A 1) (a_ofZ A step)) (a_ofZ A nanos)) (a_ofZ A cells) in
    let k := a_ofZ A 1000 in
    let glups := a_div A (a_div A (a_div A (a_div A updates delta) k) k) k in
    let bandwidth := a_mul A (a_mul A glups (a_ofZ A 2)) (a_ofZ A size) in
    obind (render_duration remaining) (fun r =>
    obind (render_duration eta) (fun e =>
    option_map (cons (LStep step (tr_max w) delta r e glups bandwidth)) (print_time later)))).

(** [stepFinished] (tracingwriter.h:87-110) *)
Definition trace_step (nanos size : Z) (w : tracing) (step : Z) (dim : coord) (e : ioevent) (now later : N)
  : option (tracing * list line) :=
  match e with
  | IoInitialized =>
      option_map (fun l => (mkTracing (tr_rank w) (tr_period w) now step (tr_max w), LInitialized :: l)) (print_time later)
  | IoStep => option_map (pair w) (normal_step nanos size w step dim now later)
  | IoAllDone =>
      obind (render_duration (a_sub A now (tr_start w))) (fun d =>
      option_map (fun l => (w, LAllDone d :: l)) (print_time later))
  end.

(** [stepFinished] for ParallelWriters (tracingwriter.h:66-78) *)
Definition trace_parallel (nanos size : Z) (w : tracing) (step : Z) (dim : coord) (e : ioevent) (rank : Z) (last : bool) (now later : N)
  : option (tracing * list line) :=
  if last && ((tr_rank w =? -1) || (tr_rank w =? rank)) then trace_step nanos size w step dim e now later else Some (w, []).
End Time.

(** A simulation calls its writer: step, event, and the two times. *)
Fixpoint trace_run {N} (A : arith N) (nanos size : Z) (dim : coord) (w : tracing) (calls : list (Z * ioevent * N * N)) : option (list line) :=
  match calls with
  | [] => Some []
  | (step, e, now, later) :: r =>
      obind (trace_step A nanos size w step dim e now later) (fun p =>
      option_map (app (snd p)) (trace_run A nanos size dim (fst p) r))
  end.

(** The constructor (tracingwriter.h:43-54); startTime is not initialized: [start] is whatever it holds. *)
Definition tracing_new {N} (period max rank : Z) (start : N) : tracing := mkTracing rank period start 0 max.
Definition default_period : Z := 1.
Definition default_max : Z := 1.

(** The same for a ParallelWriter; each call also has a rank and a flag
    telling the last call for a step. *)
Fixpoint trace_prun {N} (A : arith N) (nanos size : Z) (dim : coord) (w : tracing) (calls : list (Z * ioevent * N * N * Z * bool)) : option (list line) :=
  match calls with
  | [] => Some []
  | (step, e, now, later, rank, last) :: r =>
      obind (trace_parallel A nanos size w step dim e rank last now later) (fun p =>
      option_map (app (snd p)) (trace_prun A nanos size dim (fst p) r))
  end.
