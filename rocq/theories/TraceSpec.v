(** What measured times mean, without reference to how the code computes them. *)
From Coq Require Import ZArith QArith Qround List Bool.
From Verif Require Import Base CoordModel AdapterModel ImageSpec ParamModel TraceModel.
Import ListNotations.
Open Scope Z_scope.

(** ** Chronometers *)

(** Time spent on [e'] is time spent on [e]. *)
Definition covers (e e' : event) : bool :=
  match e, e' with
  | TimeTotal, TimeTotal | TimePatchAccepters, TimePatchAccepters | TimePatchProviders, TimePatchProviders
  | TimeCommunication, TimeCommunication | TimeInput, TimeInput | TimeOutput, TimeOutput
  | TimeCompute, (TimeCompute | TimeComputeInner | TimeComputeGhost)
  | TimeComputeInner, TimeComputeInner | TimeComputeGhost, TimeComputeGhost => true
  | _, _ => false
  end.

(** The time spent on [e]; the latest operation comes first. *)
Fixpoint spent (e : event) (history : list (@chrono_op Q)) : Q :=
  match history with
  | [] => 0
  | CScoped e' t0 t1 :: h => (if covers e e' then t1 - t0 else 0) + spent e h
  | CTock e' t0 t1 :: h => (if covers e e' then t1 - t0 else 0) + spent e h
  | CAdd e' t :: h => (if covers e e' then t else 0) + spent e h
  | CReset :: _ => 0
  | CPlus other :: h => nth (event_id e) other 0 + spent e h
  end%Q.

(** Only chronometers are added to chronometers. *)
Definition op_ok (o : @chrono_op Q) : Prop := match o with CPlus other => length other = 9%nat | _ => True end.

(** ** Durations *)

(** A reader: hh:mm:ss or hh:mm:ss.uuuuuu, two digits per field (more for the
    hours), six for the fraction, minutes and seconds below 60. Yields
    microseconds. *)
Definition two (l rest : list Z) : bool := (length l =? length rest + 2)%nat.

Definition read_duration (l : list Z) : option Z :=
  match read_number 0 l with
  | (h, 58 :: l1) =>
      match read_number 0 l1 with
      | (m, 58 :: l2) =>
          match read_number 0 l2 with
          | (s, l3) =>
              if (length l1 + 3 <=? length l)%nat && two l1 (58 :: l2) && two l2 l3 && (m <? 60) && (s <? 60) then
                let whole := ((h * 60 + m) * 60 + s) * 1000000 in
                match l3 with
                | [] => Some whole
                | 46 :: l4 =>
                    let (u, l5) := read_number 0 l4 in
                    if (length l4 =? 6)%nat && match l5 with [] => true | _ => false end then Some (whole + u) else None
                | _ => None
                end
              else None
          end
      | _ => None
      end
  | _ => None
  end.

(** ** Tracing *)

(** [l] is what a TracingWriter should print after [step] of [max] steps, if
    the simulation was started at [t0], and each step takes [d] seconds. *)
Definition forecast (nanos size max : Z) (dim : coord) (t0 d : Q) (step : Z) (later : Q) (l : list (@line Q)) : Prop :=
  exists elapsed remaining eta glups bandwidth time,
    l = [LStep step max elapsed remaining eta glups bandwidth; LTime time] /\
    (elapsed == inject_Z step * d)%Q /\
    read_duration remaining = Some (Qfloor (inject_Z (max - step) * d * 1000000)) /\
    read_duration eta = Some (Qfloor ((t0 + inject_Z max * d) * 1000000)) /\
    (glups * 1000000000 * d == inject_Z (nanos * prod dim))%Q /\
    (bandwidth == 2 * inject_Z size * glups)%Q /\
    read_duration time = Some (Qfloor (later * 1000000)).

Fixpoint forecasts (nanos size max period : Z) (dim : coord) (t0 d : Q) (calls : list (Z * ioevent * Q * Q)) (out : list (@line Q)) : Prop :=
  match calls with
  | [] => out = []
  | (step, _, _, later) :: r =>
      if step mod period =? 0 then
        exists l out', out = l ++ out' /\ forecast nanos size max dim t0 d step later l /\ forecasts nanos size max period dim t0 d r out'
      else forecasts nanos size max period dim t0 d r out
  end.

(** A steady simulation: step [k] is finished at t0 + k * d. *)
Definition on_pace (max : Z) (t0 d : Q) (c : Z * ioevent * Q * Q) : Prop :=
  match c with
  | (step, e, now, later) => e = IoStep /\ 0 < step <= max /\ (now == t0 + inject_Z step * d)%Q /\ (0 <= later < 2147483648)%Q
  end.
