(** Specification vocabulary for simulations on a device. *)
From Verif Require Import Base PatchModel StepperModel CudaStepperModel.

(** The calls for writers up to [t0 + k], those which are due: all of the node's
    cells have the values of [ser]. Nothing is reported separately. *)
Record device_log {C} (ser : nat -> grid C) (t0 : nat) (own : coord -> Prop) (due : nat -> bool) (k : nat) (log : list (logent C)) : Prop := {
  dl_times : map lg_time (filter (fun e => negb (lg_rim e)) log) = filter due (seq t0 (S k));
  dl_region : forall e, In e log -> lg_rim e = false -> NoDup (lg_region e) /\ forall c, In c (lg_region e) <-> own c;
  dl_rims : forall e, In e log -> lg_rim e = true -> lg_region e = [];
  dl_values : forall e c, In e log -> In c (lg_region e) -> lg_grid e c = ser (lg_time e - t0)%nat c
}.

(** A node which is to perform [N] nano steps: see [node_matches]. *)
Definition device_matches {C} (ser st : nat -> grid C) (nanos t0 N : nat) (own : coord -> Prop) (due : nat -> bool) (nd : cnode C) : Prop :=
  (u_left nd <= N)%nat /\
  let k := (N - u_left nd)%nat in
  device_log ser t0 own due k (u_log nd) /\
  (u_pc nd = PStep ->
     global_step nanos (u_step nd) (u_nano nd) = (t0 + k)%nat /\ (u_nano nd < nanos)%nat /\
     forall c, own c -> u_dold nd c = st k c).

(** All nodes have performed their steps. *)
Definition cfinished {C} (st : csim C) : Prop :=
  forall i nd, nth_error (cs_nodes st) i = Some nd -> u_pc nd = PStep /\ u_left nd = O.
