(** Specification vocabulary for simulations. *)
From Verif Require Import Base HaloSpec PatchModel AdapterModel ScheduleSpec StepperModel.

(** What the steerers [sts], given by period and action, do to cell [c] with
    content [x] at nano step [t] of a simulation from step [start] to step
    [last]: at the beginning of a step all of those act which are due. *)
Definition steered {C} (nanos start last : nat) (sts : list (nat * @action C)) (t : nat) (c : coord) (x : C) : C :=
  let s := Nat.div t nanos in
  if Nat.eqb (Nat.modulo t nanos) 0 && Nat.leb s last
  then fold_left (fun x '(p, f) => if io_due start last p s then f s (io_event start last s) c x else x) sts x
  else x.

Section Serial.
Context {C : Type} (upd : nat -> coord -> list C -> C) (nb : coord -> list (option coord)) (edge : C) (nanos start last : nat)
  (sts : list (nat * @action C)) (area : list coord) (g0 : grid C).

(** The grid [g] reached after [k] nano steps as the steerers leave it. They have
    changed the initial grid already. *)
Definition steer_at (k : nat) (g : grid C) : grid C :=
  match k with
  | O => g
  | S _ => fun c => steered nanos start last sts (start * nanos + k) c (g c)
  end.

(** The simulation of the whole grid after [k] nano steps, before the steerers
    are called. *)
Fixpoint serial_after (k : nat) : grid C * grid C :=
  match k with
  | O => (fun c => steered nanos start last sts (start * nanos) c (g0 c), g0)
  | S k' => let '(cur, new) := serial_after k' in serial_nano upd nb edge area (steer_at k' cur, new) (Nat.modulo k' nanos)
  end.

(** The same, once they have been called. *)
Definition serial_steered (k : nat) : grid C := steer_at k (fst (serial_after k)).

End Serial.

(** The SerialSimulator calls steerers at the first step twice, the second time
    with [IoStep], if that step is a multiple of their period; in a simulation
    of no steps it calls them twice, too (C66). Steerers for which this makes no
    difference: *)
Definition steers_alike {C} (start last : nat) (sts : list (nat * @action C)) : Prop :=
  sts = [] \/ (start < last)%nat /\ Forall (fun '(p, f) => Nat.modulo start p <> O \/ forall c x, f start IoStep c x = x) sts.

(** The cells read by an update are in the neighbourhood. *)
Definition reads_within (I : coord -> Prop) (E : neigh) (nb : coord -> list (option coord)) : Prop :=
  forall c c', I c -> In (Some c') (nb c) -> E c c'.

(** A log of calls: for the rim from step [t0] on without gaps, the same for the
    kernel; every grid has the values of [ser] on the respective region; the rim
    of a step is reported before its kernel. *)
Record log_of {C} (ser : nat -> grid C) (t0 : nat) (rim kernel : list coord) (rims kernels : nat) (log : list (logent C)) : Prop := {
  lo_rims : map lg_time (filter (@lg_rim C) log) = seq t0 rims;
  lo_kernels : map lg_time (filter (fun e => negb (lg_rim e)) log) = seq t0 kernels;
  lo_region : forall e, In e log -> lg_region e = if lg_rim e then rim else kernel;
  lo_values : forall e c, In e log -> In c (lg_region e) -> lg_grid e c = ser (lg_time e - t0)%nat c;
  lo_order : forall l1 e l2, log = l1 ++ e :: l2 -> lg_rim e = false ->
    exists e', In e' l1 /\ lg_rim e' = true /\ lg_time e' = lg_time e
}.

(** All nodes have performed their steps. *)
Definition finished {C} (st : sim C) : Prop :=
  forall i nd, nth_error (s_nodes st) i = Some nd -> n_pc nd = PStep /\ n_left nd = O.

(** What is known of a node that is to perform [N] nano steps beginning at
    [t0], has ghost zones of width [w] and owns the cells [own], if the
    simulation goes through the states [ser 0], [ser 1], ... Rim and kernel
    together are the cells of the node. Writers see the kernel at all steps
    performed, the rim up to the following synchronisation point. Between steps
    the node's grid has the values [st k] in the kernel, which differ from [ser k]
    by the effect of steerers. At synchronisation points all of the node's cells
    have one of these values. *)
Definition node_matches {C} (ser st : nat -> grid C) (nanos t0 N w : nat) (own : coord -> Prop) (nd : node C) : Prop :=
  exists rim kernel rims,
    (forall c, own c <-> In c rim \/ In c kernel) /\ NoDup (rim ++ kernel) /\
    (n_left nd <= N)%nat /\
    let k := (N - n_left nd)%nat in
    log_of ser t0 rim kernel rims (S k) (n_log nd) /\ (S k <= rims)%nat /\
    (n_pc nd = PStep ->
       rims = S (S (Nat.div k w) * w) /\
       global_step nanos (n_step nd) (n_nano nd) = (t0 + k)%nat /\ (n_nano nd < nanos)%nat /\
       (forall c, In c kernel -> n_old nd c = st k c) /\
       (Nat.modulo k w = O -> forall c, own c -> n_old nd c = ser k c \/ n_old nd c = st k c)).

(** Two sequences of calls for the same steps, regions and values. *)
Definition same_calls {C} (l1 l2 : list (logent C)) : Prop :=
  Forall2 (fun a b => lg_time a = lg_time b /\ lg_rim a = lg_rim b /\ lg_region a = lg_region b /\
    forall c, In c (lg_region a) -> lg_grid a c = lg_grid b c) l1 l2.
