(** Measured times, rendered times, and forecasts: theorems. *)
From Coq Require Import ZArith QArith Qround List Bool Lia SpecFloat.
From Verif Require Import Base RegionOpsModel CoordModel ParamModel ImageModel ImageSpec ImageFacts AdapterModel TraceModel TraceSpec TraceFacts.
From Coq Require Import Lqa Lia ZifyBool ZifyNat.
Import ListNotations.
Open Scope Z_scope.

(** ** C185 *)

Theorem C185_intervals ops e : Forall op_ok ops ->
  exists q, interval (fold_left (chrono_do exact) ops (chrono_new exact)) e = Some q /\ (q == spent e (rev ops))%Q.
Proof.
  intros Ho. destruct (chrono_run ops (chrono_new exact) [] eq_refl Ho) as (L & S).
  { intros e'. destruct e'; reflexivity. }
  unfold interval. destruct (nth_error (fold_left (chrono_do exact) ops (chrono_new exact)) (event_id e)) as [q|] eqn:E.
  - exists q. split; [reflexivity|]. specialize (S e). rewrite app_nil_r in S. rewrite <- S. now rewrite (nth_error_nth _ _ 0%Q E).
  - apply nth_error_None in E. rewrite L in E. pose proof (event_id_lt e). lia.
Qed.

Theorem C185_ratio ops e1 e2 : Forall op_ok ops ->
  exists q, ratio exact (fold_left (chrono_do exact) ops (chrono_new exact)) e1 e2 = Some q /\
    ((spent e2 (rev ops) == 0)%Q -> q == 1 # 2)%Q /\ (~ (spent e2 (rev ops) == 0)%Q -> q == spent e1 (rev ops) / spent e2 (rev ops))%Q.
Proof.
  intros Ho. destruct (C185_intervals ops e1 Ho) as (x & X1 & X2). destruct (C185_intervals ops e2 Ho) as (y & Y1 & Y2).
  unfold ratio. rewrite X1, Y1. cbn [obind option_map]. eexists. split; [reflexivity|]. cbn [a_le a_div a_ofZ exact]. change (inject_Z 0) with 0%Q. rewrite <- X2, <- Y2.
  destruct (Qle_bool y 0 && Qle_bool 0 y) eqn:E.
  - apply andb_true_iff in E. destruct E as [E1 E2]. apply Qle_bool_iff in E1, E2. split; intros H; [reflexivity|]. exfalso. apply H. lra.
  - split; intros H; [|reflexivity]. exfalso. apply andb_false_iff in E.
    assert (E1 : Qle_bool y 0 = true) by (apply Qle_bool_iff; lra). assert (E2 : Qle_bool 0 y = true) by (apply Qle_bool_iff; lra). destruct E; congruence.
Qed.

(** Two scoped timers, one for a part of the other's event; time measured
    before the reset doesn't count. *)
Definition session : list (@chrono_op Q) :=
  [CScoped TimeTotal 0 7; CReset; CScoped TimeComputeInner (3 # 2) 4; CTock TimeComputeGhost 4 5; CAdd TimeCommunication (1 # 4); CPlus [1; 2; 0; 0; 0; 0; 3; 0; 0]]%Q.

Example session_intervals :
  Forall op_ok session /\
  map (fun e => option_map Qred (interval (fold_left (chrono_do exact) session (chrono_new exact)) e))
    [TimeTotal; TimeCompute; TimeComputeInner; TimeComputeGhost; TimeCommunication] = [Some 1; Some (11 # 2); Some (5 # 2); Some 1; Some (13 # 4)]%Q /\
  option_map Qred (ratio exact (fold_left (chrono_do exact) session (chrono_new exact)) TimeCompute TimeInput) = Some (1 # 2)%Q.
Proof. split; [repeat constructor|]. split; vm_compute; reflexivity. Qed.

(** ** C186, C187 *)

Theorem C186_render (x : Q) : (0 <= x)%Q -> (x < 2147483648)%Q ->
  exists l, render_duration exact x = Some l /\ read_duration l = Some (Qfloor (x * 1000000)).
Proof. apply render_read. Qed.

(** 01:01:01.500000 *)
Example an_hour : render_duration exact (7323 # 2) = Some [48;49;58;48;49;58;48;49;46;53;48;48;48;48;48] /\
  read_duration [48;49;58;48;49;58;48;49;46;53;48;48;48;48;48] = Some 3661500000.
Proof. split; vm_compute; reflexivity. Qed.

(** The same in doubles. *)
Example an_hour_ieee :
  render_duration ieee (SFdiv 53 1024 (binary_normalize 53 1024 7323 0 false) (binary_normalize 53 1024 2 0 false)) = Some [48;49;58;48;49;58;48;49;46;53;48;48;48;48;48].
Proof. vm_compute. reflexivity. Qed.

(** "00:-1:-30" isn't a duration, half a second less than nothing is shown as
    nothing, and 2^31 seconds can't be converted. *)
Theorem C187_render_refuted :
  (exists x l, (x < 0)%Q /\ render_duration exact x = Some l /\ read_duration l = None) /\
  (exists x l, (x < 0)%Q /\ render_duration exact x = Some l /\ read_duration l = Some 0) /\
  (exists x, (2147483648 <= x)%Q /\ render_duration exact x = None).
Proof.
  split; [|split].
  - exists (- (90))%Q, [48;48;58;45;49;58;45;51;48]. repeat split; vm_compute; reflexivity.
  - exists (- (1 # 2))%Q, [48;48;58;48;48;58;48;48]. repeat split; vm_compute; reflexivity.
  - exists 2147483648%Q. split; [apply Qle_refl|]. vm_compute. reflexivity.
Qed.

(** ** C188 *)

Theorem C188_forecasts nanos size max dim (t0 d l0 t1 l1 start : Q) period rank calls step1 :
  1 <= period -> max < 4294967296 -> (0 < d)%Q -> (0 <= t0)%Q -> (t0 + inject_Z max * d < 2147483648)%Q ->
  Forall (fun n => 1 <= n) dim -> prod dim < 2147483648 ->
  (0 <= l0 < 2147483648)%Q -> (t0 <= t1)%Q -> (t1 < 2147483648)%Q -> (0 <= l1 < 2147483648)%Q ->
  Forall (on_pace max t0 d) calls ->
  exists out a b c,
    trace_run exact nanos size dim (tracing_new period max rank start)
      ((0, IoInitialized, t0, l0) :: calls ++ [(step1, IoAllDone, t1, l1)]) = Some (LInitialized :: LTime a :: out ++ [LAllDone b; LTime c]) /\
    forecasts nanos size max period dim t0 d calls out /\
    read_duration a = Some (Qfloor (l0 * 1000000)) /\ read_duration b = Some (Qfloor ((t1 - t0) * 1000000)) /\ read_duration c = Some (Qfloor (l1 * 1000000)).
Proof.
  intros Hp Hm Hd Ht Hend Hdim Hprod Hl0 Ht1 Ht1' Hl1 Hc.
  destruct (render_read l0) as (a & A1 & A2); [apply Hl0|apply Hl0|].
  destruct (render_read (t1 - t0)) as (b & B1 & B2); [lra|lra|].
  destruct (render_read l1) as (c & C1 & C2); [apply Hl1|apply Hl1|].
  cbn [trace_run trace_step]. unfold print_time. rewrite A1. cbn [option_map obind fst snd].
  set (w := mkTracing (tr_rank (tracing_new period max rank start)) (tr_period (tracing_new period max rank start)) t0 0 (tr_max (tracing_new period max rank start))).
  destruct (forecast_run nanos size max dim t0 d period w Hm Hd Ht Hend Hdim Hprod (Qeq_refl t0) eq_refl eq_refl Hp calls Hc) as (out & O1 & O2).
  exists out, a, b, c. split; [|repeat split; assumption].
  enough (G : forall w calls out, tr_start w = t0 -> Forall (on_pace max t0 d) calls -> trace_run exact nanos size dim w calls = Some out ->
    trace_run exact nanos size dim w (calls ++ [(step1, IoAllDone, t1, l1)]) = Some (out ++ [LAllDone b; LTime c])).
  { rewrite (G w calls out eq_refl Hc O1). reflexivity. }
  clear - B1 C1. intros w calls. induction calls as [|[[[step e] now] later] calls IH]; intros out Hw Hc H; cbn [app trace_run].
  - injection H as <-. cbn [trace_step]. cbn [a_sub exact]. rewrite Hw, B1. cbn [obind]. unfold print_time. rewrite C1. reflexivity.
  - inversion Hc as [|? ? H1 H2]; subst. destruct H1 as (-> & _). cbn [trace_run trace_step] in *.
    destruct (normal_step exact nanos size w step dim now later) as [l|]; [|discriminate]. cbn [option_map obind fst snd] in *.
    destruct (trace_run exact nanos size dim w calls) as [o|] eqn:E; [|discriminate]. rewrite (IH o eq_refl H2 eq_refl). cbn [option_map] in *. injection H as <-. now rewrite app_assoc.
Qed.

(** Each rank prints what a serial run prints for its last calls, or nothing. *)
Theorem C188_parallel {N} (A : arith N) nanos size dim calls : forall w : @tracing N,
  trace_prun A nanos size dim w calls =
  trace_run A nanos size dim w (map (fun c => fst (fst c)) (filter (fun c => snd c && ((tr_rank w =? -1) || (tr_rank w =? snd (fst c)))) calls)).
Proof.
  induction calls as [|[[[[[step e] now] later] rank] last] calls IH]; intros w; [reflexivity|].
  cbn [trace_prun filter fst snd]. unfold trace_parallel. destruct (last && ((tr_rank w =? -1) || (tr_rank w =? rank))).
  - cbn [map trace_run fst snd]. destruct (trace_step A nanos size w step dim e now later) as [[w' l]|] eqn:E; [|reflexivity]. cbn [obind fst snd].
    rewrite IH. replace (tr_rank w') with (tr_rank w); [reflexivity|].
    destruct e; cbn [trace_step] in E.
    + destruct (print_time A later); [|discriminate]. injection E as <- _. reflexivity.
    + destruct (normal_step A nanos size w step dim now later); [|discriminate]. injection E as <- _. reflexivity.
    + destruct (render_duration A (a_sub A now (tr_start w))); [|discriminate]. cbn [obind] in E. destruct (print_time A later); [|discriminate]. injection E as <- _. reflexivity.
  - cbn [obind fst snd app]. rewrite IH. destruct (trace_run _ _ _ _ _ _); reflexivity.
Qed.

(** Ten steps of half a second each on a grid of 20 x 30 cells, a trace every fifth step. *)
Definition steady_calls : list (Z * ioevent * Q * Q) :=
  map (fun k => (k, IoStep, (10 + inject_Z k * (1 # 2))%Q, (11 + inject_Z k * (1 # 2))%Q)) [4; 5; 6].

Example steady_forecast :
  Forall (on_pace 10 10 (1 # 2)) steady_calls /\
  exists a b c r e g h t, trace_run exact 1 8 [20; 30] (tracing_new 5 10 (-1) (0%Q)) ((0, IoInitialized, 10%Q, 10%Q) :: steady_calls ++ [(10, IoAllDone, 15%Q, 15%Q)]) =
    Some [LInitialized; LTime a; LStep 5 10 ((10 + inject_Z 5 * (1 # 2)) - 10)%Q r e g h; LTime t; LAllDone b; LTime c] /\
    read_duration r = Some 2500000 /\ read_duration e = Some 15000000 /\ (g == 12 # 10000000)%Q.
Proof.
  split.
  - repeat constructor; vm_compute; try discriminate; reflexivity.
  - do 8 eexists. split; [vm_compute; reflexivity|]. repeat split; vm_compute; reflexivity.
Qed.

Example steady_output_on_one_rank :
  forall out, trace_run exact 1 8 [20; 30] (tracing_new 5 10 1 (0%Q)) [(0, IoInitialized, 10%Q, 10%Q)] = Some out ->
  trace_prun exact 1 8 [20; 30] (tracing_new 5 10 1 (0%Q)) [(0, IoInitialized, 9%Q, 9%Q, 0, true); (0, IoInitialized, 9%Q, 9%Q, 1, false); (0, IoInitialized, 10%Q, 10%Q, 1, true)] = Some out.
Proof. intros out H. rewrite C188_parallel. exact H. Qed.

(** ** C189, C190 *)

(** A simulation of 100 steps, restarted at step 90, one second per step: after
    step 91 the remaining 9 seconds are given as 98901 microseconds, the end
    8.9 seconds too early, and the speed 91 times too high. *)
Theorem C189_restart_refuted :
  exists a t r e g h, trace_run exact 1 8 [10; 10] (tracing_new 1 100 (-1) 0%Q) [(90, IoInitialized, 0%Q, 0%Q); (91, IoStep, 1%Q, 1%Q)] =
    Some [LInitialized; LTime a; LStep 91 100 (1 - 0)%Q r e g h; LTime t] /\
    read_duration r = Some 98901 /\ read_duration e = Some 1098901 /\ (g * 1000000000 == 91 * 100)%Q.
Proof. do 6 eexists. split; [vm_compute; reflexivity|]. repeat split; vm_compute; reflexivity. Qed.

(** A TracingWriter with the default parameters, second step, one second each:
    the difference of maxSteps and step wraps around, the result can't be
    converted to an int. And it can't cope with a grid of 2048^3 cells. *)
Theorem C190_range_refuted :
  trace_run exact 1 8 [10; 10] (tracing_new default_period default_max (-1) 0%Q) [(0, IoInitialized, 0%Q, 0%Q); (2, IoStep, 2%Q, 2%Q)] = None /\
  trace_run exact 1 8 [2048; 2048; 2048] (tracing_new 1 100 (-1) 0%Q) [(0, IoInitialized, 0%Q, 0%Q); (1, IoStep, 1%Q, 1%Q)] = None /\
  trace_run exact 1 8 [10; 10] (tracing_new 1 100 (-1) 0%Q) [(0, IoInitialized, 0%Q, 0%Q); (2, IoStep, 2%Q, 2%Q)] <> None.
Proof. split; [|split]; [vm_compute; reflexivity|vm_compute; reflexivity|]. intros H. vm_compute in H. discriminate H. Qed.

Print Assumptions C185_intervals.
Print Assumptions C185_ratio.
Print Assumptions C186_render.
Print Assumptions C187_render_refuted.
Print Assumptions C188_forecasts.
Print Assumptions C188_parallel.
Print Assumptions C189_restart_refuted.
Print Assumptions C190_range_refuted.
