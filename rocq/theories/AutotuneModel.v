(** Simulation factories and the AutoTuningSimulator. Definitions only.

    Sources: /repo/src/libgeodecomp/misc/simulationfactory.h,
    /repo/src/libgeodecomp/misc/serialsimulationfactory.h,
    /repo/src/libgeodecomp/misc/cacheblockingsimulationfactory.h,
    /repo/src/libgeodecomp/misc/cudasimulationfactory.h,
    /repo/src/libgeodecomp/parallelization/autotuningsimulator.h,
    /repo/src/libgeodecomp/parallelization/monolithicsimulator.h.

    Writers are represented by numbers, the world records which of them exist.
    A run of a simulator is recorded in a trace, how long it takes is decided
    by an arbitrary function of the trace so far. Steerers aren't modelled:
    factories clone them for every simulator. Parallel writers aren't modelled
    either: no factory passes them to its simulator, as all simulators are
    monolithic ones. *)
From Coq Require Import ZArith List Bool String.
From Verif Require Import Base RegionOpsModel ParamModel ProxyModel.
Import ListNotations.
Open Scope Z_scope.

(** Results: a value, a std::invalid_argument, a std::runtime_error (thrown by
    the simulator), undefined behaviour, or a loop which has used up its fuel. *)
Inductive outcome (A W : Type) :=
  | Done (a : A) (w : W) | Invalid (w : W) | Failed (w : W) | Undefined | OutOfFuel.
Arguments Done {A W}. Arguments Invalid {A W}. Arguments Failed {A W}. Arguments Undefined {A W}. Arguments OutOfFuel {A W}.

Section Autotune.
Context {N : Type} (A : arith N).

(** SimulationParameters, and the smallest positive double, which
    [Limits<double>::getMin] returns (limits.h:36-44, optimizer.h:35-38). The
    largest double is the fitness of simulations which haven't been tested
    (autotuningsimulator.h:34-38). *)
Context {P : Type} (dmin dmax : N).

(** ** The world *)

Record run := mkRun { r_factory : string; r_params : P; r_start : Z; r_max : Z; r_writers : list nat }.

Record world := mkWorld { w_alive : list nat; w_next : nat; w_trace : list run; w_proxy : proxy }.

Definition bind {X Y} (o : outcome X world) (f : X -> world -> outcome Y world) : outcome Y world :=
  match o with
  | Done a w => f a w | Invalid w => Invalid w | Failed w => Failed w | Undefined => Undefined | OutOfFuel => OutOfFuel
  end.

Definition is_alive (w : world) (h : nat) : bool := existsb (Nat.eqb h) (w_alive w).

(** [new]/[clone]: a fresh object. *)
Definition allocate (w : world) : nat * world :=
  (w_next w, mkWorld (w_next w :: w_alive w) (S (w_next w)) (w_trace w) (w_proxy w)).

(** [delete] of an object which doesn't exist is undefined. *)
Definition destroy (w : world) (h : nat) : option world :=
  if is_alive w h then Some (mkWorld (filter (fun k => negb (Nat.eqb k h)) (w_alive w)) (w_next w) (w_trace w) (w_proxy w))
  else None.
Fixpoint destroy_all (w : world) (hs : list nat) : option world :=
  match hs with [] => Some w | h :: hs' => obind (destroy w h) (fun w' => destroy_all w' hs') end.

(** ** SimulationFactory *)

Inductive kind := KSerial | KCacheBlocking | KCuda.

(** [name] (serialsimulationfactory.h:28-31, cacheblockingsimulationfactory.h:33-36,
    cudasimulationfactory.h:55-58) *)
Definition kind_name (k : kind) : string :=
  match k with KSerial => "SerialSimulator" | KCacheBlocking => "CacheBlockingSimulator" | KCuda => "CUDASimulator" end.

(** The members (simulationfactory.h:79-84): the parameters, and the writers
    which shared pointers of the factory own. *)
Record factory := mkFactory { f_kind : kind; f_params : P; f_writers : list nat }.

(** [addWriter] (simulationfactory.h:41-44): clones the writer. *)
Definition factory_add_writer (f : factory) (w : world) : factory * world :=
  let '(h, w') := allocate w in (mkFactory (f_kind f) (f_params f) (f_writers f ++ [h]), w').

(** How long the latest run of a trace takes; [None]: it throws a
    std::runtime_error. *)
Context (duration : list run -> option N).

(** [operator()(params)] (simulationfactory.h:61-72; cudasimulationfactory.h:36-53
    for CUDA). [addWriters] (simulationfactory.h:97-103) hands the plain
    pointers of the factory's writers to the simulator, which takes ownership
    (monolithicsimulator.h:38-41): its run calls the writers, its destruction
    deletes them. *)
Definition evaluate (f : factory) (p : P) (w : world) : outcome N world :=
  if forallb (is_alive w) (f_writers f) then
    let r := mkRun (kind_name (f_kind f)) p (proxy_start (w_proxy w)) (proxy_max (proxy_clone (w_proxy w))) (f_writers f) in
    let trace := w_trace w ++ [r] in
    match destroy_all (mkWorld (w_alive w) (w_next w) trace (w_proxy w)) (f_writers f) with
    | None => Undefined
    | Some w' =>
        match duration trace, f_kind f with
        | Some t, _ => Done (a_mul A t (a_ofZ A (-1))) w'
        | None, KCuda => Done dmin w'
        | None, _ => Failed w'
        end
    end
  else Undefined.

(** ** Optimizers *)

(** An optimizer evaluates parameters, its choices depend on the results, and
    finally returns parameters and their fitness (optimizer.h:43-48). *)
Inductive strategy := Finish (p : P) (fitness : N) | Try (p : P) (k : N -> strategy).

Fixpoint optimize (s : strategy) (f : factory) (w : world) : outcome (P * N) world :=
  match s with
  | Finish p x => Done (p, x) w
  | Try p k => bind (evaluate f p w) (fun x w' => optimize (k x) f w')
  end.

(** ** AutoTuningSimulator *)

(** [Simulation] (autotuningsimulator.h:26-48) *)
Record simulation := mkSimulation { s_factory : factory; s_params : P; s_fitness : N }.

(** std::map, ordered by names *)
Definition registry := list (string * simulation).

Fixpoint registry_put (name : string) (s : simulation) (r : registry) : registry :=
  match r with
  | [] => [(name, s)]
  | (n, t) :: r' =>
      match String.compare name n with
      | Eq => (name, s) :: r'
      | Lt => (name, s) :: r
      | Gt => (n, t) :: registry_put name s r'
      end
  end.

Fixpoint registry_get (name : string) (r : registry) : option simulation :=
  match r with [] => None | (n, s) :: r' => if String.eqb n name then Some s else registry_get name r' end.

(** The members (autotuningsimulator.h:85-90); writers are counted only, the
    proxy is part of the world. *)
Record tuner := mkTuner { t_sims : registry; t_steps : nat; t_writers : nat }.

(** [addSimulation] (autotuningsimulator.h:92-107) *)
Definition add_named (name : string) (f : factory) (t : tuner) : tuner :=
  mkTuner (registry_put name (mkSimulation f (f_params f) dmax) (t_sims t)) (t_steps t) (t_writers t).
Definition add_simulation (f : factory) (t : tuner) : tuner := add_named (kind_name (f_kind f)) f t.

(** The constructor (autotuningsimulator.h:129-144); [threads] and [cuda] are
    the preprocessor's switches, [defaults] the parameters which the factories'
    constructors set up. *)
Definition tuner_make (threads cuda : bool) (defaults : kind -> P) (steps : nat) : tuner :=
  let new k t := add_simulation (mkFactory k (defaults k) []) t in
  let t0 := new KSerial (mkTuner [] steps 0) in
  let t1 := if threads then new KCacheBlocking t0 else t0 in
  if cuda then new KCuda t1 else t1.

(** [addWriter] (autotuningsimulator.h:153-157) *)
Definition tuner_add_writer (t : tuner) : tuner := mkTuner (t_sims t) (t_steps t) (S (t_writers t)).

(** [getSimulation] (autotuningsimulator.h:119-126) *)
Definition get_simulation (name : string) (t : tuner) (w : world) : outcome simulation world :=
  match registry_get name (t_sims t) with Some s => Done s w | None => Invalid w end.

(** [prepareSimulations] (autotuningsimulator.h:263-283): the factory clones
    the clone it's given, the latter is never deleted. *)
Fixpoint prepare_writers (n : nat) (f : factory) (w : world) : factory * world :=
  match n with
  | O => (f, w)
  | S n' => let '(_, w1) := allocate w in let '(f1, w2) := factory_add_writer f w1 in prepare_writers n' f1 w2
  end.
Fixpoint prepare (n : nat) (r : registry) (w : world) : registry * world :=
  match r with
  | [] => ([], w)
  | (name, s) :: r' =>
      let '(f, w1) := prepare_writers n (s_factory s) w in
      let '(r1, w2) := prepare n r' w1 in
      ((name, mkSimulation f (s_params s) (s_fitness s)) :: r1, w2)
  end.

(** [varStepInitializer->setMaxSteps], [resetMaxSteps] *)
Definition set_steps (n : Z) (w : world) : world := mkWorld (w_alive w) (w_next w) (w_trace w) (proxy_set (w_proxy w) n).
Definition reset_steps (w : world) : world := mkWorld (w_alive w) (w_next w) (w_trace w) (proxy_reset (w_proxy w)).

(** The conversion of a double to [unsigned] (autotuningsimulator.h:231) *)
Definition to_unsigned (x : N) : option Z :=
  obind (a_trunc A x) (fun z => if (0 <=? z) && (z <? 2 ^ 32) then Some z else None).

(** The loop of [normalizeSteps] (autotuningsimulator.h:226-241) *)
Fixpoint normalize_loop (fuel : nat) (s : simulation) (goal variance : N) (steps : Z) (w : world) : outcome Z world :=
  match fuel with
  | O => OutOfFuel
  | S fuel' =>
      bind (evaluate (s_factory s) (s_params s) (set_steps steps w)) (fun fitness w' =>
      match to_unsigned (a_mul A (a_div A (a_ofZ A steps) fitness) goal) with
      | None => Undefined
      | Some next =>
          let next := if next <? 1 then 1 else next in
          if negb (a_lt A (a_add A goal variance) fitness && a_lt A fitness (a_sub A goal variance))
             && negb ((steps <=? 1) && a_lt A goal fitness)
          then normalize_loop fuel' s goal variance next w'
          else Done steps w'
      end)
  end.

(** [normalizeSteps] (autotuningsimulator.h:210-242) *)
Definition normalize_steps (fuel : nat) (goal : N) (start : Z) (t : tuner) (w : world) : outcome Z world :=
  if start =? 0 then Invalid w
  else bind (get_simulation "SerialSimulation" t w) (fun s w =>
       bind (evaluate (s_factory s) (f_params (s_factory s)) (set_steps 1 w)) (fun variance w' =>
       normalize_loop fuel s goal variance start w')).

(** [OPTIMIZER_TYPE]: given the parameters and the number of steps. *)
Context (optimizer : P -> nat -> strategy).

(** [runTest] (autotuningsimulator.h:244-261) *)
Fixpoint run_test (steps : nat) (r : registry) (w : world) : outcome registry world :=
  match r with
  | [] => Done [] w
  | (name, s) :: r' =>
      bind (optimize (optimizer (s_params s) steps) (s_factory s) w) (fun px w' =>
      bind (run_test steps r' w') (fun r1 w2 =>
      Done ((name, mkSimulation (s_factory s) (fst px) (snd px)) :: r1) w2))
  end.

(** [getBestSim] (autotuningsimulator.h:185-201) *)
Definition get_best (r : registry) : string :=
  fst (fold_left (fun best ns => if a_lt A (snd best) (s_fitness (snd ns)) then (fst ns, s_fitness (snd ns)) else best)
         r (EmptyString, dmin)).

(** [runToCompletion] (autotuningsimulator.h:203-208) *)
Definition run_to_completion (name : string) (t : tuner) (w : world) : outcome unit world :=
  bind (get_simulation name t (reset_steps w)) (fun s w' =>
  bind (evaluate (s_factory s) (s_params s) w') (fun _ w2 => Done tt w2)).

(** [run] (autotuningsimulator.h:165-183) *)
Definition tuner_run (fuel : nat) (t : tuner) (w : world) : outcome unit world :=
  let '(sims, w0) := prepare (t_writers t) (t_sims t) w in
  let t0 := mkTuner sims (t_steps t) (t_writers t) in
  bind (normalize_steps fuel (a_ofZ A (-1)) 5 t0 w0) (fun n w1 =>
  let w2 := if n =? 0 then set_steps 5 w1 else w1 in
  bind (run_test (t_steps t0) (t_sims t0) w2) (fun sims' w3 =>
  run_to_completion (get_best sims') (mkTuner sims' (t_steps t0) (t_writers t0)) w3)).
End Autotune.
