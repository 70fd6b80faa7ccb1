(** PatternOptimizer. Definitions only.

    Sources: /repo/src/libgeodecomp/misc/patternoptimizer.cpp,
    /repo/src/libgeodecomp/misc/optimizer.h.

    SimulationParameters are lists of parameters; names of parameters play no
    role here. Assigning SimulationParameters makes both sides share their
    parameters, but the optimizer modifies fresh copies only, hence values
    suffice. Evaluating a set of parameters always yields the same fitness.
    [None] is undefined behaviour (of the parameters). *)
From Coq Require Import ZArith List Bool.
From Verif Require Import Base RegionOpsModel UpdateModel ParamModel.
Import ListNotations.
Open Scope Z_scope.

Section Optimizer.
Context {N : Type} (A : arith N).
Notation params := (list (param (N := N))).

Record optimizer := mkOptimizer { o_params : params; o_step : list N; o_min : list N }.

(** Constructor (patternoptimizer.cpp:10-50): [Some None] is an
    exception. *)
Definition default_step (p : param) : N :=
  let quarter := a_div A (a_sub A (p_max A p) (a_ofZ A 0)) (a_ofZ A 4) in
  if a_le A (a_ofZ A 1) quarter then quarter else p_gran A p.

Definition opt_make (ps : params) (step mn : list N) : option (option optimizer) :=
  let grans := map (p_gran A) ps in
  obind
    (match step, mn with
     | [], [] => option_map (fun ps' => mkOptimizer ps' (map default_step ps) grans)
                   (omap (fun p => p_set A p (a_div A (a_sub A (p_max A p) (a_ofZ A 0)) (a_ofZ A 2))) ps)
     | _, [] => Some (mkOptimizer ps step (if (length step =? length ps)%nat then grans else []))
     | _, _ => Some (mkOptimizer ps step mn)
     end) (fun o =>
  Some (if (length (o_step o) =? length ps)%nat && (length (o_min o) =? length ps)%nat then Some o else None)).

(** [reduceStepwidth] (patternoptimizer.cpp:55-78) *)
Definition reduce_one (s m : N) : N * bool :=
  if a_le A s m then (m, false)
  else let h := a_div A s (a_ofZ A 2) in ((if a_le A h m then m else h), true).

Definition reduce (o : optimizer) : optimizer * bool :=
  let l := map (fun sm => reduce_one (fst sm) (snd sm)) (combine (o_step o) (o_min o)) in
  (mkOptimizer (o_params o) (map fst l) (o_min o), existsb snd l).

(** [genPattern] (patternoptimizer.cpp:80-94) *)
Fixpoint step_at (i : nat) (ps : params) (s : N) : option params :=
  match ps, i with
  | [], _ => None
  | p :: ps', O => option_map (fun p' => p' :: ps') (p_add A p s)
  | p :: ps', S i' => option_map (cons p) (step_at i' ps' s)
  end.

Definition gen_pattern (o : optimizer) (middle : params) : option (list params) :=
  option_map (cons middle)
    (option_map (@concat params)
      (omap (fun i => obind (nth_error (o_step o) i) (fun s =>
                      obind (step_at i middle s) (fun a =>
                      option_map (fun b => [a; b]) (step_at i middle (a_mul A s (a_ofZ A (-1)))))))
            (seq 0 (length middle)))).

(** [getMaxPos] (patternoptimizer.cpp:96-123). The state consists of the
    result, the fitness and the parameters evaluated so far. *)
Definition same_value (a b : params) (k : nat) : option bool :=
  obind (nth_error a k) (fun x => option_map (fun y => a_le A (p_value A x) (p_value A y) && a_le A (p_value A y) (p_value A x)) (nth_error b k)).

Record search := mkSearch { s_pos : nat; s_fitness : N; s_log : list params }.

Context (eval : params -> N).

Definition try_point (mid : params) (oldMiddle : nat) (st : search) (i : nat) (q : params) : option search :=
  option_map (fun same : bool =>
    if same || (Nat.even i && (i - 1 =? oldMiddle)%nat) || (negb (Nat.even i) && (i + 1 =? oldMiddle)%nat) then st
    else
      let f := eval q in
      let log := s_log st ++ [q] in
      if a_le A (s_fitness st) f then mkSearch i f log else mkSearch (s_pos st) (s_fitness st) log)
  (same_value mid q ((i - 1) / 2)).

Fixpoint max_pos_from (mid : params) (oldMiddle : nat) (i : nat) (qs : list params) (st : search) : option search :=
  match qs with [] => Some st | q :: qs' => obind (try_point mid oldMiddle st i q) (max_pos_from mid oldMiddle (S i) qs') end.

Definition get_max_pos (pattern : list params) (oldMiddle : nat) (fitness : N) (log : list params) : option search :=
  match pattern with
  | [] => None
  | mid :: qs => max_pos_from mid oldMiddle 1 qs (mkSearch 0 fitness log)
  end.

(** [operator()] (patternoptimizer.cpp:125-147): returns the parameters, the
    fitness and the parameters evaluated. *)
Fixpoint opt_loop (steps : nat) (o : optimizer) (middle : params) (maxPos : nat) (fitness : N) (log : list params)
    : option (params * N * list params) :=
  match steps with
  | O => Some (middle, fitness, log)
  | S k =>
      obind (gen_pattern o middle) (fun pattern =>
      obind (get_max_pos pattern maxPos fitness log) (fun st =>
      if (s_pos st =? 0)%nat then
        let '(o', again) := reduce o in
        if again then opt_loop k o' middle 0 (s_fitness st) (s_log st) else Some (middle, s_fitness st, s_log st)
      else obind (nth_error pattern (s_pos st)) (fun m => opt_loop k o m (s_pos st) (s_fitness st) (s_log st))))
  end.

Definition opt_run (steps : nat) (o : optimizer) : option (params * N * list params) :=
  obind (gen_pattern o (o_params o)) (fun _ => opt_loop steps o (o_params o) 0 (eval (o_params o)) [o_params o]).
End Optimizer.
