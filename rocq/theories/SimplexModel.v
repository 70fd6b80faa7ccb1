(** SimplexOptimizer. Definitions only.

    Sources: /repo/src/libgeodecomp/misc/simplexoptimizer.h,
    /repo/src/libgeodecomp/misc/simplexoptimizer.cpp.

    As in [OptimizerModel], SimulationParameters are lists of parameters, their
    names play no role, and evaluating the same parameters always yields the
    same fitness. Assigning vertices makes both sides share their parameters,
    but only copies which are dropped at once are assigned, hence values
    suffice. [None] is undefined behaviour. *)
From Coq Require Import ZArith List Bool.
From Verif Require Import Base RegionOpsModel UpdateModel ParamModel.
Import ListNotations.
Open Scope Z_scope.

Section Simplex.
Context {N : Type} (A : arith N).
Notation params := (list (param (N := N))).

(** Limits<double>::getMin() and getMax() (limits.h:23-45): the smallest
    positive normal number and the largest number. *)
Context (dmin dmax : N).

Definition zero : N := a_ofZ A 0.
Definition half : N := a_div A (a_ofZ A 1) (a_ofZ A 2).
Definition same (a b : N) : bool := a_le A a b && a_le A b a.

(** [SimplexVertex] (simplexoptimizer.h:19-48) *)
Record vertex := mkVertex { v_params : params; v_fitness : N }.
Definition fresh (ps : params) : vertex := mkVertex ps (a_ofZ A (-1)).

Record simplex := mkSimplex { x_epsilon : N; x_mult : N; x_sizes : list N; x_vertices : list vertex; x_fitness : N }.

(** getValue() of parameter j of a vertex *)
Definition value_at (v : vertex) (j : nat) : option N := option_map (p_value A) (nth_error (v_params v) j).

(** ** Choosing vertices *)

(** [minInSimplex] (simplexoptimizer.cpp:257-269) *)
Fixpoint min_from (vs : list vertex) (i : nat) (mn : N) (at_ : nat) : nat :=
  match vs with
  | [] => at_
  | v :: vs' => if a_le A (v_fitness v) mn then min_from vs' (S i) (v_fitness v) i else min_from vs' (S i) mn at_
  end.
Definition min_in (vs : list vertex) : nat := min_from vs 0 dmax 0.

(** [maxInSimplex] (simplexoptimizer.cpp:271-283) *)
Fixpoint max_from (vs : list vertex) (i : nat) (mx : N) (at_ : nat) : nat :=
  match vs with
  | [] => at_
  | v :: vs' => if a_le A mx (v_fitness v) then max_from vs' (S i) (v_fitness v) i else max_from vs' (S i) mx at_
  end.
Definition max_in (vs : list vertex) : nat := max_from vs 0 dmin 0.

(** [comperator] (simplexoptimizer.cpp:378-390) *)
Definition compare_with (vs : list vertex) (f : N) : Z :=
  fold_left (fun r v =>
    let r1 := if same (v_fitness v) f && (r =? -1) then r + 1 else r in
    if a_lt A f (v_fitness v) then r1 + 1 else r1) vs (-1).

(** ** New points *)

(** Setting all parameters of a copy of [ps], parameter j to [f j]. *)
Fixpoint set_from (ps : params) (j : nat) (f : nat -> option N) : option params :=
  match ps with
  | [] => Some []
  | p :: ps' => obind (f j) (fun v => obind (p_set A p v) (fun p' => option_map (cons p') (set_from ps' (S j) f)))
  end.
Definition set_all (ps : params) (f : nat -> option N) : option params := set_from ps 0 f.

(** The sum of the values of parameter j over all vertices but the worst one,
    divided by their number (simplexoptimizer.cpp:294-300) *)
Fixpoint sum_from (vs : list vertex) (i worst j : nat) (acc : N) : option N :=
  match vs with
  | [] => Some acc
  | v :: vs' =>
      if (i =? worst)%nat then sum_from vs' (S i) worst j acc
      else obind (value_at v j) (fun x => sum_from vs' (S i) worst j (a_add A acc x))
  end.
Definition centre (vs : list vertex) (worst j : nat) : option N :=
  option_map (fun s => a_div A s (a_ofZ A (Z.of_nat (length vs) - 1))) (sum_from vs 0 worst j zero).

(** [reflection] (simplexoptimizer.cpp:286-307) *)
Definition reflection (vs : list vertex) : option (params * params) :=
  let worst := min_in vs in
  obind (nth_error vs 0) (fun v0 =>
  obind (nth_error vs worst) (fun vw =>
  obind (set_all (v_params v0) (centre vs worst)) (fun t1 =>
  option_map (pair t1)
    (set_all (v_params v0) (fun j =>
       obind (centre vs worst j) (fun c =>
       option_map (fun x => a_sub A (a_mul A (a_ofZ A 2) c) x) (value_at vw j))))))).

Definition par_at (ps : params) (j : nat) : option N := option_map (p_value A) (nth_error ps j).

(** [expansion] (simplexoptimizer.cpp:309-320) *)
Definition expansion (vs : list vertex) : option params :=
  obind (reflection vs) (fun t =>
  obind (nth_error vs 0) (fun v0 =>
  set_all (v_params v0) (fun j =>
    obind (par_at (snd t) j) (fun b => option_map (fun a => a_sub A (a_mul A b (a_ofZ A 2)) a) (par_at (fst t) j))))).

(** [merge] (simplexoptimizer.cpp:392-403) *)
Definition merge (a b : params) : option params :=
  set_all a (fun j => obind (par_at a j) (fun x => option_map (fun y => a_mul A (a_add A x y) half) (par_at b j))).

(** [partialOutsideContraction], [partialInsideContraction]
    (simplexoptimizer.cpp:322-332) *)
Definition outside (vs : list vertex) : option params := obind (reflection vs) (fun t => merge (fst t) (snd t)).
Definition inside (vs : list vertex) : option params :=
  obind (reflection vs) (fun t => obind (nth_error vs (min_in vs)) (fun w => merge (fst t) (v_params w))).

(** [totalContraction] (simplexoptimizer.cpp:334-340) *)
Definition contraction (vs : list vertex) : option (list vertex) :=
  obind (nth_error vs (max_in vs)) (fun best => omap (fun v => option_map fresh (merge (v_params best) (v_params v))) vs).

(** ** Setting up a simplex *)

(** [initSimplex] (simplexoptimizer.cpp:238-255): vertex i + 1 *)
Fixpoint alter (ps : params) (i : nat) (f : param -> option param) : option params :=
  match ps, i with
  | [], _ => None
  | p :: ps', O => option_map (fun p' => p' :: ps') (f p)
  | p :: ps', S i' => option_map (cons p) (alter ps' i' f)
  end.

Definition init_vertex (mult : N) (sizes : list N) (ps : params) (i : nat) : option vertex :=
  obind (nth_error sizes i) (fun s =>
  option_map fresh
    (alter ps i (fun p =>
       obind (p_set A p (a_add A (p_value A p) (a_mul A mult s))) (fun p1 =>
       if same (p_value A p1) (p_value A p) then p_set A p1 (a_sub A (p_value A p) (a_mul A mult s)) else Some p1)))).

Definition init (mult : N) (sizes : list N) (ps : params) : option (list vertex) :=
  option_map (cons (fresh ps)) (omap (init_vertex mult sizes ps) (seq 0 (length ps))).

(** The constructor (simplexoptimizer.cpp:102-126); Optimizer's constructor
    sets the fitness (optimizer.h:35-38). [Some None] is an exception. *)
Definition default_sizes (ps : params) : list N :=
  map (fun p => if a_lt A (a_ofZ A 1) (p_gran A p) then p_gran A p else a_ofZ A 1) ps.

Definition simplex_make (ps : params) (epsilon mult : N) (sizes : list N) : option (option simplex) :=
  let sizes' := match sizes with [] => default_sizes ps | _ => sizes end in
  if (length sizes' =? length ps)%nat then
    option_map (fun vs => Some (mkSimplex epsilon mult sizes' vs dmin)) (init mult sizes' ps)
  else Some None.

(** ** Searching *)

Context (eval : params -> N).

(** [evaluate] (simplexoptimizer.h:33-37) *)
Definition evaluated (ps : params) : vertex := mkVertex ps (eval ps).

(** [evalSimplex] (simplexoptimizer.cpp:229-236); also returns the parameters
    which are evaluated. *)
Definition unknown (v : vertex) : bool := a_lt A (v_fitness v) zero.
Definition eval_simplex (vs : list vertex) : list vertex * list params :=
  (map (fun v => if unknown v then evaluated (v_params v) else v) vs, map v_params (filter unknown vs)).

(** [eq] (simplexoptimizer.cpp:216-227) *)
Fixpoint all_o (l : list (option bool)) : option bool :=
  match l with [] => Some true | x :: l' => obind x (fun b : bool => if b then all_o l' else Some false) end.
Definition same_params (a : params) (b : params) : option bool :=
  all_o (map (fun j => obind (par_at a j) (fun x => option_map (same x) (par_at b j))) (seq 0 (length a))).
Definition same_vertices (a b : list vertex) : option bool :=
  all_o (map (fun i => obind (nth_error a i) (fun x => obind (nth_error b i) (fun y => same_params (v_params x) (v_params y)))) (seq 0 (length a))).

(** [checkConvergence] (simplexoptimizer.cpp:342-376) *)
Definition converged (epsilon : N) (vs : list vertex) : bool :=
  let n := a_ofZ A (Z.of_nat (length vs) - 1) in
  let w := a_div A (a_ofZ A 1) (a_add A n (a_ofZ A 1)) in
  let mean := a_mul A (fold_left (fun s v => a_add A s (v_fitness v)) vs zero) w in
  let d v := a_sub A (v_fitness v) mean in
  let tmp := a_mul A (fold_left (fun s v => a_add A s (a_mul A (d v) (d v))) vs zero) w in
  a_lt A tmp (a_mul A epsilon epsilon).

Definition put (vs : list vertex) (i : nat) (v : vertex) : list vertex := firstn i vs ++ v :: skipn (S i) vs.

(** The switch of [operator()] (simplexoptimizer.cpp:135-182): returns the
    vertices and the parameters evaluated. *)
Definition move (vs : list vertex) : option (list vertex * list params) :=
  let worst := min_in vs in
  let best := max_in vs in
  obind (reflection vs) (fun t =>
  obind (nth_error vs worst) (fun vw =>
  obind (nth_error vs best) (fun vb =>
  let r := evaluated (snd t) in
  let c := compare_with vs (v_fitness r) in
  if c =? -1 then
    option_map (fun e =>
      (put vs worst (if a_lt A (v_fitness vb) (eval e) then evaluated e else r), [snd t; e])) (expansion vs)
  else if c =? 1 then
    obind (outside vs) (fun e =>
    if a_le A (v_fitness r) (eval e) then Some (put vs worst (evaluated e), [snd t; e])
    else option_map (fun vs1 => let '(vs2, log) := eval_simplex vs1 in (vs2, snd t :: e :: log)) (contraction vs))
  else if c =? 0 then
    option_map (fun e =>
      ((if a_le A (v_fitness vw) (eval e) then put vs worst (evaluated e) else vs), [snd t; e])) (inside vs)
  else
    let e := fst t in
    Some ((if a_lt A (v_fitness vw) (eval e) then put vs worst (evaluated e) else vs), [snd t; e])))).

(** Setting up a new simplex at the best vertex. *)
Definition restart (mult : N) (sizes : list N) (vs : list vertex) : option (list vertex * list params) :=
  obind (nth_error vs (max_in vs)) (fun b => option_map eval_simplex (init mult sizes (v_params b))).

(** Step 10 (simplexoptimizer.cpp:183-205): returns the vertices, the
    multiplicator, the parameters evaluated and whether the loop is left. *)
Definition settle (s : simplex) (old vs : list vertex) : option (list vertex * N * list params * bool) :=
  let mult := x_mult s in
  let again := a_le A (a_ofZ A 2) mult in
  if a_lt A zero (x_epsilon s) then
    if converged (x_epsilon s) vs then
      option_map (fun r : list vertex * list params => (fst r, (if again then a_mul A mult half else mult), snd r, negb again))
        (restart mult (x_sizes s) vs)
    else Some (vs, mult, [], false)
  else
    obind (same_vertices old vs) (fun eq : bool =>
    if eq then
      if again then
        option_map (fun r : list vertex * list params => (fst r, a_mul A mult half, snd r, false)) (restart (a_mul A mult half) (x_sizes s) vs)
      else Some (vs, mult, [], true)
    else Some (vs, mult, [], false)).

(** The loop (simplexoptimizer.cpp:132-209). The assignment to fitness at its
    end is overwritten by the one after the loop. *)
Fixpoint search_loop (steps : nat) (s : simplex) (log : list params) : option (simplex * list params) :=
  match steps with
  | O => Some (s, log)
  | S k =>
      obind (move (x_vertices s)) (fun m =>
      obind (settle s (x_vertices s) (fst m)) (fun q =>
      let '(vs, mult, log', stop) := q in
      let s' := mkSimplex (x_epsilon s) mult (x_sizes s) vs (x_fitness s) in
      let log1 := log ++ snd m ++ log' in
      if stop then Some (s', log1) else search_loop k s' log1))
  end.

(** [operator()] (simplexoptimizer.cpp:128-214): returns the optimizer, the
    parameters found and the parameters evaluated. getFitness() returns
    [x_fitness] (optimizer.h:45-48). *)
Definition search (steps : Z) (s : simplex) : option (simplex * params * list params) :=
  let '(vs, log) := eval_simplex (x_vertices s) in
  obind (search_loop (Z.to_nat steps) (mkSimplex (x_epsilon s) (x_mult s) (x_sizes s) vs (x_fitness s)) log) (fun r =>
  let '(s', log') := r in
  option_map (fun b => (mkSimplex (x_epsilon s') (x_mult s') (x_sizes s') (x_vertices s') (v_fitness b), v_params b, log'))
    (nth_error (x_vertices s') (max_in (x_vertices s')))).
End Simplex.
Arguments vertex : clear implicits.
Arguments simplex : clear implicits.
