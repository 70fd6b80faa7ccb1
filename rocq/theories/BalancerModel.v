(** Load balancers. Definitions only.

    Sources: loadbalancer/loadbalancer.cpp, loadbalancer/oozebalancer.cpp,
    loadbalancer/biasbalancer.cpp, loadbalancer/randombalancer.cpp,
    misc/stdcontaineroverloads.h (sum).

    Simplification: [double] is modelled by exact rational numbers, [size_t] and
    [long] by unbounded integers. *)
From Coq Require Import QArith.
From Verif Require Import Base.

(** [sum] (stdcontaineroverloads.h:69-74) *)
Definition qsum (l : list Q) : Q := fold_left Qplus l 0%Q.
Definition zsum (l : list Z) : Z := fold_left Z.add l 0.

(** Conversion of [double] to an integer type: towards zero. *)
Definition qtrunc (q : Q) : Z := Z.quot (Qnum q) (QDen q).

(** ** LoadBalancer *)

(** The loop of [initialWeights] (loadbalancer.cpp:18-25). *)
Fixpoint initial_loop (items : Z) (total : Q) (last_pos : Z) (partial : Q) (speeds : list Q) : list Z :=
  match speeds with
  | [] => []
  | [_] => [items - last_pos]
  | s :: speeds' =>
      let partial' := (partial + s)%Q in
      let next_pos := qtrunc (inject_Z items * partial' / total) in
      (next_pos - last_pos) :: initial_loop items total next_pos partial' speeds'
  end.

(** [LoadBalancer::initialWeights] (loadbalancer.cpp:6-28); [None]: exception *)
Definition initial_weights (items : Z) (speeds : list Q) : option (list Z) :=
  match speeds with
  | [] => None
  | _ => Some (initial_loop items (qsum speeds) 0 0%Q speeds)
  end.

(** ** OozeBalancer *)

Definition qlen {A} (l : list A) : Q := inject_Z (Z.of_nat (length l)).

(** Loop to set up loadPerItem (oozebalancer.cpp:31-36). *)
Fixpoint load_per_item (weights : list Z) (loads : list Q) : list Q :=
  match weights, loads with
  | w :: weights', l :: loads' =>
      (if Z.eqb w 0 then [] else repeat (l / inject_Z w)%Q (Z.to_nat w)) ++ load_per_item weights' loads'
  | _, _ => []
  end.

(** The inner loop (oozebalancer.cpp:46-69) for one node: yields what is added
    to [ret[nodeC]] and the new remFractPerItem. *)
Fixpoint fill_node (rem_load : Q) (fract per_item : list Q) : Q * list Q :=
  match fract, per_item with
  | f :: fract', p :: per_item' =>
      if Qeq_bool f 0 then let '(r, fs) := fill_node rem_load fract' per_item' in (r, f :: fs)
      else
        let l := (f * p)%Q in
        if Qle_bool l rem_load then
          let rem_load' := (rem_load - l)%Q in
          if Qeq_bool rem_load' 0 then (f, 0%Q :: fract')
          else let '(r, fs) := fill_node rem_load' fract' per_item' in ((f + r)%Q, 0%Q :: fs)
        else
          let consumed := (rem_load / p)%Q in (consumed, (f - consumed)%Q :: fract')
  | _, _ => (0%Q, fract)
  end.

(** The outer loop (oozebalancer.cpp:43-70). *)
Fixpoint fill_nodes (n : nat) (target : Q) (fract per_item : list Q) : list Q * list Q :=
  match n with
  | O => ([], fract)
  | S n' =>
      let '(r, fract') := fill_node target fract per_item in
      let '(rs, fract'') := fill_nodes n' target fract' per_item in
      (r :: rs, fract'')
  end.

(** [expectedOptimalDistribution] (oozebalancer.cpp:17-76). [None]: no nodes;
    there the loop bound underflows and [back()] of an empty vector is
    used. *)
Definition expected_optimal (weights : list Z) (loads : list Q) : option (list Q) :=
  let n := length weights in
  let target := (qsum loads / qlen weights)%Q in
  match n with
  | O => None
  | S n' =>
      if Qeq_bool target 0 then Some (repeat (inject_Z (zsum weights) / qlen weights)%Q n)
      else
        let per_item := load_per_item weights loads in
        let '(rs, fract) := fill_nodes n' target (repeat 1%Q (Z.to_nat (zsum weights))) per_item in
        Some (rs ++ [(0 + qsum fract)%Q])
  end.

(** [frac] (oozebalancer.cpp:103-111) *)
Definition qfrac (q : Q) : Q := let f := (q - inject_Z (qtrunc q))%Q in if Qle_bool 0 f then f else (- f)%Q.

(** [equalize] (oozebalancer.cpp:114-137); not for empty vectors. *)
Fixpoint equalize_loop (balance : Q) (loads : list Q) : list Z :=
  match loads with
  | [] => []
  | [l] => [if Qle_bool (qfrac l) ((1 # 2) - balance) then qtrunc l else qtrunc l + 1]
  | l :: loads' =>
      let f := qfrac l in
      let cost := (1 - f)%Q in
      if negb (Qle_bool balance cost)
      then (qtrunc l + 1) :: equalize_loop (balance - cost) loads'
      else qtrunc l :: equalize_loop (balance + f) loads'
  end.

Definition equalize (loads : list Q) : list Z := equalize_loop 0 loads.

(** [linearCombo] (oozebalancer.cpp:140-151) *)
Fixpoint linear_combo (weight : Q) (old : list Z) (new : list Q) : list Q :=
  match old, new with
  | o :: old', n :: new' => (n * weight + inject_Z o * (1 - weight))%Q :: linear_combo weight old' new'
  | _, _ => []
  end.

(** [OozeBalancer::balance] (oozebalancer.cpp:79-100); [None]: exception, or
    undefined behaviour for no nodes *)
Definition ooze_balance (weight : Q) (weights : list Z) (loads : list Q) : option (list Z) :=
  match expected_optimal weights loads with
  | None => None
  | Some opt =>
      let ret := equalize (linear_combo weight weights opt) in
      if Z.eqb (zsum weights) (zsum ret) then Some ret else None
  end.

(** ** BiasBalancer *)

(** [loadOnOneNodeOnly] (biasbalancer.cpp:13-19); [None]: element 0 of an empty
    vector *)
Definition load_on_one_node (weights : list Z) : option (list Z) :=
  match weights with
  | [] => None
  | _ :: rest => Some (zsum weights :: repeat 0 (length rest))
  end.

(** [BiasBalancer::balance] (biasbalancer.cpp:22-32). The state consists of
    [pristine] and the state [S] of the other balancer. *)
Definition bias_balance {S} (other : S -> list Z -> list Q -> option (S * list Z)) (st : bool * S) (weights : list Z) (loads : list Q) :
  option ((bool * S) * list Z) :=
  let '(pristine, s) := st in
  if pristine then match load_on_one_node weights with Some l => Some ((false, s), l) | None => None end
  else match other s weights loads with Some (s', l) => Some ((false, s'), l) | None => None end.

(** ** RandomBalancer *)

(** [ret[k]++] *)
Fixpoint incr (l : list Z) (k : nat) : list Z :=
  match l, k with
  | [], _ => []
  | x :: l', O => (x + 1) :: l'
  | x :: l', S k' => x :: incr l' k'
  end.

(** Loop over the remainder (randombalancer.cpp:37-39); [ks] are the indices
    drawn. *)
Definition scatter (l : list Z) (ks : list nat) : list Z := fold_left incr ks l.

(** [RandomBalancer::balance] (randombalancer.cpp:6-42): [base] are the random
    numbers drawn first, [draw i] is the [i]-th index drawn afterwards. *)
Definition random_balance (base : list Q) (draw : nat -> nat) (weights : list Z) : list Z :=
  let rand_sum := qsum base in
  let loads_sum := zsum weights in
  let ret := map (fun b => qtrunc (b * inject_Z loads_sum / rand_sum)) base in
  let remainder := loads_sum - zsum ret in
  scatter ret (map draw (seq 0 (Z.to_nat remainder))).
