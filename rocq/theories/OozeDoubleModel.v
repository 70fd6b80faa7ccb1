(** OozeBalancer with any arithmetic. Definitions only.

    Source: loadbalancer/oozebalancer.cpp.

    Simplification: [size_t], [long] and [long long] are unbounded; [unsigned]
    as well. Logging is left out. *)
From Verif Require Import Base RegionOpsModel ParamModel BalancerModel.

(** What [balance] does: it returns new weights, or throws [std::logic_error],
    or its behaviour is undefined. *)
Inductive ooze_outcome := OozeWeights (l : list Z) | OozeLogicError | OozeUndefined.

Section Ooze.
Context {N : Type} (A : arith N).

(** [a == b]: false if one of them isn't a number *)
Definition n_eq (a b : N) : bool := a_le A a b && a_le A b a.

(** [sum] (stdcontaineroverloads.h:69-74) *)
Definition n_sum (l : list N) : N := fold_left (a_add A) l (a_ofZ A 0).

(** Loop to set up loadPerItem (oozebalancer.cpp:31-36). *)
Fixpoint n_per_item (weights : list Z) (loads : list N) : list N :=
  match weights, loads with
  | w :: weights', l :: loads' =>
      (if Z.eqb w 0 then [] else repeat (a_div A l (a_ofZ A w)) (Z.to_nat w)) ++ n_per_item weights' loads'
  | _, _ => []
  end.

(** The inner loop (oozebalancer.cpp:46-69) for one node: [acc] is [ret[nodeC]];
    yields its final value and the new remFractPerItem. *)
Fixpoint n_fill_node (acc rem_load : N) (fract per_item : list N) : N * list N :=
  match fract, per_item with
  | f :: fract', p :: per_item' =>
      if n_eq f (a_ofZ A 0) then let '(r, fs) := n_fill_node acc rem_load fract' per_item' in (r, f :: fs)
      else
        let l := a_mul A f p in
        if a_le A l rem_load then
          let acc' := a_add A acc f in
          let rem_load' := a_sub A rem_load l in
          if n_eq rem_load' (a_ofZ A 0) then (acc', a_ofZ A 0 :: fract')
          else let '(r, fs) := n_fill_node acc' rem_load' fract' per_item' in (r, a_ofZ A 0 :: fs)
        else
          let consumed := a_div A rem_load p in (a_add A acc consumed, a_sub A f consumed :: fract')
  | _, _ => (acc, fract)
  end.

(** The outer loop (oozebalancer.cpp:43-70). *)
Fixpoint n_fill_nodes (n : nat) (target : N) (fract per_item : list N) : list N * list N :=
  match n with
  | O => ([], fract)
  | S n' =>
      let '(r, fract') := n_fill_node (a_ofZ A 0) target fract per_item in
      let '(rs, fract'') := n_fill_nodes n' target fract' per_item in
      (r :: rs, fract'')
  end.

(** [expectedOptimalDistribution] (oozebalancer.cpp:17-76). [None]: no nodes;
    there the loop bound underflows and [back()] of an empty vector is
    used. *)
Definition n_expected_optimal (weights : list Z) (loads : list N) : option (list N) :=
  let n := length weights in
  let target := a_div A (n_sum loads) (a_ofZ A (Z.of_nat n)) in
  match n with
  | O => None
  | S n' =>
      if n_eq target (a_ofZ A 0) then Some (repeat (a_div A (a_ofZ A (zsum weights)) (a_ofZ A (Z.of_nat n))) n)
      else
        let per_item := n_per_item weights loads in
        let '(rs, fract) := n_fill_nodes n' target (repeat (a_ofZ A 1) (Z.to_nat (zsum weights))) per_item in
        Some (rs ++ [a_add A (a_ofZ A 0) (n_sum fract)])
  end.

(** [frac] (oozebalancer.cpp:103-111), [t] being the truncated number *)
Definition n_frac (d : N) (t : Z) : N :=
  let f := a_sub A d (a_ofZ A t) in if a_lt A f (a_ofZ A 0) then a_sub A (a_ofZ A 0) f else f.

(** [equalize] (oozebalancer.cpp:114-137); [None]: conversion of a number that
    isn't finite; not for empty vectors. *)
Fixpoint n_equalize (balance : N) (loads : list N) : option (list Z) :=
  match loads with
  | [] => Some []
  | l :: loads' =>
      obind (a_trunc A l) (fun t =>
      let f := n_frac l t in
      match loads' with
      | [] => Some [if a_lt A (a_sub A (a_div A (a_ofZ A 1) (a_ofZ A 2)) balance) f then t + 1 else t]
      | _ =>
          let cost := a_sub A (a_ofZ A 1) f in
          if a_lt A cost balance
          then option_map (cons (t + 1)) (n_equalize (a_sub A balance cost) loads')
          else option_map (cons t) (n_equalize (a_add A balance f) loads')
      end)
  end.

(** [linearCombo] (oozebalancer.cpp:140-151) *)
Fixpoint n_linear_combo (weight : N) (old : list Z) (new : list N) : list N :=
  match old, new with
  | o :: old', n :: new' =>
      a_add A (a_mul A n weight) (a_mul A (a_ofZ A o) (a_sub A (a_ofZ A 1) weight)) :: n_linear_combo weight old' new'
  | _, _ => []
  end.

(** [OozeBalancer::balance] (oozebalancer.cpp:79-100) *)
Definition ooze_balance_in (weight : N) (weights : list Z) (loads : list N) : ooze_outcome :=
  match n_expected_optimal weights loads with
  | None => OozeUndefined
  | Some opt =>
      match n_equalize (a_ofZ A 0) (n_linear_combo weight weights opt) with
      | None => OozeUndefined
      | Some ret => if Z.eqb (zsum weights) (zsum ret) then OozeWeights ret else OozeLogicError
      end
  end.
End Ooze.
