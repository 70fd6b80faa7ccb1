(** Specification vocabulary for load balancers. *)
From Coq Require Import QArith.
From Verif Require Import Base BalancerModel.

(** A valid distribution of [total] items among [n] nodes. *)
Definition distributes (n : nat) (total : Z) (l : list Z) : Prop :=
  length l = n /\ Forall (fun x => 0 <= x) l /\ fold_right Z.add 0 l = total.

(** The load of the first [x] items, if node [i] has the load [loads[i]] with
    [weights[i]] items which are equally expensive. *)
Fixpoint load_of_first (weights : list Z) (loads : list Q) (x : Q) : Q :=
  match weights, loads with
  | w :: weights', l :: loads' =>
      if Qle_bool x (inject_Z w) then (if Z.eqb w 0 then 0 else l * x / inject_Z w)
      else l + load_of_first weights' loads' (x - inject_Z w)
  | _, _ => 0
  end.
