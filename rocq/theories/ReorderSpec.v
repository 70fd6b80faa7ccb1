(** Specification vocabulary for grids of nodes with arbitrary IDs. *)
From Coq Require Import Permutation.
From Verif Require Import Base RegionSpec RegionModel RegionRep HaloSpec RegionOpsModel GridModel SellModel SellSpec ReorderModel.

Definition is_node (nodes : indices) (x : Z) : Prop := inr 0 nodes [x].

(** The writes to nodes performed by an operation; weights have no influence. *)
Definition uop_writes {A V} (o : uop A V) : list (Z * A) :=
  match o with
  | RSet id v => [(id, v)]
  | RLoad r vs => match node_ids r with Some ids => combine ids vs | None => [] end
  | _ => []
  end.

(** The value written last to a node. *)
Definition node_value {A V} (init : A) (ops : list (uop A V)) (x : Z) : A :=
  fold_left (fun acc w => if fst w =? x then snd w else acc) (flat_map uop_writes ops) init.

Definition uop_ok {A V} (nodes : indices) (n : nat) (o : uop A V) : Prop :=
  match o with
  | RSet id _ => is_node nodes id
  | RSetEdge _ => True
  | RWeights k _ => 0 <= k < Z.of_nat n
  | RLoad r vs => rvalid 0 r /\ (forall x, is_node r x -> is_node nodes x) /\ forall ids, node_ids r = Some ids -> (length ids <= length vs)%nat
  end.

(** The node stored at a physical position. *)
Definition stored_at {A V} (g : rgrid A V) (q x : Z) : Prop := vec_get (rg_p2l g) q = Some x.

(** All neighbors of [x] are present. *)
Definition complete {V} (nodes : indices) (m : list (entry V)) (x : Z) : Prop :=
  forall y v, In (y, v) (row_entries m x) -> is_node nodes y.
