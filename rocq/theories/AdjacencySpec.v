(** What insertions into an adjacency mean. *)
From Verif Require Import Base AdjacencyModel.

(** The edges an operation inserts. *)
Definition op_edges (o : raop) : list (Z * Z) :=
  match o with Edge f t => [(f, t)] | Edges f ts => map (fun t => (f, t)) ts end.

Definition edges (l : list raop) : list (Z * Z) := flat_map op_edges l.

(** Nodes up to [max] may have edges to nodes below [max]. *)
Definition edges_below (max : Z) (l : list raop) : Prop :=
  Forall (fun o => match o with Edge f t => f <= max /\ t < max | Edges f ts => f <= max /\ Forall (fun t => t < max) ts end) l.
