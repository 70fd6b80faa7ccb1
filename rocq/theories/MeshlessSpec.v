(** Specification vocabulary for MeshlessAdapter. *)
From Coq Require Import QArith.
From Verif Require Import Base CoordModel GridModel GridSpec.
Open Scope Z_scope.

(** Positions within the simulation space. *)
Fixpoint in_space (dims p : list Q) : Prop :=
  match dims, p with
  | [], [] => True
  | d :: dims', x :: p' => (0 <= x /\ x <= d)%Q /\ in_space dims' p'
  | _, _ => False
  end.

(** The square of the distance of [p] from the image of [q] in the periodic
    repetition of the simulation space given by [ks]. *)
Fixpoint image_distance2 (dims p q : list Q) (ks : list Z) : Q :=
  match dims, p, q, ks with
  | d :: dims', x :: p', y :: q', k :: ks' =>
      let e := (x - y + inject_Z k * d)%Q in (e * e + image_distance2 dims' p' q' ks')%Q
  | _, _, _, _ => 0%Q
  end.

(** The space repeats along periodic axes only. *)
Definition repeats (t : topology) (ks : list Z) : Prop := Forall2 (fun w k => w = true \/ k = 0) t ks.

(** [p] is closer than [b] to [q] or one of its images. *)
Definition closer (t : topology) (dims : list Q) (b : Q) (p q : list Q) : Prop :=
  exists ks, repeats t ks /\ (image_distance2 dims p q ks < b * b)%Q.

(** Graphs on a list of vertices. *)
Definition graph_ok (ps : list (list Q * Z)) (graph : list (list Z)) : Prop :=
  (length graph <= length ps)%nat /\ Forall (Forall (fun n => 0 <= n < Z.of_nat (length ps))) graph.

(** The vertices at both ends of an edge. *)
Definition edge_of (ps : list (list Q * Z)) (graph : list (list Z)) (v w : list Q * Z) : Prop :=
  exists i ns n, nth_error graph i = Some ns /\ In n ns /\ nth_error ps i = Some v /\ 0 <= n /\ nth_error ps (Z.to_nat n) = Some w.

(** The container cell [d] is [c] or one of the cells surrounding it. *)
Definition adjacent (t : topology) (disc c d : coord) : Prop :=
  exists off, length off = length disc /\ Forall (fun o => -1 <= o <= 1) off /\ denotes t disc (zadd c off) = Some d.
