(** Specification vocabulary for the UnstructuredGridMesher. *)
From Coq Require Import QArith Qabs.
From Verif Require Import Base GridModel.

(** The position's component along an axis. *)
Definition axis (p : list Q) (k : nat) : Q := nth k p 0%Q.

(** Two points are linked if the second is listed among the first's
    neighbors. *)
Definition linked (points : list (list Q)) (neighbors : list (list Z)) (p q : list Q) : Prop :=
  exists i ns j, nth_error points i = Some p /\ nth_error neighbors i = Some ns /\ In j ns /\ vec_get points j = Some q.

(** There's a point, each point comes with a list of neighbors, and these are
    points, too. *)
Definition mesh_ok (n : nat) (points : list (list Q)) (neighbors : list (list Z)) : Prop :=
  points <> [] /\ Forall (fun p => length p = n) points /\ (length points <= length neighbors)%nat /\
  forall i p ns j, nth_error points i = Some p -> nth_error neighbors i = Some ns -> In j ns -> exists q, vec_get points j = Some q.

(** Along each axis there are neighbors which differ. *)
Definition spread (n : nat) (points : list (list Q)) (neighbors : list (list Z)) : Prop :=
  forall k, (k < n)%nat -> exists p q, linked points neighbors p q /\ ~ (axis p k == axis q k)%Q.
