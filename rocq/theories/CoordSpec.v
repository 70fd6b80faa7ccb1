(** Specification vocabulary for boxes and topologies. *)
From Verif Require Import Base CoordModel.

(** [c] lies inside of the box. *)
Fixpoint inside (org dim c : coord) : Prop :=
  match org, dim, c with
  | [], [], [] => True
  | o :: org', n :: dim', x :: c' => o <= x < o + n /\ inside org' dim' c'
  | _, _, _ => False
  end.

Definition in_box (b : box) (c : coord) : Prop := inside (b_origin b) (b_dim b) c.

(** Coordinates of the grid of the given dimensions. *)
Definition in_grid (dim c : coord) : Prop := inside (map (fun _ => 0) dim) dim c.

(** Boxes of dimension [n] all of whose extents are positive, except that the
    extent along the last (most significant) axis may be 0. *)
Definition box_regular (n : nat) (b : box) : Prop :=
  length (b_origin b) = n /\ length (b_dim b) = n /\
  match b_dim b with [] => False | m :: ms => 0 <= m /\ Forall (fun k => 0 < k) ms end.

(** Boxes whose rows form a regular box: positive extents along all axes but
    the first (x), which is arbitrary, and the last, which may be 0. *)
Definition rows_regular (b : box) : Prop :=
  match b_dim b with
  | [] => False
  | [_] => True
  | m :: ms => 0 <= m /\ Forall (fun k => 0 < k) (removelast ms)
  end.

(** Componentwise: wrapping axes are taken modulo the extent, other axes
    are unchanged and must be within the extent. *)
Fixpoint wraps_to (t : topology) (dim c c' : coord) : Prop :=
  match t, dim, c, c' with
  | [], [], [], [] => True
  | w :: t', n :: dim', x :: cs, x' :: cs' =>
      0 <= x' < n /\ (if w : bool then exists k, x = x' + k * n else x = x') /\ wraps_to t' dim' cs cs'
  | _, _, _, _ => False
  end.

(** [c] is no further than [rad] from [c0] along each axis. *)
Fixpoint near (rad c c0 : coord) : Prop :=
  match rad, c, c0 with
  | [], [], [] => True
  | r :: rad', x :: c', x0 :: c0' => x0 - r <= x <= x0 + r /\ near rad' c' c0'
  | _, _, _ => False
  end.
