(** Specification vocabulary for cuts in double precision. *)
From Verif Require Import Base.

(** Cuts of boxes of up to [N] cells per axis, for total weights up to [W],
    are within the box. *)
Definition sane_upto (W N : Z) (rnd : Z -> Z -> Z -> Z) : Prop :=
  forall num den n, 0 <= num <= den -> 0 < den <= W -> 0 <= n <= N -> 0 <= rnd num den n <= n.

(** [cut] is at most [1/2 + 2^-19] away from [num * n / den]. *)
Definition nearest_cut (num den n cut : Z) : Prop :=
  2 ^ 19 * Z.abs (cut * den - num * n) <= (2 ^ 18 + 1) * den.
