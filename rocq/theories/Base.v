(** Shared conventions and small helpers. No property lives here. *)
From Coq Require Export ZArith List Bool Lia.
From Coq Require Export ZifyBool ZifyNat.
Export ListNotations.
Global Open Scope Z_scope.

(** A coordinate [Coord<DIM>] (/repo/src/libgeodecomp/geometry/coord.h:74-936)
    is the list of its components, most significant (last) dimension first:
    the C++ value [Coord<3>(x, y, z)] is [[z; y; x]]. *)
Definition coord := list Z.

(** [Streak<DIM>] (/repo/src/libgeodecomp/geometry/streak.h:15-84): all
    coordinates which agree with the origin in all dimensions but x and whose
    x-component lies in [[s_x, s_e)]. [s_pre] holds the origin's components
    without x, most significant first. *)
Record streak := mkStreak { s_pre : list Z; s_x : Z; s_e : Z }.

(** Streak::origin *)
Definition s_origin (s : streak) : coord := s_pre s ++ [s_x s].

(** [Coord::operator+] (coord.h:209-213, 487-491, 788-792): componentwise. *)
Fixpoint zadd (a b : list Z) : list Z :=
  match a, b with x :: a', y :: b' => x + y :: zadd a' b' | _, _ => [] end.

(** [Coord::operator-] (coord.h:227-231, 507-511, 810-814). *)
Fixpoint zsub (a b : list Z) : list Z :=
  match a, b with x :: a', y :: b' => x - y :: zsub a' b' | _, _ => [] end.

(** Streak displaced by a coordinate ([Streak::operator+], streak.h:44-49) and
    lengthened by [al] cells. *)
Definition s_shift (off : list Z) (al : Z) (s : streak) : streak :=
  mkStreak (zadd (s_pre s) off) (s_x s + last off 0) (s_e s + last off 0 + al).

(** Specification: the coordinates denoted by a streak. *)
Definition in_streak (s : streak) (c : coord) : Prop :=
  exists x, c = s_pre s ++ [x] /\ s_x s <= x < s_e s.

(** Specification: lexicographic order on coordinates (most significant
    dimension first). *)
Fixpoint coord_lt (a b : coord) : Prop :=
  match a, b with
  | x :: a', y :: b' => x < y \/ (x = y /\ coord_lt a' b')
  | _, _ => False
  end.
