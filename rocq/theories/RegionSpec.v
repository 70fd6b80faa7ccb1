(** Specification vocabulary for Regions; independent of the model. *)
From Verif Require Import Base.
From Coq Require Import Sorted.

(** The coordinates denoted by a list of streaks. *)
Definition in_streaks (l : list streak) (c : coord) : Prop := exists s, In s l /\ in_streak s c.

(** [s1] comes before [s2] and, if both are in the same row, there is a gap
    between them. *)
Definition streak_before (s1 s2 : streak) : Prop :=
  coord_lt (s_pre s1) (s_pre s2) \/ (s_pre s1 = s_pre s2 /\ s_e s1 < s_x s2).

(** Maximal, non-empty streaks of dimension [S d] in lexicographic order. *)
Definition streaks_ok (d : nat) (l : list streak) : Prop :=
  StronglySorted streak_before l /\ Forall (fun s => length (s_pre s) = d /\ s_x s < s_e s) l.

(** Integers from [a] to [b - 1]. *)
Definition zrange (a b : Z) : list Z := map (fun i => a + Z.of_nat i) (seq 0 (Z.to_nat (b - a))).

(** The coordinates of a streak, from left to right. *)
Definition streak_coords (s : streak) : list coord := map (fun x => s_pre s ++ [x]) (zrange (s_x s) (s_e s)).
