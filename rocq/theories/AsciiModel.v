(** Text files written by ASCIIWriter. Definitions only.

    Source: /repo/src/libgeodecomp/io/asciiwriter.h.

    A file is a sequence of newlines and values (each followed by a blank); how
    values are printed is left out, as are file names, errors while writing and
    the choice of steps. Grids are functions of coordinates. The Region of a
    single Streak (asciiwriter.h:71-73) consists of this Streak only. *)
From Verif Require Import Base RegionSpec CoordModel.

Inductive token (V : Type) := Newline | Value (v : V).
Arguments Newline {V}. Arguments Value {V} v.

(** The body of the loop over the box' Streaks (asciiwriter.h:62-74): one newline
    per component of the origin which is zero, but only if its X component is;
    then [copyMemberOutImpl] (142-155) prints the cells' members. *)
Definition ascii_streak {V} (get : coord -> V) (s : streak) : list (token V) :=
  (if s_x s =? 0 then repeat Newline (length (filter (fun x => x =? 0) (s_origin s))) else []) ++
  map (fun c => Value (get c)) (streak_coords s).

(** [stepFinished] (asciiwriter.h:47-80) for a grid whose bounding box is [b].
    [None]: the walk through the box didn't end within [fuel] steps. *)
Definition ascii_file {V} (fuel : nat) (b : box) (get : coord -> V) : option (list (token V)) :=
  option_map (flat_map (ascii_streak get)) (box_streaks fuel b).
