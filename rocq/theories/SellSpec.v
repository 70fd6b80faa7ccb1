(** Specification vocabulary for sparse matrices. *)
From Coq Require Import Permutation Sorted.
From Verif Require Import Base RegionSpec SellModel.

Definition e_row {V} (e : entry V) : Z := fst (fst e).
Definition e_col {V} (e : entry V) : Z := snd (fst e).

(** The order by row, then column. *)
Definition entry_le {V} (a b : entry V) : Prop := e_row a < e_row b \/ (e_row a = e_row b /\ e_col a <= e_col b).

(** What a sorting function has to provide, [std::sort] isn't stable. *)
Definition sorting {V} (srt : list (entry V) -> list (entry V)) : Prop :=
  forall m, Permutation m (srt m) /\ StronglySorted entry_le (srt m).

(** (column, value) of the entries of a row. *)
Definition row_entries {V} (m : list (entry V)) (x : Z) : list (Z * V) :=
  map (fun e => (e_col e, snd e)) (filter (fun e => e_row e =? x) m).

(** A list holds precisely the entries of a row, by ascending column. *)
Definition is_row {V} (m : list (entry V)) (x : Z) (l : list (Z * V)) : Prop :=
  Permutation (row_entries m x) l /\ StronglySorted (fun a b => fst a <= fst b) l.

Definition rows_below {V} (n : Z) (m : list (entry V)) : Prop := Forall (fun e => 0 <= e_row e < n) m.

Definition row_length {V} (m : list (entry V)) (x : Z) : Z := Z.of_nat (length (row_entries m x)).

(** Within each scope of [s] rows, longer rows come first. *)
Definition descending {V} (s n : Z) (m : list (entry V)) : Prop :=
  forall x y, 0 <= x <= y -> y < n -> x / s = y / s -> row_length m y <= row_length m x.
