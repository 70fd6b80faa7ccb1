(** The sparse matrix container SELL-C-SIGMA. Definitions only.

    Source: storage/sellcsigmasparsematrixcontainer.h below
    /repo/src/libgeodecomp. Integers are unbounded. [None] is undefined
    behaviour (access beyond the end of a vector) or an exception. *)
From Verif Require Import Base RegionSpec RegionOpsModel GridModel.

(** [std::stable_sort]: elements which are not ordered keep their order. *)
Section Sort.
Context {A : Type} (lt : A -> A -> bool).

Fixpoint insert_stable (x : A) (l : list A) : list A :=
  match l with
  | [] => [x]
  | y :: l' => if lt y x then y :: insert_stable x l' else x :: l
  end.

Definition stable_sort (l : list A) : list A := fold_right insert_stable [] l.
End Sort.

(** [std::vector::resize] *)
Definition vec_resize {A} (l : list A) (n : Z) (x : A) : list A :=
  firstn (Z.to_nat n) l ++ repeat x (Z.to_nat n - length l).

(** [std::lower_bound] by the first member, on a sorted vector (lines
    143-147). *)
Definition lower_bound (l : list (Z * Z)) (id : Z) : option (Z * Z) := find (fun p => negb (fst p <? id)) l.

(** Entries of a matrix: (row, column) and value. *)
Definition entry (V : Type) : Type := (Z * Z) * V.

(** Members (lines 301-308). *)
Record sell (V : Type) := mkSell {
  sl_values : list V; sl_column : list Z; sl_rowlen : list Z; sl_chunklen : list Z; sl_chunkoff : list Z;
  sl_sorted : list (Z * Z); sl_real : list Z; sl_dim : Z }.
Arguments mkSell {V}. Arguments sl_values {V}. Arguments sl_column {V}. Arguments sl_rowlen {V}. Arguments sl_chunklen {V}.
Arguments sl_chunkoff {V}. Arguments sl_sorted {V}. Arguments sl_real {V}. Arguments sl_dim {V}.

Section Sell.
Context {V : Type} (zero : V) (C SIGMA : Z).

(** The constructor (lines 183-194). *)
Definition sell_make (n : Z) : sell V :=
  mkSell [] [] (repeat 0 (Z.to_nat n)) (repeat 0 (Z.to_nat (Z.quot (n - 1) C + 1))) (repeat 0 (Z.to_nat (Z.quot (n - 1) C + 2))) [] [] n.

(** Row lengths (lines 83-87). *)
Fixpoint count_rows (rl : list Z) (m : list (entry V)) : option (list Z) :=
  match m with
  | [] => Some rl
  | ((x, _), _) :: m' => obind (vec_get rl x) (fun k => obind (vec_set rl x (k + 1)) (fun rl' => count_rows rl' m'))
  end.

(** Lines 91-95: (rowLength, rowIndex) of the rows of one sorting scope. *)
Fixpoint scope_items (rl : list Z) (row : Z) (n : nat) : option (list (Z * Z)) :=
  match n with
  | O => Some []
  | S n' => obind (vec_get rl row) (fun k => option_map (cons (k, row)) (scope_items rl (row + 1) n'))
  end.

(** Lines 99-104 *)
Fixpoint scope_store (items : list (Z * Z)) (id : Z) (st : list Z * list (Z * Z) * list Z) : option (list Z * list (Z * Z) * list Z) :=
  match items with
  | [] => Some st
  | (k, row) :: items' =>
      let '(real, srt, cp) := st in
      obind (vec_set real id row) (fun real' =>
      obind (vec_set cp id k) (fun cp' => scope_store items' (id + 1) (real', srt ++ [(row, id)], cp')))
  end.

(** Lines 89-105: sort by descending row length within each scope of SIGMA
    rows. *)
Fixpoint scopes (rl : list Z) (padded : Z) (sigmas : list Z) (st : list Z * list (Z * Z) * list Z) : option (list Z * list (Z * Z) * list Z) :=
  match sigmas with
  | [] => Some st
  | s :: sigmas' =>
      let n := Z.min SIGMA (padded - s * SIGMA) in
      if n <? 0 then None
      else obind (scope_items rl (s * SIGMA) (Z.to_nat n)) (fun items =>
           obind (scope_store (stable_sort (fun a b => fst b <? fst a) items) (s * SIGMA) st) (scopes rl padded sigmas'))
  end.

(** Lines 114-118 *)
Fixpoint chunk_max (rl real : list Z) (ids : list Z) : option Z :=
  match ids with
  | [] => Some 0
  | i :: ids' => obind (vec_get real i) (fun r => obind (vec_get rl r) (fun k => option_map (Z.max k) (chunk_max rl real ids')))
  end.

(** Lines 113-126: lengths and offsets of the chunks. Row lengths are
    non-negative, so 0 may serve as the start value of the maximum. *)
Fixpoint chunks (rl real : list Z) (ns : list Z) (off : Z) : option (list Z * list Z) :=
  match ns with
  | [] => Some ([], [off])
  | n :: ns' =>
      obind (chunk_max rl real (zrange (n * C) (n * C + C))) (fun len =>
      obind (chunks rl real ns' (off + len * C)) (fun '(lens, offs) => Some (len :: lens, off :: offs)))
  end.

(** Lines 138-160; [cur], [index]: currentRow, index. *)
Fixpoint place (offs : list Z) (srt : list (Z * Z)) (m : list (entry V)) (cur index : Z) (values : list V) (column : list Z)
  : option (list V * list Z) :=
  match m with
  | [] => Some (values, column)
  | ((x, y), v) :: m' =>
      let index' := if x =? cur then index else 0 in
      obind (lower_bound srt x) (fun p =>
      obind (vec_get offs (Z.quot (snd p) C)) (fun start =>
      let idx := start + index' * C + Z.rem (snd p) C in
      obind (vec_set values idx v) (fun values' =>
      obind (vec_set column idx y) (fun column' => place offs srt m' x (index' + 1) values' column'))))
  end.

(** [InitFromMatrix] (lines 55-161), for a sorted matrix. *)
Definition sell_init_sorted (s : sell V) (m : list (entry V)) : option (sell V) :=
  let nch := Z.quot (sl_dim s - 1) C + 1 in
  let nsig := Z.quot (sl_dim s - 1) SIGMA + 1 in
  let padded := nch * C in
  if nch <? 1 then None
  else
  obind (count_rows (repeat 0 (Z.to_nat padded)) m) (fun rl =>
  obind (scopes rl padded (zrange 0 nsig) (vec_resize (sl_real s) padded 0, sl_sorted s, repeat 0 (Z.to_nat padded))) (fun '(real, srt, cp) =>
  let srt' := stable_sort (fun a b => fst a <? fst b) srt in
  obind (chunks rl real (zrange 0 nch) 0) (fun '(lens, offs) =>
  let total := Z.to_nat (last offs 0) in
  obind (place offs srt' m 0 0 (repeat zero total) (repeat 0 total)) (fun '(values, column) =>
  Some (mkSell values column cp lens offs srt' real (sl_dim s)))))).

(** [initFromMatrix] (lines 221-228); [srt] is [std::sort] by (row, column). *)
Definition sell_init (srt : list (entry V) -> list (entry V)) (s : sell V) (m : list (entry V)) : option (sell V) :=
  sell_init_sorted s (srt m).

(** [getRow] (lines 202-215) *)
Fixpoint sell_read (s : sell V) (idx : Z) (n : nat) : option (list (Z * V)) :=
  match n with
  | O => Some []
  | S n' =>
      obind (vec_get (sl_column s) idx) (fun y => obind (vec_get (sl_values s) idx) (fun v =>
      option_map (cons (y, v)) (sell_read s (idx + C) n')))
  end.

Definition sell_row (s : sell V) (row : Z) : option (list (Z * V)) :=
  obind (vec_get (sl_chunkoff s) (Z.quot row C)) (fun o =>
  obind (vec_get (sl_rowlen s) row) (fun n => sell_read s (o + Z.rem row C) (Z.to_nat n))).
End Sell.
