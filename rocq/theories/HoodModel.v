(** How UnstructuredUpdateFunctor traverses the rows of a SELL-C-SIGMA matrix:
    cell by cell for UnstructuredGrid, chunk by chunk (with scalar loops at the
    ends of each Streak) for UnstructuredSoAGrid. Definitions only.

    Source: storage/unstructuredneighborhood.h,
    storage/unstructuredsoaneighborhood.h, storage/unstructuredlooppeeler.h,
    storage/unstructuredupdatefunctor.h below /repo/src/libgeodecomp. Integers
    are unbounded. [None] is an access beyond the end of a vector or an
    endless loop. What the user's cell computes is left open: An update is
    described by the index of the cell which is written, and by the entries
    (column and weight) which the neighborhood presents to it, in order. Only
    one matrix (ID 0) is modelled; updates of several Streaks by several
    threads are modelled in the order of the Region. *)
From Verif Require Import Base RegionSpec RegionModel RegionOpsModel RegionIterModel GridModel SellModel.

Section Hood.
Context {V : Type} (C : Z).

Definition hood_write : Type := Z * list (Z * V).

(** ** UnstructuredNeighborhood (unstructuredneighborhood.h:92-222) *)
Record ahood := mkAHood { ah_x : Z; ah_chunk : Z; ah_off : Z }.

(** The constructor (lines 101-107). *)
Definition ah_make (x : Z) : ahood := mkAHood x (Z.quot x C) (Z.rem x C).

(** [updateIndices] (lines 207-221), called by [operator++] (lines 109-114)
    with difference 1. *)
Definition ah_next (h : ahood) : ahood :=
  if C <=? ah_off h + 1 then mkAHood (ah_x h + 1) (ah_chunk h + 1) 0 else mkAHood (ah_x h + 1) (ah_chunk h) (ah_off h + 1).

(** [operator+=] (lines 124-128) *)
Definition ah_add (h : ahood) (i : Z) : ahood := mkAHood (ah_x h + i) (ah_chunk h) (ah_off h).

(** Iterating from [begin()] to [end()] (lines 150-166; the iterator: lines
    31-72). *)
Definition ah_entries (s : sell V) (h : ahood) : option (list (Z * V)) :=
  obind (vec_get (sl_chunkoff s) (ah_chunk h)) (fun o =>
  obind (vec_get (sl_rowlen s) (ah_x h)) (fun n =>
  if n <? 0 then None else sell_read C s (o + ah_off h) (Z.to_nat n))).

(** One cell: [size] is the number of cells in the grid's storage. *)
Definition write_cell (size i : Z) (l : list (Z * V)) : option hood_write :=
  if (0 <=? i) && (i <? size) then Some (i, l) else None.

(** The loop at unstructuredupdatefunctor.h:147-152 (cells without
    updateLineX()); [n] is the number of cells left. *)
Fixpoint aos_cells (s : sell V) (size : Z) (h : ahood) (i : Z) (n : nat) : option (list hood_write) :=
  match n with
  | O => Some []
  | S n' =>
      obind (ah_entries s h) (fun l => obind (write_cell size i l) (fun w =>
      option_map (cons w) (aos_cells s size (ah_next h) (i + 1) n')))
  end.

Definition aos_streak (s : sell V) (size : Z) (k : streak) : option (list hood_write) :=
  aos_cells s size (ah_make (s_x k)) (s_x k) (Z.to_nat (s_e k - s_x k)).

(** All Streaks of the Region (updatefunctormacros.h:9-73). *)
Fixpoint all_streaks (f : streak -> option (list hood_write)) (ss : list streak) : option (list hood_write) :=
  match ss with
  | [] => Some []
  | k :: ss' => obind (f k) (fun w => option_map (app w) (all_streaks f ss'))
  end.

Definition aos_update (s : sell V) (size : Z) (r : indices) : option (list hood_write) :=
  obind (reg_streaks r) (all_streaks (aos_streak s size)).

(** ** UnstructuredSoANeighborhood (unstructuredsoaneighborhood.h:30-274) *)

(** currentChunk, intraChunkOffset *)
Record shood := mkSHood { sh_chunk : Z; sh_intra : Z }.

(** The constructor (lines 158-165), called at unstructuredupdatefunctor.h:70-75. *)
Definition sh_make (x : Z) : shood := mkSHood (Z.quot x C) (Z.rem x C).

(** [operator++] (lines 167-172) *)
Definition sh_next (h : shood) : shood := mkSHood (sh_chunk h + 1) (sh_intra h).

(** [incIntraChunkOffset] (lines 225-233) *)
Definition sh_inc (h : shood) : shood :=
  let o := Z.rem (sh_intra h + 1) C in
  if o =? 0 then sh_next (mkSHood (sh_chunk h) o) else mkSHood (sh_chunk h) o.

(** What lane [k] sees while iterating from [begin()] to [end()], or, for
    [k] = intraChunkOffset, from [beginScalar()] to [endScalar()] (lines
    192-218; the iterators: lines 53-156). Both compare offsets by [!=]. *)
Definition sh_lane (s : sell V) (chunk k : Z) : option (list (Z * V)) :=
  obind (vec_get (sl_chunkoff s) chunk) (fun o =>
  obind (vec_get (sl_chunkoff s) (chunk + 1)) (fun stop =>
  let n := Z.quot (stop - o) C in
  if (0 <=? n) && (o + n * C =? stop) then sell_read C s (o + k) (Z.to_nat n) else None)).

(** All [n] lanes from lane [k] on, writing to consecutive cells. *)
Fixpoint sh_lanes (s : sell V) (size chunk i k : Z) (n : nat) : option (list hood_write) :=
  match n with
  | O => Some []
  | S n' =>
      obind (sh_lane s chunk k) (fun l => obind (write_cell size (i + k) l) (fun w =>
      option_map (cons w) (sh_lanes s size chunk i (k + 1) n')))
  end.

(** The user's lambda ("for (; counter < end; counter += ARITY, ++hood)"),
    see unstructuredupdatefunctortest.h:107-131 in storage/test/unit:
    instantiated for scalars (with the wrapped hood, whose [operator++] calls
    [incIntraChunkOffset], unstructuredlooppeeler.h:37-41) ... *)
Fixpoint scalar_loop (s : sell V) (size stop : Z) (fuel : nat) (i : Z) (h : shood) : option (list hood_write * Z * shood) :=
  if stop <=? i then Some ([], i, h)
  else match fuel with
       | O => None
       | S fuel' =>
           obind (sh_lane s (sh_chunk h) (sh_intra h)) (fun l => obind (write_cell size i l) (fun w =>
           option_map (fun '(ws, i', h') => (w :: ws, i', h')) (scalar_loop s size stop fuel' (i + 1) (sh_inc h))))
       end.

(** ... and for vectors of C lanes. *)
Fixpoint vector_loop (s : sell V) (size stop : Z) (fuel : nat) (i : Z) (h : shood) : option (list hood_write * Z * shood) :=
  if stop <=? i then Some ([], i, h)
  else match fuel with
       | O => None
       | S fuel' =>
           obind (sh_lanes s size (sh_chunk h) i 0 (Z.to_nat C)) (fun w =>
           option_map (fun '(ws, i', h') => (w ++ ws, i', h')) (vector_loop s size stop fuel' (i + C) (sh_next h)))
       end.

(** [unstructuredLoopPeeler] (unstructuredlooppeeler.h:75-97); the macro (lines
    102-122) does the same. *)
Definition next_stop (i : Z) : Z :=
  let r := Z.land i (C - 1) in if r =? 0 then i else i + (C - r).

Definition last_stop (e : Z) : Z := e - Z.land e (C - 1).

Definition loop_peeler (s : sell V) (size i e : Z) (h : shood) : option (list hood_write) :=
  let n := Z.to_nat (e - i + C) in
  obind (scalar_loop s size (next_stop i) n i h) (fun '(w1, i1, h1) =>
  obind (vector_loop s size (last_stop e) n i1 h1) (fun '(w2, i2, h2) =>
  obind (scalar_loop s size e n i2 h2) (fun '(w3, _, _) => Some (w1 ++ w2 ++ w3)))).

(** unstructuredupdatefunctor.h:68-80, for a cell whose updateLineX() consists
    of a call to the loop peeler. *)
Definition soa_streak (s : sell V) (size : Z) (k : streak) : option (list hood_write) :=
  loop_peeler s size (s_x k) (s_e k) (sh_make (s_x k)).

Definition soa_update (s : sell V) (size : Z) (r : indices) : option (list hood_write) :=
  obind (reg_streaks r) (all_streaks (soa_streak s size)).

(** The number of cells an UnstructuredSoAGrid of [n] cells allocates
    ([paddedBoundingBox], storage/unstructuredsoagrid.h:52-61). *)
Definition soa_size (n : Z) : Z := (Z.quot (n - 1) C + 1) * C.
End Hood.
