(** OffsetHelper: where a node's grid is placed. Definitions only.

    Source: /repo/src/libgeodecomp/parallelization/nesting/offsethelper.h
    (used by Stepper::guessOffset, stepper.h:95-102, and
    CommonStepper::initGridsCommon, commonstepper.h:163-170).

    Integers are unbounded. [None] is an outcome of Region's operations which
    doesn't occur for valid regions (RegionOpsModel). The shortcut for
    unstructured topologies (offsethelper.h:124-137) is [bounding_box]. *)
From Verif Require Import Base RegionModel RegionIterModel RegionOpsModel CoordModel PartitionManagerModel UpdateModel.

(** [c[i] = v] *)
Definition set_axis (i : nat) (v : Z) (c : coord) : coord :=
  rev (firstn i (rev c) ++ v :: skipn (S i) (rev c)).

(** cutBox (offsethelper.h:73-75) *)
Definition cut_box (bb : box) (i : nat) (x : Z) : box :=
  mkBox (set_axis i x (b_origin bb)) (set_axis i 1 (b_dim bb)).

(** The loop which looks for gaps (offsethelper.h:72-83), for [n] slices
    from [x] on. *)
Fixpoint find_gaps (region : indices) (bb : box) (i : nat) (n : nat) (x : Z) (gaps : indices) : option indices :=
  match n with
  | O => Some gaps
  | S n' =>
      let cb := cut_box bb i x in
      obind (reg_insert_box (Z.to_nat (prod (b_dim cb))) (reg_empty (length region)) cb) (fun cut =>
      obind (reg_isect region cut) (fun both =>
      find_gaps region bb i n' (x + 1) (if reg_is_empty both then reg_insert gaps (mkStreak [] x (x + 1)) else gaps)))
  end.

(** [Streak::length] (geometry/streak.h:77-80) *)
Definition streak_length (s : streak) : Z := s_e s - s_x s.

(** The loop which selects the widest gap (offsethelper.h:85-90); a Streak is
    empty by default (geometry/streak.h:23-27). *)
Definition widest (ss : list streak) : streak :=
  fold_left (fun w s => if streak_length s >? streak_length w then s else w) ss (mkStreak [] 0 0).

(** The part of [operator()] for axis INDEX (offsethelper.h:56-102): the
    components of offset and dimensions. *)
Definition offset_axis (t : topology) (region : indices) (sim : box) (i : nat) : option (Z * Z) :=
  obind (bounding_box region) (fun bb =>
  let o := axis i (b_origin bb) in
  let n := axis i (b_dim bb) in
  let total := axis i (b_dim sim) in
  if negb (wraps_axis t i) || (n <? Z.quot total 2) then Some (o, n)
  else
    obind (find_gaps region bb i (Z.to_nat n) o (reg_empty 1)) (fun gaps =>
    obind (reg_streaks gaps) (fun ss =>
    let g := widest ss in
    let wrapped := total - streak_length g in
    if wrapped <? n then Some (s_e g, wrapped) else Some (o, n)))).

(** The recursion over the axes (offsethelper.h:54, 109-119): [k] axes, least
    significant first. *)
Fixpoint offset_axes (t : topology) (region : indices) (sim : box) (k : nat) : option box :=
  match k with
  | O => Some (mkBox [] [])
  | S i =>
      obind (offset_axes t region sim i) (fun b =>
      obind (offset_axis t region sim i) (fun '(o, n) =>
      Some (mkBox (o :: b_origin b) (n :: b_dim b))))
  end.

(** [guessOffset] (stepper.h:95-102): the box (offset, dimensions). *)
Definition guess_offset (t : topology) (region : indices) (sim : box) : option box :=
  offset_axes t region sim (length t).
