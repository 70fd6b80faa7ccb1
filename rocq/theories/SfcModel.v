(** Model of the space-filling curve partitions ZCurvePartition and
    HilbertPartition (/repo/src/libgeodecomp/geometry/partitions). Definitions
    only.

    Both classes share the same structure; what differs is collected in the
    record [curve]. *)
From Verif Require Import Base RegionModel RegionIterModel CoordModel RegionOpsModel PartitionModel.

(** [Square] (zcurvepartition.h:36-61, hilbertpartition.h:36-58) without the
    member [quadrant], which is kept beside it on the stack. *)
Record square := mkSq { sq_org : coord; sq_dim : coord; sq_form : nat }.

Record curve := mkCurve {
  cv_nq : nat;                              (* number of quadrants *)
  cv_axis : coord -> nat;                   (* axis of trivial squares, as index into the list *)
  cv_cached : coord -> bool;                (* [isCached] *)
  cv_cache : coord -> nat -> list coord;    (* the cache's entry for given dimensions and form *)
  cv_accu : square -> list Z;               (* [accuSizes] *)
  cv_pick : list Z -> Z -> nat;             (* the choice of the quadrant from [accuSizes] and [pos] *)
  cv_sub : square -> nat -> square          (* the chosen quadrant *)
}.

(** [sublevelState] and the members which belong to it
    (spacefillingcurve.h:10, zcurvepartition.h:100-106): the axis and the
    counter, or the origin and the remaining cached coordinates (the current
    one included). *)
Inductive sublevel :=
| Trivial (axis : nat) (counter : Z)
| Cached (org : coord) (rest : list coord).

(** [Iterator]; the stack's top comes first. *)
Inductive sfc_iter :=
| SfcEnd (cursor : coord)
| SfcAt (cursor : coord) (sl : sublevel) (stack : list (square * nat)).

Fixpoint csum (c : coord) : Z := match c with [] => 0 | x :: c' => x + csum c' end.

(** [hasTrivialDimensions] (spacefillingcurve.h:51-56). *)
Definition has_trivial (dim : coord) : bool :=
  (prod dim =? 0) || (prod dim =? csum dim - Z.of_nat (length dim) + 1).

Definition add_axis (i : nat) (k : Z) (c : coord) : coord := set_nth i (nth i c 0 + k) c.

(** [digDown], [digDownTrivial], [digDownCached] and [digDownRecursion]
    (zcurvepartition.h:127-243, hilbertpartition.h:135-284). *)
Fixpoint dig_down (cv : curve) (fuel : nat) (offset : Z) (stack : list (square * nat)) : option sfc_iter :=
  match stack with
  | [] => None
  | (sq, q) :: stk =>
      if prod (sq_dim sq) <=? offset then Some (SfcEnd (sq_org sq))
      else if has_trivial (sq_dim sq) then
        let ax := cv_axis cv (sq_dim sq) in
        Some (SfcAt (add_axis ax offset (sq_org sq)) (Trivial ax (nth ax (sq_dim sq) 0 - offset)) stk)
      else if cv_cached cv (sq_dim sq) then
        match skipn (Z.to_nat offset) (cv_cache cv (sq_dim sq) (sq_form sq)) with
        | [] => None
        | c :: rest => Some (SfcAt (zadd (sq_org sq) c) (Cached (sq_org sq) (c :: rest)) stk)
        end
      else match fuel with
           | O => None
           | S f =>
               let accu := cv_accu cv sq in
               obind (nth_error accu q) (fun aq =>
               let pos := offset + aq in
               let index := cv_pick cv accu pos in
               obind (nth_error accu index) (fun ai =>
               dig_down cv f (pos - ai) ((cv_sub cv sq index, 0%nat) :: (sq, index) :: stk)))
           end
  end.

(** [digUp] (zcurvepartition.h:245-259, hilbertpartition.h:286-297); [None]:
    the end is reached. *)
Fixpoint dig_up (cv : curve) (stack : list (square * nat)) : option (list (square * nat)) :=
  match stack with
  | [] => None
  | (sq, q) :: stk => if (S q =? cv_nq cv)%nat then dig_up cv stk else Some ((sq, S q) :: stk)
  end.

(** [digUpDown] (zcurvepartition.h:261-268, hilbertpartition.h:126-133). *)
Definition dig_up_down (cv : curve) (fuel : nat) (origin : coord) (stack : list (square * nat)) : option sfc_iter :=
  match dig_up cv stack with
  | None => Some (SfcEnd origin)
  | Some stk => dig_down cv fuel 0 stk
  end.

(** [operator++] (zcurvepartition.h:87-125, hilbertpartition.h:82-124). *)
Definition sfc_next (cv : curve) (fuel : nat) (origin : coord) (it : sfc_iter) : option sfc_iter :=
  match it with
  | SfcEnd _ => Some it
  | SfcAt cursor (Trivial ax n) stk =>
      if 0 <? n - 1 then Some (SfcAt (add_axis ax 1 cursor) (Trivial ax (n - 1)) stk)
      else dig_up_down cv fuel origin stk
  | SfcAt _ (Cached o rest) stk =>
      match tl rest with
      | [] => dig_up_down cv fuel origin stk
      | c :: _ => Some (SfcAt (zadd o c) (Cached o (tl rest)) stk)
      end
  end.

(** [operator*] and [operator==] (spacefillingcurve.h:31-49). *)
Definition sfc_deref (it : sfc_iter) : coord := match it with SfcEnd c => c | SfcAt c _ _ => c end.

Definition sfc_eqb (a b : sfc_iter) : bool :=
  match a, b with
  | SfcEnd x, SfcEnd y | SfcAt x _ _, SfcAt y _ _ => coord_eqb x y
  | _, _ => false
  end.

(** Constructor with position (zcurvepartition.h:73-81,
    hilbertpartition.h:67-76). *)
Definition sfc_at (cv : curve) (fuel : nat) (origin dims : coord) (form : nat) (pos : Z) : option sfc_iter :=
  dig_down cv fuel pos [(mkSq origin dims form, 0%nat)].

(** [getRegion] (zcurvepartition.h:305-310, hilbertpartition.h:332-337). *)
Definition sfc_region (cv : curve) (fuel : nat) (origin dims : coord) (offset : Z) (weights : list Z) (node : nat)
    : option indices :=
  obind (node_range offset weights node) (fun '(a, b) =>
  obind (sfc_at cv fuel origin dims 0 a) (fun i =>
  obind (sfc_at cv fuel origin dims 0 b) (fun e =>
  obind (iter_range (sfc_next cv fuel origin) sfc_eqb sfc_deref fuel i e) (fun l =>
  Some (reg_of_coords (length dims) l))))).

(** Accumulated sizes of the quadrants, starting with 0, without the total. *)
Fixpoint accumulate (o : Z) (sizes : list Z) : list Z :=
  match sizes with
  | [] => []
  | s :: ss => o :: accumulate (o + s) ss
  end.

(** ** ZCurvePartition *)

(** Dimensions and origin of quadrant [i] (zcurvepartition.h:186-234): bit
    [d] of [i] selects the upper half along dimension [d]. *)
Fixpoint z_quad_dim (i : nat) (dim : coord) : coord :=
  match dim with
  | [] => []
  | n :: ms => (if Nat.testbit i (length ms) then n - n / 2 else n / 2) :: z_quad_dim i ms
  end.

Fixpoint z_quad_org (i : nat) (dim : coord) : coord :=
  match dim with
  | [] => []
  | n :: ms => (if Nat.testbit i (length ms) then n / 2 else 0) :: z_quad_org i ms
  end.

(** [trivialSquareDirDim] (zcurvepartition.h:159-164): the highest dimension
    whose extent exceeds 1, else dimension 0. *)
Fixpoint z_axis (dim : coord) : nat :=
  match dim with
  | [] | [_] => O
  | n :: ms => if 1 <? n then O else S (z_axis ms)
  end.

(** [std::upper_bound(accuSizes, ..., pos) - accuSizes - 1]
    (zcurvepartition.h:217-220). *)
Definition z_pick (accu : list Z) (pos : Z) : nat := (count_while (fun a => (a <=? pos)%Z) accu - 1)%nat.

(** The cache is never filled: [cachesInitialized] is a static member of a
    class template which is not referenced, hence not instantiated;
    [maxCachedDimensions] remains 0. *)
Definition zcurve (D : nat) : curve := {|
  cv_nq := Nat.pow 2 D;
  cv_axis := z_axis;
  cv_cached := fun _ => false;
  cv_cache := fun _ _ => [];
  cv_accu := fun sq => accumulate 0 (map (fun i => prod (z_quad_dim i (sq_dim sq))) (seq 0 (Nat.pow 2 D)));
  cv_pick := z_pick;
  cv_sub := fun sq i => mkSq (zadd (z_quad_org i (sq_dim sq)) (sq_org sq)) (z_quad_dim i (sq_dim sq)) 0
|}.

Definition zcurve_region (fuel : nat) (origin dims : coord) (offset : Z) (weights : list Z) (node : nat) : option indices :=
  sfc_region (zcurve (length dims)) fuel origin dims offset weights node.

(** ** HilbertPartition *)

(** Forms: LL_TO_LR=0, LL_TO_UL=1, UR_TO_LR=2, UR_TO_UL=3
    (hilbertpartition.h:23). The tables are those of
    hilbertpartition.cpp:5-20. *)
Definition hilbert_form (form quarter : nat) : nat :=
  nth quarter (nth form [[1; 0; 0; 2]; [0; 1; 1; 3]; [3; 2; 2; 0]; [2; 3; 3; 1]] [])%nat 0%nat.

Definition hilbert_sector (form quarter : nat) : nat :=
  nth quarter (nth form [[2; 0; 1; 3]; [2; 3; 1; 0]; [1; 0; 2; 3]; [1; 3; 2; 0]] [])%nat 0%nat.

(** [accuSizes] (hilbertpartition.h:200-240). Illegal forms throw. *)
Definition hilbert_accu (sq : square) : list Z :=
  match sq_dim sq with
  | [dy; dx] =>
      let hx := dx / 2 in let hy := dy / 2 in let rx := dx - hx in let ry := dy - hy in
      let total := dx * dy in let left := hx * dy in let right := total - left in
      let ul := hx * hy in let ll := hx * ry in let ur := rx * hy in let lr := rx * ry in
      match sq_form sq with
      | 0%nat => [0; ll; left; left + ur]
      | 1%nat => [0; ll; ll + lr; ll + right]
      | 2%nat => [0; ur; ur + ul; ur + left]
      | 3%nat => [0; ur; right; right + ll]
      | _ => []
      end
  | _ => []
  end.

(** The choice of the quarter (hilbertpartition.h:242-248). *)
Definition hilbert_pick (accu : list Z) (pos : Z) : nat :=
  if pos <? nth 2 accu 0 then (if pos <? nth 1 accu 0 then 0%nat else 1%nat)
  else (if pos <? nth 3 accu 0 then 2%nat else 3%nat).

(** Origin, dimensions and form of the quarter (hilbertpartition.h:253-281). *)
Definition hilbert_sub (sq : square) (quarter : nat) : square :=
  match sq_org sq, sq_dim sq with
  | [oy; ox], [dy; dx] =>
      let hx := dx / 2 in let hy := dy / 2 in
      let f := hilbert_form (sq_form sq) quarter in
      match hilbert_sector (sq_form sq) quarter with
      | 0%nat => mkSq [oy; ox] [hy; hx] f
      | 1%nat => mkSq [oy; ox + hx] [hy; dx - hx] f
      | 2%nat => mkSq [oy + hy; ox] [dy - hy; hx] f
      | _ => mkSq [oy + hy; ox + hx] [dy - hy; dx - hx] f
      end
  | _, _ => sq
  end.

(** [digDownTrivial] (hilbertpartition.h:160-176). *)
Definition hilbert_axis (dim : coord) : nat := if 1 <? last dim 0 then 1%nat else 0%nat.

(** [isCached] (hilbertpartition.h:299-303), [mx] and [my] are
    [maxCachedDimensions]. *)
Definition hilbert_cached (mx my : Z) (dim : coord) : bool :=
  match dim with [dy; dx] => (dx <? mx) && (dy <? my) | _ => false end.

Definition hilbert_with (mx my : Z) (cache : coord -> nat -> list coord) : curve := {|
  cv_nq := 4;
  cv_axis := hilbert_axis;
  cv_cached := hilbert_cached mx my;
  cv_cache := cache;
  cv_accu := hilbert_accu;
  cv_pick := hilbert_pick;
  cv_sub := hilbert_sub
|}.

(** [fillCaches] (hilbertpartition.h:345-371). The grid of caches is a
    function; an entry is computed by walking from the begin to the end
    iterator. [None]: an exception, undefined behaviour or out of fuel. *)
Definition cache_set (cache : coord -> nat -> list coord) (dim : coord) (form : nat) (l : list coord)
    : coord -> nat -> list coord :=
  fun d f => if coord_eqb d dim && (f =? form)%nat then l else cache d f.

Definition hilbert_fill_entry (fuel : nat) (y : Z) (cache : coord -> nat -> list coord) (dim : coord) (form : nat)
    : option (coord -> nat -> list coord) :=
  let cv := hilbert_with y y cache in
  obind (sfc_at cv fuel [0; 0] dim form 0) (fun b =>
  obind (iter_range (sfc_next cv fuel [0; 0]) sfc_eqb sfc_deref fuel b (SfcEnd [0; 0])) (fun l =>
  Some (cache_set cache dim form l))).

Fixpoint hilbert_fill_forms (fuel : nat) (y : Z) (dim : coord) (forms : list nat) (cache : coord -> nat -> list coord)
    : option (coord -> nat -> list coord) :=
  match forms with
  | [] => Some cache
  | f :: fs => obind (hilbert_fill_entry fuel y cache dim f) (hilbert_fill_forms fuel y dim fs)
  end.

Fixpoint hilbert_fill_row (fuel : nat) (y : Z) (xs : list Z) (cache : coord -> nat -> list coord)
    : option (coord -> nat -> list coord) :=
  match xs with
  | [] => Some cache
  | x :: xs' => obind (hilbert_fill_forms fuel y [y; x] [0; 1; 2; 3]%nat cache) (hilbert_fill_row fuel y xs')
  end.

Fixpoint hilbert_fill_rows (fuel : nat) (xs ys : list Z) (cache : coord -> nat -> list coord)
    : option (coord -> nat -> list coord) :=
  match ys with
  | [] => Some cache
  | y :: ys' => obind (hilbert_fill_row fuel y xs cache) (hilbert_fill_rows fuel xs ys')
  end.

Definition hilbert_fill (fuel : nat) : option (coord -> nat -> list coord) :=
  let r := [2; 3; 4; 5; 6; 7; 8; 9; 10; 11; 12; 13; 14; 15; 16] in
  hilbert_fill_rows fuel r r (fun _ _ => []).

(** The curve after the caches were filled by static initialisation;
    [maxCachedDimensions] is (17, 17). *)
Definition hilbert_region (fuel : nat) (origin dims : coord) (offset : Z) (weights : list Z) (node : nat) : option indices :=
  obind (hilbert_fill fuel) (fun cache => sfc_region (hilbert_with 17 17 cache) fuel origin dims offset weights node).
