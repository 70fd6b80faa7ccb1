(** Model of HIndexingPartition
    (/repo/src/libgeodecomp/geometry/partitions/hindexingpartition.{h,cpp}).
    Definitions only. *)
From Verif Require Import Base RegionModel RegionIterModel CoordModel RegionOpsModel PartitionModel SfcModel.

(** [Triangle] (hindexingpartition.h:73-99). [counter] is unsigned in the
    code; the value -1 is only ever incremented before it is used. *)
Record tri := mkTri { t_cnt : Z; t_type : nat; t_dim : coord; t_org : coord }.

(** [triangleTransitions] (hindexingpartition.cpp:5-10). *)
Definition tri_next_type (type counter : nat) : nat :=
  nth counter (nth type [[0; 1; 2; 0]; [1; 3; 0; 1]; [2; 0; 3; 2]; [3; 2; 1; 3]] [])%nat 0%nat.

(** [newOrigin] (hindexingpartition.h:426-475), coordinates are [[y; x]]. *)
Definition tri_offset (type counter : nat) (dim : coord) : coord :=
  match dim with
  | [y; x] =>
      let left := x / 2 in let right := x - left in
      let upper := y / 2 in let lower := y - upper in
      match counter with
      | 0%nat => [0; 0]
      | 1%nat | 3%nat =>
          match type with
          | 0%nat => [- lower; left] | 1%nat => [- lower; - right]
          | 2%nat => [upper; left] | _ => [upper; - right]
          end
      | 2%nat =>
          match type with
          | 0%nat => [- y; 0] | 1%nat => [0; - x]
          | 2%nat => [0; x] | _ => [y; 0]
          end
      | _ =>
          match type with
          | 0%nat => [- y; x] | 1%nat => [- y; - x]
          | 2%nat => [y; x] | _ => [y; - x]
          end
      end
  | _ => dim
  end.

(** [nextSubTriangle] and [newOriginAndDimensions]
    (hindexingpartition.h:374-379, 409-424). *)
Definition tri_sub (t : tri) (i : nat) : tri :=
  let o0 := tri_offset (t_type t) i (t_dim t) in
  let o1 := tri_offset (t_type t) (S i) (t_dim t) in
  mkTri 0 (tri_next_type (t_type t) i) (map Z.abs (zsub o1 o0)) (zadd (t_org t) o0).

Definition next_sub (t : tri) : tri := tri_sub t (Z.to_nat (t_cnt t)).

(** [triangleLength] (hindexingpartition.h:484-516). The memo table
    [triangleLengthCache] only ever holds results of this very function and is
    left out. [None]: out of fuel. *)
Fixpoint tri_length (fuel : nat) (t : tri) : option Z :=
  if has_trivial (t_dim t) then Some (if Nat.odd (t_type t) then 0 else prod (t_dim t))
  else match fuel with
       | O => None
       | S f =>
           obind (tri_length f (tri_sub t 0)) (fun a =>
           obind (tri_length f (tri_sub t 1)) (fun b =>
           obind (tri_length f (tri_sub t 2)) (fun c =>
           obind (tri_length f (tri_sub t 3)) (fun d => Some (a + b + c + d)))))
       end.

(** The members which describe the lowest level: direction, type, counter and
    length of a trivial triangle, or origin and remaining coordinates of a
    cached one (hindexingpartition.h:210-219). *)
Inductive hi_level :=
| HTrivial (type : nat) (dir : coord) (counter len : Z)
| HCached (org : coord) (rest : list coord).

Inductive hi_iter :=
| HEnd (cursor : coord)
| HAt (cursor : coord) (lv : hi_level) (stack : list tri).

Section WithCache.
(** [maxCachedDimensions], and the cached coordinates for given dimensions
    and type. *)
Variables mx my : Z.
Variable cache : coord -> nat -> list coord.

(** [isCached] (hindexingpartition.h:518-521). *)
Definition hi_cached (dim : coord) : bool := hilbert_cached mx my dim.

(** [digDownTrivial] (hindexingpartition.h:267-282): cursor and level. *)
Definition hi_trivial (t : tri) (counter : Z) : coord * hi_level :=
  match t_dim t with
  | [y; x] => (t_org t, if 1 <? x then HTrivial (t_type t) [0; 1] counter x
                        else HTrivial (t_type t) [if (t_type t =? 0)%nat then -1 else 1; 0] counter y)
  | _ => (t_org t, HTrivial (t_type t) [] counter 0)
  end.

(** [digDownCached] (hindexingpartition.h:257-265). *)
Definition hi_from_cache (t : tri) (counter : Z) : hi_level :=
  HCached (t_org t) (skipn (Z.to_nat counter) (cache (t_dim t) (t_type t))).

(** Trivial or cached triangle: cursor and level. *)
Definition hi_enter (cursor : coord) (t : tri) (counter : Z) : coord * hi_level :=
  if has_trivial (t_dim t) then hi_trivial t counter else (cursor, hi_from_cache t counter).

(** [digDown] (hindexingpartition.h:241-255). The top of the stack comes
    first; it has been popped already. *)
Fixpoint hi_dig_down (fuel : nat) (cursor : coord) (t : tri) (stack : list tri) : option hi_iter :=
  if has_trivial (t_dim t) || hi_cached (t_dim t) then
    let '(c, l) := hi_enter cursor t 0 in Some (HAt c l stack)
  else match fuel with
       | O => None
       | S f => hi_dig_down f cursor (next_sub t) (t :: stack)
       end.

(** [triangleStack.back().counter++] followed by [digUp]
    (hindexingpartition.h:199-203, 224-236). [None]: the end is reached. *)
Definition bump (t : tri) : tri := mkTri (t_cnt t + 1) (t_type t) (t_dim t) (t_org t).

Fixpoint hi_dig_up (stack : list tri) : option (tri * list tri) :=
  match stack with
  | [] => None
  | t :: stk => if t_cnt t + 1 =? 4 then hi_dig_up stk else Some (bump t, stk)
  end.

(** [trivialTriangleFinished], [cachedTriangleFinished]
    (hindexingpartition.h:352-372). *)
Definition hi_finished (l : hi_level) : bool :=
  match l with
  | HTrivial type _ counter len => Nat.odd type || (len <=? counter)
  | HCached _ rest => match rest with [] => true | _ => false end
  end.

(** [nextTrivial], [nextCached] (hindexingpartition.h:325-350). *)
Definition hi_step (cursor : coord) (l : hi_level) (stack : list tri) : hi_iter :=
  match l with
  | HTrivial type dir counter len =>
      HAt (if counter =? 0 then (if (type =? 0)%nat then zadd cursor [-1; 0] else cursor) else zadd cursor dir)
          (HTrivial type dir (counter + 1) len) stack
  | HCached o rest =>
      match rest with
      | [] => HAt cursor l stack
      | c :: rest' => HAt (zadd o c) (HCached o rest') stack
      end
  end.

(** [operator++] (hindexingpartition.h:186-208). *)
Fixpoint hi_next (fuel : nat) (origin : coord) (it : hi_iter) : option hi_iter :=
  match it with
  | HEnd _ => Some it
  | HAt cursor l stack =>
      if hi_finished l then
        match fuel with
        | O => None
        | S f =>
            match hi_dig_up stack with
            | None => Some (HEnd origin)
            | Some (t, stk) => obind (hi_dig_down fuel cursor t stk) (hi_next f origin)
            end
        end
      else Some (hi_step cursor l stack)
  end.

(** [skipSubTriangles] (hindexingpartition.h:308-323): the triangles to push,
    and the new remainder. *)
Fixpoint hi_skip (fuel : nat) (t : tri) (is : list nat) (remainder : Z) : option (list tri * Z) :=
  match is with
  | [] => Some ([mkTri 3 (t_type t) (t_dim t) (t_org t)], remainder)
  | i :: is' =>
      let sub := tri_sub t i in
      obind (tri_length fuel sub) (fun n =>
      if n <=? remainder then hi_skip fuel t is' (remainder - n)
      else Some ([sub; mkTri (Z.of_nat i) (t_type t) (t_dim t) (t_org t)], remainder))
  end.

(** The loop of the constructor with position (hindexingpartition.h:135-158). *)
Fixpoint hi_locate (fuel : nat) (origin : coord) (stack : list tri) (remainder : Z) : option hi_iter :=
  match fuel, stack with
  | O, _ | _, [] => None
  | S f, t :: stk =>
      let continue stk' rem := match stk' with [] => Some (HEnd origin) | _ => hi_locate f origin stk' rem end in
      obind (tri_length fuel t) (fun n =>
      if n <=? remainder then continue stk (remainder - n)
      else if has_trivial (t_dim t) || hi_cached (t_dim t) then
        let '(c, l) := hi_enter origin t remainder in Some (HAt c l stk)
      else obind (hi_skip fuel t [0; 1; 2; 3]%nat remainder) (fun '(new, rem) => continue (new ++ stk) rem))
  end.

(** Constructor with position (hindexingpartition.h:135-160). *)
Definition hi_at (fuel : nat) (origin dims : coord) (pos : Z) : option hi_iter :=
  obind (hi_locate fuel origin [mkTri 0 2 dims origin; mkTri (-1) 1 dims (zadd origin dims)] pos)
    (hi_next fuel origin).

(** Constructor for a single triangle (hindexingpartition.h:165-175). *)
Definition hi_triangle (fuel : nat) (origin : coord) (type : nat) (dims : coord) : option hi_iter :=
  obind (hi_dig_down fuel origin (mkTri 0 type dims origin) []) (hi_next fuel origin).

Definition hi_deref (it : hi_iter) : coord := match it with HEnd c => c | HAt c _ _ => c end.

Definition hi_eqb (a b : hi_iter) : bool :=
  match a, b with
  | HEnd x, HEnd y | HAt x _ _, HAt y _ _ => coord_eqb x y
  | _, _ => false
  end.

(** [getRegion] (hindexingpartition.h:544-549). *)
Definition hi_region_with (fuel : nat) (origin dims : coord) (offset : Z) (weights : list Z) (node : nat) : option indices :=
  obind (node_range offset weights node) (fun '(a, b) =>
  obind (hi_at fuel origin dims a) (fun i =>
  obind (hi_at fuel origin dims b) (fun e =>
  obind (iter_range (hi_next fuel origin) hi_eqb hi_deref fuel i e) (fun l =>
  Some (reg_of_coords (length dims) l))))).

(** The complete traversal, [begin()] to [end()] (hindexingpartition.h:534-542). *)
Definition hi_traversal (fuel : nat) (origin dims : coord) : option (list coord) :=
  obind (hi_at fuel origin dims 0) (fun i =>
  iter_range (hi_next fuel origin) hi_eqb hi_deref fuel i (HEnd origin)).
End WithCache.

(** [fillCaches] (hindexingpartition.h:562-588). *)
Definition hi_fill_entry (fuel : nat) (y : Z) (cache : coord -> nat -> list coord) (dim : coord) (type : nat)
    : option (coord -> nat -> list coord) :=
  obind (hi_triangle y y cache fuel [0; 0] type dim) (fun b =>
  obind (iter_range (hi_next y y cache fuel [0; 0]) hi_eqb hi_deref fuel b (HEnd [0; 0])) (fun l =>
  Some (cache_set cache dim type l))).

Fixpoint hi_fill_types (fuel : nat) (y : Z) (dim : coord) (types : list nat) (cache : coord -> nat -> list coord)
    : option (coord -> nat -> list coord) :=
  match types with
  | [] => Some cache
  | f :: fs => obind (hi_fill_entry fuel y cache dim f) (hi_fill_types fuel y dim fs)
  end.

Fixpoint hi_fill_row (fuel : nat) (y : Z) (xs : list Z) (cache : coord -> nat -> list coord)
    : option (coord -> nat -> list coord) :=
  match xs with
  | [] => Some cache
  | x :: xs' => obind (hi_fill_types fuel y [y; x] [0; 1; 2; 3]%nat cache) (hi_fill_row fuel y xs')
  end.

Fixpoint hi_fill_rows (fuel : nat) (xs ys : list Z) (cache : coord -> nat -> list coord)
    : option (coord -> nat -> list coord) :=
  match ys with
  | [] => Some cache
  | y :: ys' => obind (hi_fill_row fuel y xs cache) (hi_fill_rows fuel xs ys')
  end.

Definition hi_fill (fuel : nat) : option (coord -> nat -> list coord) :=
  let r := [2; 3; 4; 5; 6; 7; 8; 9; 10; 11; 12; 13; 14; 15; 16] in
  hi_fill_rows fuel r r (fun _ _ => []).

Definition hindexing_region (fuel : nat) (origin dims : coord) (offset : Z) (weights : list Z) (node : nat) : option indices :=
  obind (hi_fill fuel) (fun cache => hi_region_with 17 17 cache fuel origin dims offset weights node).

Definition hindexing_traversal (fuel : nat) (origin dims : coord) : option (list coord) :=
  obind (hi_fill fuel) (fun cache => hi_traversal 17 17 cache fuel origin dims).
