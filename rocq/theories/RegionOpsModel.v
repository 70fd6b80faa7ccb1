(** Model of the set operations, box insertion/removal, expansion and
    geometry queries of [Region<DIM>]
    (/repo/src/libgeodecomp/geometry/region.h). Definitions only.

    Where the C++ code advances streak iterators, the model consumes the list
    of streaks which [RegionIterModel] yields for the same walk. *)
From Verif Require Import Base RegionModel RegionIterModel CoordModel.

Definition obind {A B} (o : option A) (f : A -> option B) : option B :=
  match o with Some a => f a | None => None end.

(** [RegionIntersectHelper::intersects] (region.h:503-510, 532-537). *)
Definition s_intersects (s1 s2 : streak) : bool :=
  coord_eqb (s_pre s1) (s_pre s2) &&
  (((s_x s1 <=? s_x s2) && (s_x s2 <? s_e s1)) || ((s_x s2 <=? s_x s1) && (s_x s1 <? s_e s2))).

(** [RegionIntersectHelper::lessThan] (region.h:513-523, 540-543): the x
    dimension compares the streaks' ends. *)
Fixpoint pre_less (p1 p2 : list Z) (e1 e2 : Z) : bool :=
  match p1, p2 with
  | a :: p1', b :: p2' => if a <? b then true else if b <? a then false else pre_less p1' p2' e1 e2
  | _, _ => e1 <? e2
  end.

Definition s_less (s1 s2 : streak) : bool := pre_less (s_pre s1) (s_pre s2) (s_e s1) (s_e s2).

(** [Streak::operator==] (streak.h:37-42). *)
Definition streak_eqb (a b : streak) : bool :=
  coord_eqb (s_pre a) (s_pre b) && (s_x a =? s_x b) && (s_e a =? s_e b).

(** [for (i = ...; i != end; ++i) ret << *i]. *)
Definition insert_all (ret : indices) (l : list streak) : indices := fold_left reg_insert l ret.

(** ** Merging *)

(** The conditional insertion of [LIBGEODECOMP_REGION_ADVANCE_ITERATOR]
    (region.h:1454-1462). State: [ret] and [lastInsert]. *)
Definition adv (st : indices * streak) (s : streak) : indices * streak :=
  if streak_eqb s (snd st) then st else (reg_insert (fst st) s, s).

(** The loop of [merge2way] (region.h:1506-1512). [None]: out of fuel. *)
Fixpoint merge2_loop (fuel : nat) (st : indices * streak) (a b : list streak)
  : option (indices * list streak * list streak) :=
  match a, b with
  | sa :: a', sb :: b' =>
      match fuel with
      | O => None
      | S f => if s_less sa sb then merge2_loop f (adv st sa) a' b
               else merge2_loop f (adv st sb) a b'
      end
  | _, _ => Some (fst st, a, b)
  end.

(** [merge2way] (region.h:1483-1520). *)
Definition merge2way (ret : indices) (a b : list streak) : option indices :=
  match a, b with
  | [], _ => Some (insert_all ret b)
  | _, [] => Some (insert_all ret a)
  | _, _ =>
      match merge2_loop (length a + length b) (ret, streak_default ret) a b with
      | Some (ret', a', b') => Some (insert_all (insert_all ret' a') b')
      | None => None
      end
  end.

(** The loop of [merge3way] (region.h:1560-1574). *)
Fixpoint merge3_loop (fuel : nat) (st : indices * streak) (a b c : list streak)
  : option (indices * list streak * list streak * list streak) :=
  match a, b, c with
  | sa :: a', sb :: b', sc :: c' =>
      match fuel with
      | O => None
      | S f =>
          if s_less sa sb
          then if s_less sa sc then merge3_loop f (adv st sa) a' b c
               else merge3_loop f (adv st sc) a b c'
          else if s_less sb sc then merge3_loop f (adv st sb) a b' c
               else merge3_loop f (adv st sc) a b c'
      end
  | _, _, _ => Some (fst st, a, b, c)
  end.

(** [merge3way] (region.h:1522-1600). The three initial tests and the three
    final tests are the same; if no sequence is exhausted the result is
    unchanged (unreachable). *)
Definition merge3_rest (ret : indices) (a b c : list streak) : option indices :=
  match a, b, c with
  | [], _, _ => merge2way ret b c
  | _, [], _ => merge2way ret a c
  | _, _, [] => merge2way ret a b
  | _, _, _ => Some ret
  end.

Definition merge3way (ret : indices) (a b c : list streak) : option indices :=
  match a, b, c with
  | _ :: _, _ :: _, _ :: _ =>
      match merge3_loop (length a + length b + length c) (ret, streak_default ret) a b c with
      | Some (ret', a', b', c') => merge3_rest ret' a' b' c'
      | None => None
      end
  | _, _, _ => merge3_rest ret a b c
  end.

(** ** Set operations *)

(** The loop of [operator-] (region.h:1062-1082) and the code behind it
    (1084-1092). [my] are the streaks behind the current one; [cursor] is
    what is left of the current one. *)
Fixpoint diff_loop (fuel : nat) (ret : indices) (cursor : streak) (my other : list streak)
  : option indices :=
  match other with
  | [] => Some (insert_all (reg_insert ret cursor) my)
  | o :: other' =>
      match fuel with
      | O => None
      | S f =>
          let hit := s_intersects cursor o in
          let ret1 := if hit then reg_insert ret (mkStreak (s_pre cursor) (s_x cursor)
                                                    (Z.max (s_x cursor) (s_x o)))
                      else ret in
          let cursor1 := if hit then mkStreak (s_pre cursor) (Z.min (s_e cursor) (s_e o)) (s_e cursor)
                         else cursor in
          if s_less cursor1 o
          then let ret2 := reg_insert ret1 cursor1 in
               match my with
               | [] => Some (reg_insert ret2 cursor1)
               | m :: my' => diff_loop f ret2 m my' other
               end
          else diff_loop f ret1 cursor1 my other'
      end
  end.

(** [operator-] (region.h:1041-1095). *)
Definition reg_diff (a b : indices) : option indices :=
  if reg_is_empty a then Some (reg_empty (length a))
  else if reg_is_empty b then Some a
  else obind (reg_streaks a) (fun la => obind (reg_streaks b) (fun lb =>
         match la with
         | [] => None
         | m :: my => diff_loop (length la + length lb) (reg_empty (length a)) m my lb
         end)).

(** The loop of [operator&] (region.h:1118-1137). *)
Fixpoint isect_loop (fuel : nat) (ret : indices) (my other : list streak) : option indices :=
  match my, other with
  | m :: my', o :: other' =>
      match fuel with
      | O => None
      | S f =>
          let ret' := if s_intersects m o
                      then reg_insert ret (mkStreak (s_pre m) (Z.max (s_x m) (s_x o)) (Z.min (s_e m) (s_e o)))
                      else ret in
          if s_less m o then isect_loop f ret' my' other else isect_loop f ret' my other'
      end
  | _, _ => Some ret
  end.

(** [operator&] (region.h:1106-1140). *)
Definition reg_isect (a b : indices) : option indices :=
  obind (reg_streaks a) (fun la => obind (reg_streaks b) (fun lb =>
    isect_loop (length la + length lb) (reg_empty (length a)) la lb)).

(** [isAppendable] (region.h:1468-1481): [endStreak() - beginStreak() - 1]
    are the positions of the last entries on each level
    ([StreakIteratorInitOffsets], region.h:322-395). *)
Definition is_appendable (a b : indices) : option bool :=
  if reg_is_empty b || reg_is_empty a then Some true
  else obind (it_construct a (map (fun v => (length v - 1)%nat) a) (zero_off a) 0) (fun last_streak =>
       obind (it_begin b (zero_off b) 0) (fun first =>
         Some (s_less last_streak (it_streak first)))).

(** [operator+] (region.h:1180-1217). *)
Definition reg_union (a b : indices) : option indices :=
  if reg_is_empty b then Some a
  else if reg_is_empty a then Some b
  else obind (reg_streaks a) (fun la => obind (reg_streaks b) (fun lb =>
       obind (is_appendable a b) (fun app1 =>
         if app1 then Some (insert_all a lb)
         else obind (is_appendable b a) (fun app2 =>
                if app2 then Some (insert_all b la)
                else merge2way (reg_empty (length a)) la lb)))).

(** [operator-=] (region.h:1030-1035). *)
Definition reg_diff_assign (a b : indices) : option indices := reg_diff a b.

(** [operator&=] (region.h:1097-1101): computes [other & *this]. *)
Definition reg_isect_assign (a b : indices) : option indices := reg_isect b a.

(** [operator+=] (region.h:1142-1178). *)
Definition reg_union_assign (a b : indices) : option indices :=
  if reg_is_empty b then Some a
  else if reg_is_empty a then Some b
  else obind (reg_streaks a) (fun la => obind (reg_streaks b) (fun lb =>
       obind (is_appendable a b) (fun app1 =>
         if app1 then Some (insert_all a lb)
         else obind (is_appendable b a) (fun app2 =>
                if app2 then Some (insert_all b la)
                else reg_union a b)))).

(** [operator<<(const CoordBox&)] (region.h:978-992); [fuel] bounds the walk
    over the box. *)
Definition reg_insert_box (fuel : nat) (r : indices) (b : box) : option indices :=
  obind (box_streaks fuel b) (fun l =>
  let buf := insert_all (reg_empty (length r)) l in
  obind (reg_streaks r) (fun lr => obind (reg_streaks buf) (fun lb =>
    merge2way (reg_empty (length r)) lr lb))).

(** [operator>>(const CoordBox&)] (region.h:1017-1028). *)
Definition reg_remove_box (fuel : nat) (r : indices) (b : box) : option indices :=
  obind (box_streaks fuel b) (fun l =>
  reg_diff_assign r (insert_all (reg_empty (length r)) l)).

(** ** Expansion *)

(** [Coord<DIM> offset; offset[dim] = k]: axis [i] counted from the most
    significant one. *)
Definition axis_coord (n i : nat) (k : Z) : coord := repeat 0 i ++ k :: repeat 0 (n - S i).

(** The three sequences merged in [expandInOneDimension]
    (region.h:1718-1725, 1736-1743). *)
Definition merge_shifted3 (acc : indices) (off : coord) : option indices :=
  obind (reg_streaks_off acc (map Z.opp off) 0) (fun l1 =>
  obind (reg_streaks acc) (fun l2 =>
  obind (reg_streaks_off acc off 0) (fun l3 =>
    merge3way (reg_empty (length acc)) l1 l2 l3))).

(** region.h:1745-1750. *)
Definition merge_shifted2 (acc : indices) (off : coord) : option indices :=
  obind (reg_streaks_off acc (map Z.opp off) 0) (fun l1 =>
  obind (reg_streaks_off acc off 0) (fun l3 =>
    merge2way (reg_empty (length acc)) l1 l3)).

(** The for loop of [expandInOneDimension] (region.h:1713-1727). *)
Fixpoint expand_loop (fuel : nat) (i : nat) (target width : Z) (acc : indices) : option (Z * indices) :=
  if width <? (target + 2) / 3 then
    match fuel with
    | O => None
    | S f => obind (merge_shifted3 acc (axis_coord (length acc) i width)) (fun acc' =>
               expand_loop f i target (width * 3) acc')
    end
  else Some (width, acc).

(** [expandInOneDimension] (region.h:1703-1753). *)
Definition expand_one (i : nat) (radius : Z) (acc : indices) : option indices :=
  let target := 2 * radius + 1 in
  obind (expand_loop (Z.to_nat target) i target 1 acc) (fun '(width, acc') =>
  if width <? target then
    let off := axis_coord (length acc) i (radius - width / 2) in
    if width * 2 <? target then merge_shifted3 acc' off else merge_shifted2 acc' off
  else Some acc').

(** The loop over the dimensions 1 .. DIM-1 in [expand] (region.h:772-775);
    dimension [d] is axis [DIM - 1 - d], [radii] most significant first. *)
Fixpoint expand_dims (ds : list nat) (radii : coord) (acc : indices) : option indices :=
  match ds with
  | [] => Some acc
  | d :: ds' =>
      let i := (length radii - 1 - d)%nat in
      obind (expand_one i (nth i radii 0) acc) (fun acc' => expand_dims ds' radii acc')
  end.

(** [expand(const Coord&)] (region.h:756-778). *)
Definition reg_expand_radii (r : indices) (radii : coord) : option indices :=
  let rx := last radii 0 in
  obind (reg_streaks_off r (axis_coord (length r) (length r - 1) (- rx)) (rx * 2)) (fun l =>
    expand_dims (seq 1 (length r - 1)) radii (insert_all (reg_empty (length r)) l)).

(** [expand(unsigned)] (region.h:748-751). *)
Definition reg_expand (r : indices) (w : Z) : option indices :=
  reg_expand_radii r (diagonal (length r) w).

(** [trimStreak] (region.h:1632-1643). *)
Definition trim_streak (s : streak) (dim : coord) : streak :=
  mkStreak (s_pre s) (Z.max (s_x s) 0) (Z.min (last dim 0) (s_e s)).

(** [normalizeStreak] (region.h:1685-1701). *)
Definition normalize_streak (t : topology) (s : streak) (target : indices) (dim : coord) : indices :=
  let o := normalize t (s_origin s) dim in
  let ret := mkStreak (removelast o) (last o 0) (last o 0 + (s_e s - s_x s)) in
  if coord_eqb o (diagonal (length o) (-1)) then target else reg_insert target ret.

(** [splitStreak] (region.h:1645-1683). *)
Definition split_streak (t : topology) (s : streak) (target : indices) (dim : coord) : indices :=
  let width := last dim 0 in
  let x0 := s_x s in
  let '(t1, x1) :=
    if x0 <? 0 then
      let e := Z.min (s_e s) 0 in
      (normalize_streak t (mkStreak (s_pre s) (x0 + width) (e + width)) target dim, e)
    else (target, x0) in
  let '(t2, x2) :=
    if x1 <? s_e s then
      let e := Z.min (s_e s) width in
      (normalize_streak t (mkStreak (s_pre s) x1 e) t1 dim, e)
    else (t1, x1) in
  if x2 <? s_e s
  then normalize_streak t (mkStreak (s_pre s) (x2 - width) (s_e s - width)) t2 dim
  else t2.

(** [expandWithTopology] (region.h:816-838) for the regular topologies. *)
Definition reg_expand_topology (r : indices) (w : Z) (dim : coord) (t : topology) : option indices :=
  obind (reg_expand r w) (fun buffer =>
  obind (reg_streaks buffer) (fun l =>
    Some (fold_left (fun ret s =>
            if last t false then split_streak t s ret dim
            else normalize_streak t (trim_streak s dim) ret dim) l (reg_empty (length r))))).

(** [expandWithAdjacency] (region.h:862-904), Regions of dimension 1. One
    pass of the outer loop; [adj] is [getNeighbors]. *)
Definition adj_pass (adj : Z -> list Z) (ret newc : indices) : option indices :=
  obind (reg_streaks newc) (fun l =>
    fold_left (fun acc x => obind acc (fun add =>
      fold_left (fun acc n => obind acc (fun add =>
        match reg_count ret [n] with
        | Some false => Some (reg_insert_coord add [n])
        | Some true => Some add
        | None => None
        end)) (adj x) (Some add)))
      (flat_map (fun s => map (fun i => s_x s + Z.of_nat i) (seq 0 (Z.to_nat (s_e s - s_x s)))) l)
      (Some (reg_empty (length ret)))).

Fixpoint adj_passes (n : nat) (adj : Z -> list Z) (ret newc : indices) : option indices :=
  match n with
  | O => Some ret
  | S n' => obind (adj_pass adj ret newc) (fun add =>
            obind (reg_union_assign ret add) (fun ret' => adj_passes n' adj ret' add))
  end.

Definition reg_expand_adjacency (r : indices) (w : nat) (adj : Z -> list Z) : option indices :=
  adj_passes w adj r r.

(** ** Geometry cache *)

(** The members of a Region (region.h:1448-1452). *)
Record region := mkRegion { rg_idx : indices; rg_box : box; rg_size : Z; rg_tainted : bool }.

Definition null_box (n : nat) : box := mkBox (repeat 0 n) (repeat 0 n).

(** Default constructor (region.h:645-648). *)
Definition rg_new (n : nat) : region := mkRegion (reg_empty n) (null_box n) 0 false.

(** [determineGeometry] (region.h:1604-1629). *)
Definition determine_geometry (r : indices) : option (box * Z) :=
  if reg_is_empty r then Some (null_box (length r), 0)
  else obind (reg_streaks r) (fun l =>
    match l with
    | [] => None
    | s0 :: _ =>
        let '(mn, mx, n) :=
          fold_left (fun '(mn, mx, n) s =>
            (zmin mn (s_origin s), zmax mx (s_pre s ++ [s_e s - 1]), n + (s_e s - s_x s)))
            l (s_origin s0, s_origin s0, 0) in
        Some (mkBox mn (zadd (zsub mx mn) (diagonal (length r) 1)), n)
    end).

(** [resetGeometryCache] (region.h:1631-1635) if tainted, as done by
    [boundingBox] (region.h:707-713) and [size] (region.h:719-725). *)
Definition rg_refresh (r : region) : option region :=
  if rg_tainted r
  then obind (determine_geometry (rg_idx r)) (fun '(b, n) => Some (mkRegion (rg_idx r) b n false))
  else Some r.

(** Mutations on the whole object. [operator<<] (region.h:945-970) ignores
    empty streaks without tainting the cache, [operator>>] (999-1009)
    likewise. *)
Definition rg_insert (r : region) (s : streak) : region :=
  if s_e s <=? s_x s then r
  else mkRegion (reg_insert (rg_idx r) s) (rg_box r) (rg_size r) true.

Definition rg_remove (r : region) (s : streak) : region :=
  if (s_e s <=? s_x s) || reg_is_empty (rg_idx r) then r
  else mkRegion (reg_remove (rg_idx r) s) (rg_box r) (rg_size r) true.

(** [clear] (region.h:697-705). *)
Definition rg_clear (r : region) : region := rg_new (length (rg_idx r)).
