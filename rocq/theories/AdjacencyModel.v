(** RegionBasedAdjacency. Definitions only.

    Sources: geometry/regionbasedadjacency.h, geometry/adjacency.h, both
    below /repo/src/libgeodecomp. Integers are unbounded, [MAX] stands for
    [Limits<int>::getMax()]. [None] is undefined behaviour. *)
From Verif Require Import Base RegionSpec RegionModel RegionIterModel CoordModel RegionOpsModel RegionObjModel RegionSeekModel SellModel.

(** Members (regionbasedadjacency.h:116-118). *)
Record radj := mkRadj { ra_regions : list region; ra_limits : list Z; ra_max : Z }.

Section Adjacency.
Context (MAX : Z).

(** The constructor (regionbasedadjacency.h:48-52). *)
Definition ra_new (maxSize : Z) : radj := mkRadj [rg_new 2] [MAX] maxSize.

(** [index] (regionbasedadjacency.h:152-156): [std::lower_bound] on sorted
    limits. *)
Definition ra_index (a : radj) (y : Z) : nat := count_while (fun l => l <? y) (ra_limits a).

(** [splitIfTooLarge] (regionbasedadjacency.h:125-150). After the swap, the
    former region is in [buf] and both parts start out empty. *)
Definition ra_split (a : radj) (i : nat) : option radj :=
  obind (nth_error (ra_regions a) i) (fun buf =>
  let r := rg_idx buf in
  if Z.of_nat (reg_num_streaks r) <=? ra_max a then Some a
  else
  obind (nth_error (hd [] r) (length (hd [] r) / 2)) (fun e =>
  let newLimit := fst e in
  obind (reg_on_or_after r [newLimit; MAX]) (fun middle =>
  obind (it_begin r (zero_off r) 0) (fun b =>
  obind (it_run (reg_num_streaks r) r (zero_off r) 0 b middle) (fun l1 =>
  obind (it_run (reg_num_streaks r) r (zero_off r) 0 middle (it_end r)) (fun l2 =>
  Some (mkRadj (firstn i (ra_regions a) ++ rg_insert_all (rg_new 2) l1 :: rg_insert_all (rg_new 2) l2 :: skipn (S i) (ra_regions a))
    (firstn i (ra_limits a) ++ newLimit :: skipn i (ra_limits a)) (ra_max a)))))))).

Definition ra_replace (a : radj) (i : nat) (r : region) : radj :=
  mkRadj (firstn i (ra_regions a) ++ r :: skipn (S i) (ra_regions a)) (ra_limits a) (ra_max a).

(** [insert(int, int)] (regionbasedadjacency.h:57-63) *)
Definition ra_insert (a : radj) (from to : Z) : option radj :=
  let i := ra_index a from in
  obind (nth_error (ra_regions a) i) (fun r => ra_split (ra_replace a i (rg_insert r (coord_streak [from; to]))) i).

(** [insert(int, std::vector<int>)] (regionbasedadjacency.h:69-82) *)
Definition ra_insert_all (a : radj) (from : Z) (tos : list Z) : option radj :=
  let buf := rg_insert_all (rg_new 2) (map (fun to => coord_streak [from; to]) (stable_sort Z.ltb tos)) in
  let i := ra_index a from in
  obind (nth_error (ra_regions a) i) (fun r =>
  obind (rg_union_assign r buf) (fun r' => ra_split (ra_replace a i r') i)).

(** [getNeighbors] (regionbasedadjacency.h:87-101): appends to [acc]. The
    x component comes last in coordinates. *)
Definition ra_neighbors (a : radj) (node : Z) (acc : list Z) : option (list Z) :=
  obind (nth_error (ra_regions a) (ra_index a node)) (fun reg =>
  obind (rg_refresh reg) (fun reg' =>
  let r := rg_idx reg' in
  let minX := last (b_origin (rg_box reg')) 0 in
  let maxX := minX + last (b_dim (rg_box reg')) 0 in
  obind (reg_on_or_after r [node; minX]) (fun b =>
  obind (reg_on_or_after r [node; maxX]) (fun e =>
  option_map (fun l => acc ++ flat_map (fun s => zrange (s_x s) (s_e s)) l) (it_run (reg_num_streaks r) r (zero_off r) 0 b e))))).

(** [size] (regionbasedadjacency.h:106-114) *)
Fixpoint ra_sum (l : list region) : option Z :=
  match l with
  | [] => Some 0
  | r :: l' => obind (rg_refresh r) (fun r' => option_map (Z.add (rg_size r')) (ra_sum l'))
  end.

Definition ra_size (a : radj) : option Z := ra_sum (ra_regions a).

(** Histories of insertions. *)
Inductive raop := Edge (from to : Z) | Edges (from : Z) (tos : list Z).

Definition ra_op (a : radj) (o : raop) : option radj :=
  match o with Edge f t => ra_insert a f t | Edges f ts => ra_insert_all a f ts end.

Fixpoint ra_ops (a : radj) (l : list raop) : option radj :=
  match l with [] => Some a | o :: l' => obind (ra_op a o) (fun a' => ra_ops a' l') end.

(** [MakeAdjacency] (adjacency.h:39-56), for the coordinates of the weights:
    pairs of x and y. *)
Fixpoint ra_make (a : radj) (weights : list (Z * Z)) : option radj :=
  match weights with
  | [] => Some a
  | (x, y) :: w => if x =? y then ra_make a w else obind (ra_insert a x y) (fun a1 => obind (ra_insert a1 y x) (fun a2 => ra_make a2 w))
  end.
End Adjacency.
