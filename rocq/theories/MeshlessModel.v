(** MeshlessAdapter. Definitions only.

    Source: /repo/src/libgeodecomp/storage/meshlessadapter.h. The numbers are a
    parameter (see ParamModel): exact rationals or IEEE doubles. Coordinates
    and positions are lists, last dimension first. Integers are unbounded.
    [None] is undefined behaviour, e.g. converting a number which isn't finite
    to an integer, or being out of fuel. [insert] only compiles for two
    dimensions, findAllPositions and reportFillLevels don't compile at all;
    the latter aren't modelled. *)
From Verif Require Import Base RegionOpsModel CoordModel GridModel ArrayModel ParamModel.

(** The members (lines 241-245). *)
Record adapter (N : Type) := mkAdapter { ma_dims : list N; ma_disc : coord; ma_scale : N; ma_radius2 : N; ma_box : N }.
Arguments mkAdapter {N}. Arguments ma_dims {N}. Arguments ma_disc {N}. Arguments ma_scale {N}. Arguments ma_radius2 {N}. Arguments ma_box {N}.

Section Adapter.
Context {N : Type} (A : arith N) (t : topology).

(** [std::abs], [std::min] *)
Definition a_abs (x : N) : N := if a_lt A x (a_ofZ A 0) then a_sub A (a_ofZ A 0) x else x.
Definition a_min (x y : N) : N := if a_lt A y x then y else x.

(** [resetBoxSize] (lines 247-267). The maximum of 1 and the floor is the same
    as the maximum of 1 and the integral part. *)
Fixpoint disc_dims (dims : list N) (scale : N) : option coord :=
  match dims with
  | [] => Some []
  | d :: dims' => obind (a_trunc A (a_mul A d scale)) (fun k => option_map (cons (Z.max 1 k)) (disc_dims dims' scale))
  end.

Definition MAX_SIZE : Z := 300000.

Definition reset_box (dims : list N) (b : N) : option (result (adapter N)) :=
  let scale := a_div A (a_ofZ A 1) b in
  option_map (fun disc =>
    let a := mkAdapter dims disc scale (a_mul A b b) b in
    if prod disc >? MAX_SIZE then Threw a else Done a) (disc_dims dims scale).

(** [posToCoord] (lines 52-60) *)
Fixpoint pos_axes (disc : coord) (scale : N) (p : list N) : option coord :=
  match disc, p with
  | [], [] => Some []
  | n :: disc', x :: p' => obind (a_trunc A (a_mul A x scale)) (fun k => option_map (cons (Z.min (n - 1) k)) (pos_axes disc' scale p'))
  | _, _ => None
  end.

Definition pos_to_coord (a : adapter N) (p : list N) : option coord := pos_axes (ma_disc a) (ma_scale a) p.

(** [grid] (lines 47-50) *)
Definition mesh_grid (a : adapter N) : vgrid (list (list N * Z)) := grid_make (ma_disc a) [] [].

(** [insert] (lines 62-66) *)
Definition mesh_insert (a : adapter N) (g : vgrid (list (list N * Z))) (p : list N) (id : Z) : option (vgrid (list (list N * Z))) :=
  obind (pos_to_coord a p) (fun c => obind (grid_get t g c) (fun l => grid_set t g c (l ++ [(p, id)]))).

Fixpoint mesh_inserts (a : adapter N) (g : vgrid (list (list N * Z))) (vs : list (list N * Z)) : option (vgrid (list (list N * Z))) :=
  match vs with [] => Some g | v :: vs' => obind (mesh_insert a g (fst v) (snd v)) (fun g' => mesh_inserts a g' vs') end.

(** [distance2] (lines 292-305); the loop starts with the first dimension. *)
Fixpoint distance2 (t : topology) (dims p q : list N) : N :=
  match t, dims, p, q with
  | w :: t', d :: dims', x :: p', y :: q' =>
      let delta := a_abs (a_sub A x y) in
      let delta := if w then a_min delta (a_sub A d delta) else delta in
      a_add A (distance2 t' dims' p' q') (a_mul A delta delta)
  | _, _, _, _ => a_ofZ A 0
  end.

(** [searchList] (lines 269-287): has anything been found, and which IDs have
    been inserted into the set? *)
Definition search_list (a : adapter N) (l : list (list N * Z)) (p : list N) : bool * list Z :=
  let hits := filter (fun v => a_lt A (distance2 t (ma_dims a) p (fst v)) (ma_radius2 a)) l in
  (negb (Nat.eqb (length hits) 0), map snd hits).

(** [search] (lines 74-90) *)
Fixpoint search_cells (a : adapter N) (g : vgrid (list (list N * Z))) (p : list N) (cs : list coord) : option (bool * list Z) :=
  match cs with
  | [] => Some (false, [])
  | c :: cs' => obind (grid_get t g c) (fun l =>
      let '(f, ids) := search_list a l p in
      option_map (fun r => (f || fst r, ids ++ snd r)) (search_cells a g p cs'))
  end.

Definition search_box (n : nat) : box := mkBox (diagonal n (-1)) (diagonal n 3).

Definition mesh_search (a : adapter N) (g : vgrid (list (list N * Z))) (p : list N) : option (bool * list Z) :=
  obind (pos_to_coord a p) (fun center =>
  obind (box_coords (Z.to_nat (prod (b_dim (search_box (length center))))) (search_box (length center))) (fun is_ =>
  search_cells a g p (map (zadd center) is_))).

(** [manhattanDistance] (lines 307-324) *)
Fixpoint cell_distance (t : topology) (disc c d : coord) : Z :=
  match t, disc, c, d with
  | w :: t', n :: disc', x :: c', y :: d' =>
      let dist := Z.abs (x - y) in
      Z.max (if w : bool then Z.min dist (n - dist) else dist) (cell_distance t' disc' c' d')
  | _, _, _, _ => 0
  end.

(** [checkBoxSize] (lines 184-196) *)
Fixpoint check_edges (a : adapter N) (ps : list (list N * Z)) (p : list N) (ns : list Z) : option bool :=
  match ns with
  | [] => Some true
  | n :: ns' =>
      obind (vec_get ps n) (fun q =>
      obind (pos_to_coord a p) (fun c => obind (pos_to_coord a (fst q)) (fun d =>
      if cell_distance t (ma_disc a) c d >? 1 then Some false else check_edges a ps p ns')))
  end.

Fixpoint check_from (a : adapter N) (ps : list (list N * Z)) (graph : list (list Z)) (i : Z) : option bool :=
  match graph with
  | [] => Some true
  | ns :: graph' =>
      obind (match ns with [] => Some true | _ => obind (vec_get ps i) (fun p => check_edges a ps (fst p) ns) end) (fun ok =>
      if ok then check_from a ps graph' (i + 1) else Some false)
  end.

Definition check_box (a : adapter N) (ps : list (list N * Z)) (graph : list (list Z)) : option bool := check_from a ps graph 0.

(** The loops [while (checkBoxSize(..)) resetBoxSize(boxSize * factor)] (lines
    123-126 and 130-133), for either outcome of the check. *)
Fixpoint scale_while (fuel : nat) (go : bool) (factor : N) (a : adapter N) (ps : list (list N * Z)) (graph : list (list Z)) : option (result (adapter N)) :=
  match fuel with
  | O => None
  | S f => obind (check_box a ps graph) (fun ok =>
      if Bool.eqb ok go then
        obind (reset_box (ma_dims a) (a_mul A (ma_box a) factor)) (fun r =>
        match r with Threw a' => Some (Threw a') | Done a' => scale_while f go factor a' ps graph end)
      else Some (Done a))
  end.

(** [intervalTooLarge] (lines 326-336) *)
Fixpoint dim_gap (a b : coord) : Z :=
  match a, b with x :: a', y :: b' => Z.max (Z.abs (x - y)) (dim_gap a' b') | _, _ => 0 end.

Definition a_half : N := a_div A (a_ofZ A 1) (a_ofZ A 2).

(** The bisection (lines 140-151); yields [upperBorderDim]. *)
Fixpoint bisect (fuel : nat) (lower upper : N) (ldim udim : coord) (dims : list N) (ps : list (list N * Z)) (graph : list (list Z)) : option (result (adapter N) + coord) :=
  match fuel with
  | O => None
  | S f =>
      if dim_gap ldim udim >? 1 then
        let middle := a_mul A (a_add A upper lower) a_half in
        obind (reset_box dims middle) (fun r =>
        match r with
        | Threw a' => Some (inl (Threw a'))
        | Done a' => obind (check_box a' ps graph) (fun ok =>
            if ok then bisect f lower middle ldim (ma_disc a') dims ps graph
            else bisect f middle upper (ma_disc a') udim dims ps graph)
        end)
      else Some (inr udim)
  end.

(** [maxBoxSize] and [nextLower] (lines 153-170); the loop starts with the
    first dimension. *)
Fixpoint box_sizes (dims : list N) (udim : coord) : N * N :=
  match dims, udim with
  | d :: dims', n :: udim' =>
      let '(mx, lo) := box_sizes dims' udim' in
      let current := a_div A d (a_ofZ A n) in
      if a_lt A mx current then (current, a_div A d (a_ofZ A (n + 1))) else (mx, lo)
  | _, _ => (a_ofZ A 0, a_ofZ A 0)
  end.

Inductive optimum := Found (b : N) (a : adapter N) | Failed (a : adapter N).

(** [findOptimumBoxSize] (lines 107-182) *)
Definition find_optimum (fuel : nat) (a : adapter N) (ps : list (list N * Z)) (graph : list (list Z)) : option optimum :=
  obind (check_box a ps graph) (fun ok =>
  obind (scale_while fuel ok (if ok then a_half else a_ofZ A 2) a ps graph) (fun r =>
  match r with
  | Threw a1 => Some (Failed a1)
  | Done a1 =>
      obind (if ok then bisect fuel (ma_box a1) (ma_box a) (ma_disc a1) (ma_disc a) (ma_dims a) ps graph
             else bisect fuel (ma_box a) (ma_box a1) (ma_disc a) (ma_disc a1) (ma_dims a) ps graph) (fun r2 =>
      match r2 with
      | inl r3 => Some (Failed (result_state r3))
      | inr udim =>
          let '(mx, lo) := box_sizes (ma_dims a) udim in
          obind (reset_box (ma_dims a) lo) (fun r4 =>
          match r4 with
          | Threw a4 => Some (Failed a4)
          | Done a4 => obind (check_box a4 ps graph) (fun ok4 =>
              if ok4 then Some (Found lo a4)
              else obind (reset_box (ma_dims a) mx) (fun r5 =>
                match r5 with
                | Threw a5 => Some (Failed a5)
                | Done a5 => obind (check_box a5 ps graph) (fun ok5 => Some (if ok5 then Found mx a5 else Failed a5))
                end))
          end)
      end)
  end)).
End Adapter.
Arguments Found {N}. Arguments Failed {N}.
