(** Model of whole [Region] objects: the coordinate set together with the
    geometry cache (/repo/src/libgeodecomp/geometry/region.h). Definitions
    only; the records and the queries are in [RegionOpsModel]. *)
From Verif Require Import Base RegionModel RegionIterModel CoordModel RegionOpsModel RegionHistory.

(** A default-constructed Region to which streaks have only been added by
    [operator<<(const Streak&)]: each non-empty streak taints the cache
    (region.h:967), so it is tainted iff it is not empty. Used for [ret] in
    [operator-], [operator&], [merge2way] and [expand]. *)
Definition rg_built (i : indices) : region := mkRegion i (null_box (length i)) 0 (negb (reg_is_empty i)).

(** A loop [for (...) *this << *i]. *)
Definition rg_insert_all (r : region) (l : list streak) : region := fold_left rg_insert l r.

(** [operator+] (region.h:1180-1217): copies of the object include the
    cache. *)
Definition rg_union (a b : region) : option region :=
  if reg_is_empty (rg_idx b) then Some a
  else if reg_is_empty (rg_idx a) then Some b
  else obind (reg_streaks (rg_idx a)) (fun la => obind (reg_streaks (rg_idx b)) (fun lb =>
       obind (is_appendable (rg_idx a) (rg_idx b)) (fun app1 =>
         if app1 then Some (rg_insert_all a lb)
         else obind (is_appendable (rg_idx b) (rg_idx a)) (fun app2 =>
                if app2 then Some (rg_insert_all b la)
                else obind (merge2way (reg_empty (length (rg_idx a))) la lb) (fun i => Some (rg_built i)))))).

(** [operator+=] (region.h:1142-1178). *)
Definition rg_union_assign (a b : region) : option region :=
  if reg_is_empty (rg_idx b) then Some a
  else if reg_is_empty (rg_idx a) then Some b
  else obind (reg_streaks (rg_idx a)) (fun la => obind (reg_streaks (rg_idx b)) (fun lb =>
       obind (is_appendable (rg_idx a) (rg_idx b)) (fun app1 =>
         if app1 then Some (rg_insert_all a lb)
         else obind (is_appendable (rg_idx b) (rg_idx a)) (fun app2 =>
                if app2 then Some (rg_insert_all b la)
                else rg_union a b)))).

(** [operator&] (region.h:1106-1140), [operator&=] (1097-1101). *)
Definition rg_isect (a b : region) : option region :=
  obind (reg_isect (rg_idx a) (rg_idx b)) (fun i => Some (rg_built i)).

Definition rg_isect_assign (a b : region) : option region := rg_isect b a.

(** [operator-] (region.h:1041-1095), [operator-=] (1030-1035, swaps the
    objects including their caches, 2193-2200). *)
Definition rg_diff (a b : region) : option region :=
  if reg_is_empty (rg_idx a) then Some (rg_new (length (rg_idx a)))
  else if reg_is_empty (rg_idx b) then Some a
  else obind (reg_diff (rg_idx a) (rg_idx b)) (fun i => Some (rg_built i)).

(** [operator<<(const CoordBox&)] (region.h:978-992): swaps with the merge
    buffer. *)
Definition rg_insert_box (fuel : nat) (r : region) (b : box) : option region :=
  obind (reg_insert_box fuel (rg_idx r) b) (fun i => Some (rg_built i)).

(** [operator>>(const CoordBox&)] (region.h:1017-1028). *)
Definition rg_remove_box (fuel : nat) (r : region) (b : box) : option region :=
  obind (box_streaks fuel b) (fun l => rg_diff r (rg_insert_all (rg_new (length (rg_idx r))) l)).

Definition rg_rop (fuel : nat) (r : region) (op : rop) : option region :=
  match op with
  | InsCoord c => Some (rg_insert r (coord_streak c))
  | InsStreak s => Some (rg_insert r s)
  | InsBox b => rg_insert_box fuel r b
  | RemCoord c => Some (rg_remove r (coord_streak c))
  | RemStreak s => Some (rg_remove r s)
  | RemBox b => rg_remove_box fuel r b
  end.

(** [expand(radii)] (region.h:756-778). *)
Definition rg_expand (r : region) (radii : coord) : option region :=
  obind (reg_expand_radii (rg_idx r) radii) (fun i => Some (rg_built i)).
