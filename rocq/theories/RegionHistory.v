(** Histories of Region mutations: specification and model-level runner. *)
From Verif Require Import Base RegionModel RegionIterModel CoordModel CoordSpec RegionOpsModel.

(** The mutations of property C01. *)
Inductive rop :=
| InsCoord (c : coord) | InsStreak (s : streak) | InsBox (b : box)
| RemCoord (c : coord) | RemStreak (s : streak) | RemBox (b : box).

(** Specification: does a mutation insert / remove coordinate [c]? *)
Definition inserts (op : rop) (c : coord) : Prop :=
  match op with
  | InsCoord c' => c = c' | InsStreak s => in_streak s c | InsBox b => in_box b c
  | _ => False
  end.

Definition removes (op : rop) (c : coord) : Prop :=
  match op with
  | RemCoord c' => c = c' | RemStreak s => in_streak s c | RemBox b => in_box b c
  | _ => False
  end.

(** Specification: the most recent mention of [c] in the history (oldest
    first) was an insertion. *)
Definition last_inserted (h : list rop) (c : coord) : Prop :=
  exists h1 op h2, h = h1 ++ op :: h2 /\ inserts op c /\ forall op', In op' h2 -> ~ removes op' c.

(** Arguments are of dimension [n]; boxes have positive extents along all
    axes but x, where the extent is arbitrary, and the last one, where it may
    be 0. *)
Definition rop_ok (n : nat) (op : rop) : Prop :=
  match op with
  | InsCoord c | RemCoord c => length c = n
  | InsStreak s | RemStreak s => S (length (s_pre s)) = n
  | InsBox b | RemBox b => length (b_origin b) = n /\ length (b_dim b) = n /\ rows_regular b
  end.

(** Model: executing a mutation; [fuel] bounds the walk over boxes. *)
Definition run_rop (fuel : nat) (r : indices) (op : rop) : option indices :=
  match op with
  | InsCoord c => Some (reg_insert_coord r c)
  | InsStreak s => Some (reg_insert r s)
  | InsBox b => reg_insert_box fuel r b
  | RemCoord c => Some (reg_remove_coord r c)
  | RemStreak s => Some (reg_remove r s)
  | RemBox b => reg_remove_box fuel r b
  end.

Fixpoint run_history (fuel : nat) (r : indices) (h : list rop) : option indices :=
  match h with
  | [] => Some r
  | op :: h' => obind (run_rop fuel r op) (fun r' => run_history fuel r' h')
  end.

(** Enough fuel for a mutation. *)
Definition rop_fuel (op : rop) : nat :=
  match op with InsBox b | RemBox b => Z.to_nat (prod (removelast (b_dim b))) | _ => 0 end.

Definition history_fuel (h : list rop) : nat := fold_right (fun op n => (rop_fuel op + n)%nat) O h.
