(** Specification vocabulary for neighbourhoods and halos. *)
From Verif Require Import Base CoordModel CoordSpec RegionModel RegionRep.

(** The cells of a Region of dimension [S d]. *)
Definition inr (d : nat) (r : indices) (c : coord) : Prop := length c = S d /\ reg_count r c = Some true.

(** A neighbourhood relation: [E c c'] says that the update of [c] may read
    [c']. *)
Definition neigh := coord -> coord -> Prop.

(** [walk E k c c']: [c'] can be reached from [c] in exactly [k] steps. The
    neighbourhoods below are reflexive, which makes it "at most [k]". *)
Fixpoint walk (E : neigh) (k : nat) (c c' : coord) : Prop :=
  match k with
  | O => c = c'
  | S k' => exists c1, E c c1 /\ walk E k' c1 c'
  end.

(** Regular grids: the cells of the Moore neighbourhood, wrapped around along
    periodic axes, clipped along others. *)
Definition moore (d : nat) (dim : coord) (t : topology) : neigh :=
  fun c c' => in_grid dim c /\ exists c1, near (diagonal (S d) 1) c1 c /\ wraps_to t dim c1 c'.

(** Unstructured grids with edges [adj]. *)
Definition linked (adj : Z -> list Z) : neigh :=
  fun c c' => exists x y, c = [x] /\ c' = [y] /\ (x = y \/ In y (adj x)).

(** What can be reached from a set in [k] steps. *)
Definition grown (E : neigh) (k : nat) (P : coord -> Prop) (c : coord) : Prop :=
  exists c0, P c0 /\ walk E k c0 c.

Definition symmetric (E : neigh) : Prop := forall a b, E a b -> E b a.
