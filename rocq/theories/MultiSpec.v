(** Specification vocabulary for cells with several containers. *)
From Coq Require Import Sorted.
From Verif Require Import Base CoordModel CoordFacts ArrayModel ParamModel GridSpec BoxModel MultiModel.

(** What can be seen from a cell: elements by ID, by relative coordinate, and
    all particles around. *)
Record view (V : Type) := mkView { see_id : nat -> Z -> option V; see_at : nat -> coord -> V; see_all : nat -> list V }.
Arguments mkView {V}. Arguments see_id {V}. Arguments see_at {V}. Arguments see_all {V}.

(** What an update() computes from a view: the new state, unless it throws, and
    the particles it spawns. *)
Fixpoint eval {V} (w : view V) (k : kernel V) : option V * list (nat * V) :=
  match k with
  | KDone v => (Some v, [])
  | KRaise => (None, [])
  | KId m id k' => eval w (k' (see_id w m id))
  | KAt m c k' => eval w (k' (see_at w m c))
  | KAll m k' => eval w (k' (see_all w m))
  | KSpawn m v k' => (fst (eval w k'), (m, v) :: snd (eval w k'))
  end.

(** Types of members. *)
Inductive kind := Keyed | Boxed | Lone.

Definition kind_of {N V} (m : member N V) : kind := match m with MContainer _ => Keyed | MBox _ => Boxed | MSingle _ => Lone end.

Definition moore (n : nat) (rel : coord) : Prop := length rel = n /\ Forall (fun x => -1 <= x <= 1) rel.

(** Code which compiles: members are accessed according to their types, and
    coordinates are part of the stencil. *)
Fixpoint typed {V} (kinds : list kind) (n : nat) (k : kernel V) : Prop :=
  match k with
  | KDone _ | KRaise => True
  | KId m _ k' => nth_error kinds m = Some Keyed /\ forall r, typed kinds n (k' r)
  | KAt m c k' => nth_error kinds m = Some Lone /\ moore n c /\ forall r, typed kinds n (k' r)
  | KAll m k' => nth_error kinds m = Some Boxed /\ forall r, typed kinds n (k' r)
  | KSpawn m _ k' => nth_error kinds m = Some Boxed /\ typed kinds n k'
  end.

(** Particles are spawned in members up to [cur] only, and in [cur] only if
    its capacity is fixed. *)
Fixpoint spawns_back {V} (cap : nat -> option nat) (cur : nat) (k : kernel V) : Prop :=
  match k with
  | KDone _ | KRaise => True
  | KId m _ k' => forall r, spawns_back cap cur (k' r)
  | KAt m c k' => forall r, spawns_back cap cur (k' r)
  | KAll m k' => forall r, spawns_back cap cur (k' r)
  | KSpawn m _ k' => (m < cur \/ m = cur /\ cap m <> None)%nat /\ spawns_back cap cur k'
  end.

(** A ContainerCell with these items, sorted by their IDs. *)
Definition proper {V} (c : ccell V) (items : list (Z * V)) : Prop :=
  cc_items c = Some items /\ StronglySorted (fun a b => fst a < fst b) items /\ cc_num c = Z.of_nat (length items) /\ length (cc_ids c) = length (cc_cells c).

Section View.
Context {N V : Type}.
Variable cells : place -> list (member N V).
Variable hood : coord -> place.
Variable n : nat.

(** All cells around have the same kinds of members. *)
Definition layout (kinds : list kind) : Prop :=
  forall rel, moore n rel -> map kind_of (cells (hood rel)) = kinds /\
    forall m c, nth_error (cells (hood rel)) m = Some (MContainer c) -> exists items, proper c items.

(** The particles of a cell's box, if there's one. *)
Definition box_parts (m : nat) (rel : coord) : list V := match nth_error (cells (hood rel)) m with Some (MBox b) => bx_parts b | _ => [] end.

(** The view of the grid. Elements can only be identified if there aren't two of
    them with the same ID around. *)
Definition sees (w : view V) : Prop :=
  (forall m id v, see_id w m id = Some v <->
     exists rel c items, moore n rel /\ nth_error (cells (hood rel)) m = Some (MContainer c) /\ cc_items c = Some items /\ In (id, v) items) /\
  (forall m rel v, moore n rel -> nth_error (cells (hood rel)) m = Some (MSingle v) -> see_at w m rel = v) /\
  (forall m, see_all w m = flat_map (box_parts m) (box_list (hood_box n))).

(** The elements a member takes over from the old grid: usually its own, but
    in the first nano step BoxCells take those particles around whose positions
    they contain. *)
Definition carried (A : arith N) (pos : V -> list N) (nano : nat) (m : nat) : list V :=
  match nth_error (cells (hood (diagonal n 0))) m with
  | Some (MContainer c) => match cc_items c with Some items => map snd items | None => [] end
  | Some (MBox b) =>
      match nano with
      | O => filter (fun p => position_ok A (pos p) (bx_origin b) (fadd A (bx_origin b) (bx_dim b))) (flat_map (box_parts m) (box_list (hood_box n)))
      | S _ => bx_parts b
      end
  | Some (MSingle v) => [v]
  | None => []
  end.
End View.

(** The particles among the spawned ones which are meant for a member. *)
Definition meant_for {V} (m : nat) (l : list (nat * V)) : list V := map snd (filter (fun p => (fst p =? m)%nat) l).

(** Updates keep the IDs and the boxes' geometry. *)
Definition same_frame {N V} (a b : member N V) : Prop :=
  match a, b with
  | MContainer c, MContainer d => cc_ids d = cc_ids c /\ cc_num d = cc_num c /\ length (cc_cells d) = length (cc_cells c)
  | MBox c, MBox d => bx_origin d = bx_origin c /\ bx_dim d = bx_dim c
  | MSingle _, MSingle _ => True
  | _, _ => False
  end.

(** The particles which are spawned in the member [m] by the elements of all
    members, in order. *)
Definition spawned {N V} (cells : place -> list (member N V)) (hood : coord -> place) (n : nat) (w : view V) (A : arith N) (pos : V -> list N)
    (kern : nat -> nat -> V -> kernel V) (nano : nat) (m : nat) : list V :=
  flat_map (fun j => flat_map (fun e => meant_for m (snd (eval w (kern j nano e)))) (carried cells hood n A pos nano j)) (seq 0 (length (cells (hood (diagonal n 0))))).

(** No two elements around have the same ID. *)
Definition unambiguous {N V} (cells : place -> list (member N V)) (hood : coord -> place) (n : nat) : Prop :=
  forall m id r1 c1 l1 v1 r2 c2 l2 v2,
    moore n r1 -> nth_error (cells (hood r1)) m = Some (MContainer c1) -> cc_items c1 = Some l1 -> In (id, v1) l1 ->
    moore n r2 -> nth_error (cells (hood r2)) m = Some (MContainer c2) -> cc_items c2 = Some l2 -> In (id, v2) l2 -> v1 = v2.
