(** What polytopes and Voronoi cells ought to be. *)
From Coq Require Import ZArith QArith List.
From Verif Require Import PolytopeModel.
Import ListNotations.
Open Scope Q_scope.

(** ** Geometry *)

Definition same_point (a b : point) : Prop := fst a == fst b /\ snd a == snd b.
Definition dist2 (a b : point) : Q := (fst a - fst b) * (fst a - fst b) + (snd a - snd b) * (snd a - snd b).

Definition open_box (dim x : point) : Prop := (0 < fst x < fst dim) /\ (0 < snd x < snd dim).
Definition closed_box (dim x : point) : Prop := (0 <= fst x <= fst dim) /\ (0 <= snd x <= snd dim).

(** How far a point is above a plane, up to scaling *)
Definition height (base dir x : point) : Q := (fst x - fst base) * fst dir + (snd x - snd base) * snd dir.
Definition above (e : plane) (x : point) : Prop := 0 < height (e_base e) (e_dir e) x.
Definition not_below (e : plane) (x : point) : Prop := 0 <= height (e_base e) (e_dir e) x.
Definition on_plane (e : plane) (x : point) : Prop := height (e_base e) (e_dir e) x == 0.

(** ** Using a polytope *)

Inductive op := OPlane (e : plane) | OPoint (c : point) (id : Z) | OUpdate (only_box : bool).

Definition step (P : polytope) (o : op) : option polytope :=
  match o with
  | OPlane e => Some (insert_plane P e)
  | OPoint c id => Some (insert_point P c id)
  | OUpdate b => update_geometry b P
  end.

Fixpoint run (P : polytope) (os : list op) : option polytope :=
  match os with
  | [] => Some P
  | o :: os => match step P o with Some P' => run P' os | None => None end
  end.

(** The region an operation confines the polytope to *)
Definition admits (center : point) (o : op) (x : point) : Prop :=
  match o with
  | OPlane e => above e x
  | OPoint c _ => dist2 x center < dist2 x c
  | OUpdate _ => True
  end.

(** All points are inserted before the first update, and none is far to the left or below. *)
Fixpoint heeded (center : point) (updated : bool) (os : list op) : Prop :=
  match os with
  | [] => True
  | OPlane _ :: os => heeded center updated os
  | OPoint c _ :: os => updated = false /\ -2 <= fst center + fst c /\ -2 <= snd center + snd c /\ heeded center updated os
  | OUpdate _ :: os => heeded center true os
  end.

(** The open region and its border *)
Definition region (center dim : point) (os : list op) (x : point) : Prop := open_box dim x /\ forall o, In o os -> admits center o x.

Definition admits_border (center : point) (o : op) (x : point) : Prop :=
  match o with
  | OPlane e => not_below e x
  | OPoint c _ => dist2 x center <= dist2 x c
  | OUpdate _ => True
  end.

Definition closed_region (center dim : point) (os : list op) (x : point) : Prop := closed_box dim x /\ forall o, In o os -> admits_border center o x.

(** A side of the simulation space *)
Definition box_side (dim : point) (e : plane) : Prop :=
  (forall x, height (e_base e) (e_dir e) x == snd x) \/ (forall x, height (e_base e) (e_dir e) x == fst x) \/
  (forall x, height (e_base e) (e_dir e) x == fst dim - fst x) \/ (forall x, height (e_base e) (e_dir e) x == snd dim - snd x).

(** The part of the border on a plane reaches from [u] to [v]. *)
Definition edge_ends (center dim : point) (os : list op) (e : plane) (u v : point) : Prop :=
  closed_region center dim os u /\ on_plane e u /\ closed_region center dim os v /\ on_plane e v /\
  forall x y, closed_region center dim os x -> on_plane e x -> closed_region center dim os y -> on_plane e y -> dist2 x y <= dist2 u v.
