(** Which relative coordinates belong to a stencil, and in which order they
    are enumerated. *)
From Verif Require Import Base StencilModel.

Definition manhattan (c : list Z) : Z := fold_right (fun x a => Z.abs x + a) 0 c.
Definition chebyshev (c : list Z) : Z := fold_right (fun x a => Z.max (Z.abs x) a) 0 c.

(** The shapes, in any dimension (comments at stencils.h:176-180, 208-213,
    237-244). *)
Definition in_shape (sh : shape) (r : Z) (c : list Z) : Prop :=
  match sh with
  | Moore => chebyshev c <= r
  | VonNeumann => manhattan c <= r
  | Cross => chebyshev c = manhattan c /\ manhattan c <= r
  end.

Definition fc_list (c : fixed) : list Z := [fc_x c; fc_y c; fc_z c].

(** Relative coordinates of a stencil: those of the shape, with zeros for
    axes which don't exist. *)
Definition in_stencil (s : stencil) (c : fixed) : Prop :=
  in_shape (st_shape s) (Z.of_nat (st_rad s)) (fc_list c) /\ skipn (st_dim s) (fc_list c) = repeat 0 (3 - st_dim s).

(** Row by row, plane by plane. *)
Definition fixed_lt (a b : fixed) : Prop :=
  fc_z a < fc_z b \/ (fc_z a = fc_z b /\ (fc_y a < fc_y b \/ (fc_y a = fc_y b /\ fc_x a < fc_x b))).

(** The number of coordinates of a given kind. *)
Definition counts {A} (P : A -> Prop) (n : Z) : Prop :=
  exists l, NoDup l /\ (forall a, In a l <-> P a) /\ Z.of_nat (length l) = n.
