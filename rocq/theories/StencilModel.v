(** Stencils. Definitions only.

    Source: /repo/src/libgeodecomp/geometry/stencils.h. Template parameters
    become parameters, [static const] members become definitions; [None] is a
    compile time error. *)
From Verif Require Import Base.

(** [FixedCoord<X, Y, Z>] (fixedcoord.h:13-24) *)
Record fixed := FC { fc_x : Z; fc_y : Z; fc_z : Z }.

Inductive shape := Moore | VonNeumann | Cross.
Record stencil := mkStencil { st_shape : shape; st_dim : nat; st_rad : nat }.

(** [Power] (stencils.h:412-424) *)
Fixpoint power (base : Z) (e : nat) : Z := match e with O => 1 | S e' => base * power base e' end.

(** [Sum1], [Sum2] (stencils.h:426-456): the sum of [f 0 .. f n]; both differ
    only in the parameter which is varied. *)
Fixpoint sum_to (f : nat -> Z) (n : nat) : Z := match n with O => f O | S n' => sum_to f n' + f n end.

(** [Moore::VOLUME] (stencils.h:187) *)
Definition moore_volume (d r : nat) : Z := power (Z.of_nat r * 2 + 1) d.

(** [VonNeumann::VOLUME] (stencils.h:220-223, 230-235) *)
Fixpoint vn_volume (d r : nat) : Z :=
  match d with
  | O => 1
  | S d' => vn_volume d' r + 2 * sum_to (vn_volume d') r - 2 * vn_volume d' r
  end.

(** [Cross::VOLUME] (stencils.h:251) *)
Definition cross_volume (d r : nat) : Z := 1 + 2 * Z.of_nat r * Z.of_nat d.

Definition st_volume (s : stencil) : Z :=
  match st_shape s with
  | Moore => moore_volume (st_dim s) (st_rad s)
  | VonNeumann => vn_volume (st_dim s) (st_rad s)
  | Cross => cross_volume (st_dim s) (st_rad s)
  end.

(** [VonNeumannDimDelta] (stencils.h:340-410). There are specializations for
    offsets of -1 to -8; any other one is subtracted from the radius. Sums up
    to a negative radius don't terminate. *)
Definition vn_half (d r : nat) : Z := sum_to (vn_volume d) r - (vn_volume d r - 1) / 2.

Definition vn_delta_pos (d r : nat) (z : Z) : option Z :=
  if Z.of_nat r - z <? 0 then None
  else Some (vn_half (d - 1) r - vn_half (d - 1) (Z.to_nat (Z.of_nat r - z))).

Definition vn_delta (d r : nat) (z : Z) : option Z :=
  if (-8 <=? z) && (z <=? -1) then option_map Z.opp (vn_delta_pos d r (- z)) else vn_delta_pos d r z.

(** [OffsetHelper] (stencils.h:306-329); there is none for Cross. *)
Definition st_offset (s : stencil) (c : fixed) : option Z :=
  let r := st_rad s in
  match st_shape s with
  | Moore =>
      let n := 2 * Z.of_nat r + 1 in
      Some (power n 0 * fc_x c + power n 1 * fc_y c + power n 2 * fc_z c +
            Z.of_nat r * sum_to (fun i => moore_volume i r) (st_dim s - 1))
  | VonNeumann =>
      match vn_delta 2 r (fc_y c), vn_delta 3 r (fc_z c) with
      | Some a, Some b => Some (1 * fc_x c + a + b + (vn_volume (st_dim s) r - 1) / 2)
      | _, _ => None
      end
  | Cross => None
  end.

(** The specializations of [Coords] (stencils.h:459-575): pairs of an index and
    a relative coordinate. *)
Definition st_table (s : stencil) : list (Z * fixed) :=
  match st_shape s, st_dim s, st_rad s with
  | Moore, 1%nat, 1%nat => (* lines 465-467 *)
      [(0, FC (-1) 0 0); (1, FC 0 0 0); (2, FC 1 0 0)]
  | Moore, 1%nat, 2%nat => (* lines 469-473 *)
      [(0, FC (-2) 0 0); (1, FC (-1) 0 0); (2, FC 0 0 0); (3, FC 1 0 0); (4, FC 2 0 0)]
  | Moore, 2%nat, 1%nat => (* lines 475-483 *)
      [(0, FC (-1) (-1) 0); (1, FC 0 (-1) 0); (2, FC 1 (-1) 0); (3, FC (-1) 0 0); (4, FC 0 0 0); (5, FC 1 0 0);
       (6, FC (-1) 1 0); (7, FC 0 1 0); (8, FC 1 1 0)]
  | Moore, 2%nat, 2%nat => (* lines 485-509 *)
      [(0, FC (-2) (-2) 0); (1, FC (-1) (-2) 0); (2, FC 0 (-2) 0); (3, FC 1 (-2) 0); (4, FC 2 (-2) 0);
       (5, FC (-2) (-1) 0); (6, FC (-1) (-1) 0); (7, FC 0 (-1) 0); (8, FC 1 (-1) 0); (9, FC 2 (-1) 0);
       (10, FC (-2) 0 0); (11, FC (-1) 0 0); (12, FC 0 0 0); (13, FC 1 0 0); (14, FC 2 0 0); (15, FC (-2) 1 0);
       (16, FC (-1) 1 0); (17, FC 0 1 0); (18, FC 1 1 0); (19, FC 2 1 0); (20, FC (-2) 2 0); (21, FC (-1) 2 0);
       (22, FC 0 2 0); (23, FC 1 2 0); (24, FC 2 2 0)]
  | Moore, 3%nat, 1%nat => (* lines 511-537 *)
      [(0, FC (-1) (-1) (-1)); (1, FC 0 (-1) (-1)); (2, FC 1 (-1) (-1)); (3, FC (-1) 0 (-1)); (4, FC 0 0 (-1));
       (5, FC 1 0 (-1)); (6, FC (-1) 1 (-1)); (7, FC 0 1 (-1)); (8, FC 1 1 (-1)); (9, FC (-1) (-1) 0);
       (10, FC 0 (-1) 0); (11, FC 1 (-1) 0); (12, FC (-1) 0 0); (13, FC 0 0 0); (14, FC 1 0 0);
       (15, FC (-1) 1 0); (16, FC 0 1 0); (17, FC 1 1 0); (18, FC (-1) (-1) 1); (19, FC 0 (-1) 1);
       (20, FC 1 (-1) 1); (21, FC (-1) 0 1); (22, FC 0 0 1); (23, FC 1 0 1); (24, FC (-1) 1 1); (25, FC 0 1 1);
       (26, FC 1 1 1)]
  | VonNeumann, 1%nat, 1%nat => (* lines 539-541 *)
      [(0, FC (-1) 0 0); (1, FC 0 0 0); (2, FC 1 0 0)]
  | VonNeumann, 1%nat, 2%nat => (* lines 543-547 *)
      [(0, FC (-2) 0 0); (1, FC (-1) 0 0); (2, FC 0 0 0); (3, FC 1 0 0); (4, FC 2 0 0)]
  | VonNeumann, 2%nat, 1%nat => (* lines 549-553 *)
      [(0, FC 0 (-1) 0); (1, FC (-1) 0 0); (2, FC 0 0 0); (3, FC 1 0 0); (4, FC 0 1 0)]
  | VonNeumann, 2%nat, 2%nat => (* lines 555-567 *)
      [(0, FC 0 (-2) 0); (1, FC (-1) (-1) 0); (2, FC 0 (-1) 0); (3, FC 1 (-1) 0); (4, FC (-2) 0 0);
       (5, FC (-1) 0 0); (6, FC 0 0 0); (7, FC 1 0 0); (9, FC 2 0 0); (10, FC (-1) 1 0); (11, FC 0 1 0);
       (12, FC 1 1 0); (13, FC 0 2 0)]
  | VonNeumann, 3%nat, 1%nat => (* lines 569-575 *)
      [(0, FC 0 0 (-1)); (1, FC 0 (-1) 0); (2, FC (-1) 0 0); (3, FC 0 0 0); (4, FC 1 0 0); (5, FC 0 1 0);
       (6, FC 0 0 1)]
  | _, _, _ => []
  end.

(** [Coords<INDEX>] *)
Definition st_coord (s : stencil) (i : Z) : option fixed :=
  match find (fun e => fst e =? i) (st_table s) with Some e => Some (snd e) | None => None end.
