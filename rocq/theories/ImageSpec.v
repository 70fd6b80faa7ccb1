(** What pictures should look like. *)
From Verif Require Import Base RegionSpec CoordModel PatchModel GridModel ImageModel.
From Coq Require Import QArith.
Local Open Scope Z_scope.

(** An Image of [w] times [h] pixels, as seen via [operator[]]. *)
Definition picture (w h : Z) (i : image) (f : Z -> Z -> color) : Prop :=
  g_dim i = [h; w] /\ length (g_cells i) = Z.to_nat (w * h) /\
  forall x y, 0 <= x < w -> 0 <= y < h -> grid_get flat i [y; x] = Some (f x y).

(** The pixel belongs to a rectangle. *)
Definition inside_rect (ux uy w h x y : Z) : bool := (ux <=? x) && (x <? ux + w) && (uy <=? y) && (y <? uy + h).

(** ** Colors *)

Definition byte (x : Z) : Prop := 0 <= x < 256.

(** Opaque colors. *)
Definition opaque (c : color) : Prop := 255 * 2 ^ 24 <= c < 2 ^ 32.

(** The color assigned to a value most recently, given the calls of addColor. *)
Definition assigned {N} (same : N -> N -> Prop) (calls : list (N * color)) (v : N) (c : color) : Prop :=
  exists l1 k l2, calls = l1 ++ (k, c) :: l2 /\ same k v /\ forall k' c', In (k', c') l2 -> ~ same k' v.

(** [z] is the exact value, rounded down. *)
Definition rounded_down (z : Z) (q : Q) : Prop := (inject_Z z <= q < inject_Z (z + 1))%Q.

(** Linear interpolation: weights are the distances to the other end. *)
Definition between (a b v : Q) (ca cb : Z) : Q := ((inject_Z ca * (b - v) + inject_Z cb * (v - a)) / (b - a))%Q.

(** QuickPalette: blue, cyan, green, yellow, red at the quarters of the range.
    [t] is the position within the range, in quarters. *)
Definition clamp01 (q : Q) : Q := (if Qle_bool q 0 then 0 else if Qle_bool 1 q then 1 else q)%Q.
Definition quarters (mn mx v : Q) : Q := (4 * (v - mn) / (mx - mn))%Q.
Definition ramp_red (t : Q) : Q := (255 * clamp01 (t - 2))%Q.
Definition ramp_green (t : Q) : Q := (255 * clamp01 (if Qle_bool t 2 then t else 4 - t))%Q.
Definition ramp_blue (t : Q) : Q := (255 * clamp01 (2 - t))%Q.

(** ** PPM *)

(** A reader of binary PPM files with one byte per component and no comments:
    magic number, width, height, maximum, and the pixels row by row. *)
Fixpoint read_number (acc : Z) (l : list Z) : Z * list Z :=
  match l with
  | b :: l' => if (48 <=? b) && (b <=? 57) then read_number (10 * acc + (b - 48)) l' else (acc, l)
  | [] => (acc, l)
  end.

Definition is_space (b : Z) : bool := (b =? 32) || (b =? 10).

Fixpoint read_pixels (n : nat) (l : list Z) : option (list (Z * Z * Z)) :=
  match n, l with
  | O, [] => Some []
  | S n', r :: g :: b :: l' => option_map (cons (r, g, b)) (read_pixels n' l')
  | _, _ => None
  end.

Definition read_ppm (l : list Z) : option (Z * Z * list (Z * Z * Z)) :=
  match l with
  | 80 :: 54 :: s1 :: l1 =>
      match read_number 0 l1 with
      | (w, s2 :: l2) =>
          match read_number 0 l2 with
          | (h, s3 :: l3) =>
              match read_number 0 l3 with
              | (255, s4 :: l4) =>
                  if is_space s1 && is_space s2 && is_space s3 && is_space s4 then
                    option_map (pair (w, h)) (read_pixels (Z.to_nat (w * h)) l4)
                  else None
              | _ => None
              end
          | _ => None
          end
      | _ => None
      end
  | _ => None
  end.

(** The pixels of a picture, row by row. *)
Definition rows {X} (w h : Z) (f : Z -> Z -> X) : list X :=
  flat_map (fun y => map (fun x => f x y) (zrange 0 w)) (zrange 0 h).
