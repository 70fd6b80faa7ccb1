(** The cuts of RecursiveBisectionPartition in double precision
    (geometry/partitions/recursivebisectionpartition.h). *)
From Coq Require Import Floats.SpecFloat.
From Verif Require Import Base ParamModel.

(** [round] of the standard library: to the nearest integer, halves away from
    zero. [None] for infinities and NaN, whose conversion to int is
    undefined. *)
Definition sf_round (f : spec_float) : option Z :=
  match f with
  | S754_zero _ => Some 0
  | S754_finite s m e =>
      let a := if 0 <=? e then Zpos m * 2 ^ e else (2 * Zpos m + 2 ^ (- e)) / (2 * 2 ^ (- e)) in Some (if s then - a else a)
  | _ => None
  end.

(** The ratio [1.0 * (middle - begin) / (end - begin)] of weights and
    [round(ratio * dim[longestDim])] (recursivebisectionpartition.h:92, 118).
    The weights are unsigned integers, [dim] holds ints; all are converted to
    double, rounding to nearest. Undefined conversions yield -1, which is no
    valid cut. *)
Definition round_double (num den n : Z) : Z :=
  let ratio := a_div ieee (a_mul ieee (a_ofZ ieee 1) (a_ofZ ieee num)) (a_ofZ ieee den) in
  match sf_round (a_mul ieee ratio (a_ofZ ieee n)) with Some z => z | None => -1 end.
