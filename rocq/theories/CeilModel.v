(** Quotients which are rounded up in double precision. Definitions only.

    Sources: parallelization/cudasimulator.h, io/plotter.h. *)
From Coq Require Import Floats.SpecFloat.
From Verif Require Import Base ParamModel.

(** [ceil], converted to an integer; [None]: not a finite number *)
Definition sf_ceil (f : spec_float) : option Z :=
  match f with
  | S754_zero _ => Some 0
  | S754_finite s m e =>
      let z := if s then Zneg m else Zpos m in
      Some (if 0 <=? e then z * 2 ^ e else - ((- z) / 2 ^ (- e)))
  | _ => None
  end.

(** [ceil(1.0 * initGridDim[d] / blockSize[d])] (cudasimulator.h:398) *)
Definition cuda_ceil (n block : Z) : option Z :=
  sf_ceil (a_div ieee (a_mul ieee (a_ofZ ieee 1) (a_ofZ ieee n)) (a_ofZ ieee block)).

(** [int(ceil((double(viewport.origin.x()) + viewport.dimensions.x()) / cellDim.x()))] (plotter.h:63-64) *)
Definition plot_ceil (origin dim cell : Z) : option Z :=
  sf_ceil (a_div ieee (a_add ieee (a_ofZ ieee origin) (a_ofZ ieee dim)) (a_ofZ ieee cell)).
