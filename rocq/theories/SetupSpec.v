(** Specification vocabulary for the set up of simulations. *)
From Coq Require Import Floats.SpecFloat.
From Verif Require Import Base CoordModel BisectDoubleSpec SetupModel.

(** 2^e in double precision *)
Definition pow2 (e : Z) : spec_float := S754_finite false 4503599627370496 (e - 52).

(** Speeds in double precision: 0 or between 2^-400 and 2^400. *)
Definition running (x : spec_float) : Prop := valid_binary 53 1024 x = true /\ SFleb (pow2 (-400)) x = true /\ SFleb x (pow2 400) = true.
Definition speed_ok (x : spec_float) : Prop := x = S754_zero false \/ running x.

(** The grids and numbers of nodes a partition is made for. *)
Definition suits (kind : partition_kind) (dims : coord) (n : nat) : Prop :=
  match kind with
  | Striping => (length dims <= 3)%nat
  | ZCurve => True
  | Hilbert => length dims = 2%nat
  | HIndexing => exists ny nx, dims = [ny; nx] /\ 2 <= ny /\ 2 <= nx /\ nx <= 4 * ny /\ ny <= 4 * nx
  | Bisection rnd _ => (length dims <= 2)%nat /\ exists N, Forall (fun n => n <= N) dims /\ sane_upto (prod dims) N rnd
  | Checkerboarding _ =>
      length dims = 2%nat \/ length dims = 3%nat /\ Z.of_nat n < (nth 1 dims 0 + 1) * (nth 1 dims 0 + 1)
  end.

(** Some partitions can't do with nodes without cells. *)
Definition suits_weights (kind : partition_kind) (weights : list Z) : Prop :=
  match kind with Bisection _ _ => Forall (fun x => 0 < x) weights | _ => True end.
