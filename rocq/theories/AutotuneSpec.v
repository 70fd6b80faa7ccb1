(** Specification vocabulary for simulation factories and autotuning. *)
From Coq Require Import ZArith QArith List String.
From Verif Require Import Base RegionOpsModel ParamModel ProxyModel AutotuneModel.
Import ListNotations.
Open Scope Z_scope.

Section Spec.
Context {P : Type}.

(** Objects have been created before, each of them once. *)
Definition world_ok (w : world (P := P)) : Prop := NoDup (w_alive w) /\ (forall h, In h (w_alive w) -> (h < w_next w)%nat).

(** Simulators of CUDA factories may fail, the failure is the fitness then. *)
Definition reported {N : Type} (A : arith N) (dmin : N) (k : kind) (d : option N) : option N :=
  match d, k with Some t, _ => Some (a_mul A t (a_ofZ A (-1))) | None, KCuda => Some dmin | None, _ => None end.

(** Optimizers which report a fitness they have measured, or none at all. *)
Fixpoint honest {N : Type} (dmin : N) (seen : list N) (s : strategy (N := N) (P := P)) : Prop :=
  match s with
  | Finish _ x => In x (dmin :: seen)
  | Try _ k => forall x, honest dmin (x :: seen) (k x)
  end.
End Spec.

(** Simulators whose runs take [c] seconds per step. *)
Definition steady {P : Type} (c : Q) (trace : list (run (P := P))) : option Q :=
  match rev trace with [] => None | r :: _ => Some (c * inject_Z (r_max r - r_start r))%Q end.
