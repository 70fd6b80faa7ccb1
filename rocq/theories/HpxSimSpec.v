(** Specification vocabulary for simulations on top of HPX. *)
From Verif Require Import Base AdapterModel StepperModel HpxSimModel.

(** All nodes have performed their steps. *)
Definition hfinished {C} (st : hsim C) : Prop :=
  forall i nd, nth_error (hs_nodes st) i = Some nd -> n_pc nd = PStep /\ n_left nd = O.

(** It doesn't matter in which order two of the steerers act on a cell. *)
Definition steerers_commute {C} (sts : list (nat * @action C)) : Prop :=
  forall i j p q f g, i <> j -> nth_error sts i = Some (p, f) -> nth_error sts j = Some (q, g) ->
    forall s e c x, f s e c (g s e c x) = g s e c (f s e c x).
