(** Specification vocabulary for optimizable parameters. *)
From Coq Require Import ZArith QArith List.
From Verif Require Import Base ParamModel.
Import ListNotations.
Open Scope Q_scope.

Definition is_int (q : Q) : Prop := exists z, q == inject_Z z.

(** Parameters as they're set up by users: the granularity is positive and does
    not exceed the extent; sets have elements. *)
Inductive made : param -> Prop :=
| made_interval ty mn mx gran : 0 < gran -> gran <= mx - mn -> (ty = TInt -> is_int mn /\ is_int mx) ->
    made (PInterval (iv_make exact ty mn mx gran))
| made_discrete es s : ds_make es = Some s -> made (PDiscrete s).

(** The declared domain, and the encoding as a real number. *)
Definition in_domain (p : param (N := Q)) : Prop :=
  0 <= p_value exact p < p_max exact p /\
  match p with
  | PInterval i => iv_min i <= p_current p < iv_max i /\ p_current p == iv_min i + p_value exact p /\ (iv_type i = TInt -> is_int (p_current p))
  | PDiscrete s => exists k, p_value exact p == inject_Z (Z.of_nat k) /\ nth_error (ds_elements s) k = Some (p_current p)
  end.

(** The domain isn't changed by assignments. *)
Definition same_domain (p p' : param (N := Q)) : Prop :=
  match p, p' with
  | PInterval i, PInterval i' => iv_type i' = iv_type i /\ iv_min i' = iv_min i /\ iv_max i' = iv_max i /\ iv_gran i' = iv_gran i
  | PDiscrete s, PDiscrete s' => ds_elements s' = ds_elements s
  | _, _ => False
  end.
