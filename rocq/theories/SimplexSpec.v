(** Specification vocabulary for simplex search. *)
From Coq Require Import ZArith QArith List.
From Verif Require Import Base RegionOpsModel ParamModel ParamSpec SimplexModel.
Import ListNotations.
Open Scope Q_scope.

Notation params := (list (param (N := Q))).

(** Parameters as users may hand them over: set up, then possibly assigned. *)
Definition prepared (p : param (N := Q)) : Prop := exists p0 os, made p0 /\ p_ops exact p0 os = Some p.

(** The extent is a multiple of the granularity, which is an integer for
    integral intervals. *)
Definition regular (p : param (N := Q)) : Prop :=
  match p with
  | PInterval i => (exists m, iv_max i - iv_min i == inject_Z m * iv_gran i) /\ (iv_type i = TInt -> is_int (iv_gran i))
  | PDiscrete _ => True
  end.

(** Parameters within the domains of those which were handed over. *)
Definition admissible (ps q : params) : Prop := Forall2 (fun p p' => same_domain p p' /\ in_domain p') ps q.

(** Parameters which evaluators can't tell apart. *)
Definition alike (p p' : param (N := Q)) : Prop :=
  same_domain p p' /\ p_value exact p == p_value exact p' /\ p_current p == p_current p'.

(** Fitness depends on the values only; it's zero, or a positive number which
    isn't tiny. *)
Definition proper (dmin dmax : Q) (eval : params -> Q) : Prop :=
  0 < dmin /\ (forall a b, Forall2 alike a b -> eval a == eval b) /\ forall a, (eval a == 0 \/ dmin <= eval a) /\ eval a <= dmax.

(** Successive calls of one optimizer: for each the parameters returned, the
    fitness reported and the parameters evaluated. *)
Fixpoint searches (dmin dmax : Q) (eval : params -> Q) (calls : list Z) (s : simplex Q) : option (list (params * Q * list params)) :=
  match calls with
  | [] => Some []
  | n :: calls' =>
      obind (search exact dmin dmax eval n s) (fun r =>
      let '(s', q, log) := r in option_map (cons (q, x_fitness s', log)) (searches dmin dmax eval calls' s'))
  end.
