(** Parameters of optimizers: Interval and DiscreteSet. Definitions only.

    Source: /repo/src/libgeodecomp/misc/simulationparameters.h.

    The code computes with double. Its operations are parameters here, so that
    they can be read as exact arithmetic on rationals or as arithmetic on IEEE
    754 numbers. [None] is undefined behaviour: converting a double which isn't
    finite to an integer, or accessing an element which doesn't exist. Ranges
    of long and int aren't modelled. *)
From Coq Require Import ZArith QArith Qround List Bool.
From Coq.Floats Require Import SpecFloat.
From Verif Require Import Base RegionOpsModel.
Import ListNotations.
Open Scope Z_scope.

(** ** Numbers *)

Record arith (N : Type) := mkArith {
  a_add : N -> N -> N; a_sub : N -> N -> N; a_mul : N -> N -> N; a_div : N -> N -> N;
  a_lt : N -> N -> bool; a_le : N -> N -> bool;
  a_trunc : N -> option Z; (* conversion to integers, towards zero *)
  a_ofZ : Z -> N;
}.
Arguments a_add {N}. Arguments a_sub {N}. Arguments a_mul {N}. Arguments a_div {N}.
Arguments a_lt {N}. Arguments a_le {N}. Arguments a_trunc {N}. Arguments a_ofZ {N}.

(** Exact arithmetic. *)
Definition qtrunc (q : Q) : Z := if Qle_bool 0 q then Qfloor q else - Qfloor (- q).
Definition exact : arith Q :=
  mkArith Q Qplus Qminus Qmult Qdiv (fun a b => negb (Qle_bool b a)) Qle_bool (fun q => Some (qtrunc q)) inject_Z.

(** IEEE 754 double precision, rounding to nearest, as specified by the
    standard library. *)
Definition sf_trunc (f : spec_float) : option Z :=
  match f with
  | S754_zero _ => Some 0
  | S754_finite s m e =>
      let a := if 0 <=? e then Zpos m * 2 ^ e else Zpos m / 2 ^ (- e) in Some (if s then - a else a)
  | _ => None
  end.
Definition ieee : arith spec_float :=
  mkArith spec_float (SFadd 53 1024) (SFsub 53 1024) (SFmul 53 1024) (SFdiv 53 1024) SFltb SFleb sf_trunc
    (fun z => binary_normalize 53 1024 z 0 false).

(** VALUE_TYPE of an Interval. *)
Inductive value_type := TInt | TDouble.

(** ** Interval *)

Section Params.
Context {N : Type} (A : arith N).

(** Conversion to VALUE_TYPE. *)
Definition conv (ty : value_type) (x : N) : option N :=
  match ty with TInt => option_map (a_ofZ A) (a_trunc A x) | TDouble => Some x end.

Record interval := mkInterval { iv_type : value_type; iv_min : N; iv_max : N; iv_gran : N; iv_index : N; iv_current : N }.

(** Constructor (simulationparameters.h:229-235) *)
Definition iv_make (ty : value_type) (mn mx gran : N) : interval := mkInterval ty mn mx gran (a_ofZ A 0) mn.

(** [getMax], [getValue] (simulationparameters.h:247-255); [getMin] is 0
    (242-245). *)
Definition iv_getMax (i : interval) : N := a_sub A (iv_max i) (iv_min i).
Definition iv_getValue (i : interval) : N := iv_index i.

(** [Parameter::sanitizeIndex] (simulationparameters.h:166-176) *)
Definition sanitize (mx gran x : N) : N :=
  let x1 := if a_lt A x (a_ofZ A 0) then a_ofZ A 0 else x in
  if a_le A mx x1 then a_sub A mx gran else x1.

Definition iv_sanitize (i : interval) (x : N) : option N := conv (iv_type i) (sanitize (iv_getMax i) (iv_gran i) x).

Definition iv_put (i : interval) (x : N) : interval :=
  mkInterval (iv_type i) (iv_min i) (iv_max i) (iv_gran i) x (a_add A (iv_min i) x).

(** The steps shared by setValue and operator+= if the granularity is
    positive. *)
Definition iv_snap (i : interval) (x : N) : option N :=
  obind (conv (iv_type i) x) (fun x1 =>
  obind (a_trunc A (a_div A x1 (iv_gran i))) (fun steps =>
  obind (conv (iv_type i) (a_mul A (a_ofZ A steps) (iv_gran i))) (iv_sanitize i))).

(** [setValue] (simulationparameters.h:257-268) *)
Definition iv_set (i : interval) (v : N) : option interval :=
  option_map (iv_put i) (if a_lt A (a_ofZ A 0) (iv_gran i) then iv_snap i v else iv_sanitize i v).

(** [operator+=] (simulationparameters.h:275-287) *)
Definition iv_add (i : interval) (step : N) : option interval :=
  let x := a_add A (iv_index i) step in
  option_map (iv_put i) (if a_lt A (a_ofZ A 0) (iv_gran i) then iv_snap i x else obind (conv (iv_type i) x) (iv_sanitize i)).

(** ** DiscreteSet; elements are numbered *)

Record discrete := mkDiscrete { ds_elements : list N; ds_index : Z; ds_current : N }.

(** Constructor (simulationparameters.h:315-319); front() of an empty vector is
    undefined. *)
Definition ds_make (es : list N) : option discrete := match es with [] => None | e :: _ => Some (mkDiscrete es 0 e) end.

Definition ds_getValue (s : discrete) : N := a_ofZ A (ds_index s).

Definition ds_put (s : discrete) (x : N) : option discrete :=
  obind (a_trunc A (sanitize (a_ofZ A (Z.of_nat (length (ds_elements s)))) (a_ofZ A 1) x)) (fun j =>
  if j <? 0 then None
  else option_map (mkDiscrete (ds_elements s) j) (nth_error (ds_elements s) (Z.to_nat j))).

(** [setValue] (simulationparameters.h:341-345), which doesn't make use of its
    argument. *)
Definition ds_set (s : discrete) (v : N) : option discrete := ds_put s (a_ofZ A (ds_index s)).

(** [operator+=] (simulationparameters.h:352-358) *)
Definition ds_add (s : discrete) (step : N) : option discrete :=
  obind (a_trunc A (a_add A (a_ofZ A (ds_index s)) step)) (fun j => ds_put s (a_ofZ A j)).

(** ** Parameters *)

Inductive param := PInterval (i : interval) | PDiscrete (s : discrete).

Definition p_set (p : param) (v : N) : option param :=
  match p with PInterval i => option_map PInterval (iv_set i v) | PDiscrete s => option_map PDiscrete (ds_set s v) end.
Definition p_add (p : param) (v : N) : option param :=
  match p with PInterval i => option_map PInterval (iv_add i v) | PDiscrete s => option_map PDiscrete (ds_add s v) end.
Definition p_value (p : param) : N := match p with PInterval i => iv_getValue i | PDiscrete s => ds_getValue s end.
Definition p_max (p : param) : N :=
  match p with PInterval i => iv_getMax i | PDiscrete s => a_ofZ A (Z.of_nat (length (ds_elements s))) end.
Definition p_gran (p : param) : N := match p with PInterval i => iv_gran i | PDiscrete _ => a_ofZ A 1 end.
Definition p_current (p : param) : N := match p with PInterval i => iv_current i | PDiscrete s => ds_current s end.

(** What an optimizer may do with a parameter. *)
Inductive pop := OSet (v : N) | OAdd (v : N).
Definition p_op (p : param) (o : pop) : option param := match o with OSet v => p_set p v | OAdd v => p_add p v end.
Fixpoint p_ops (p : param) (os : list pop) : option param :=
  match os with [] => Some p | o :: os' => obind (p_op p o) (fun p' => p_ops p' os') end.
End Params.
