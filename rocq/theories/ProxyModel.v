(** VarStepInitializerProxy. Definitions only.

    Source: /repo/src/libgeodecomp/io/varstepinitializerproxy.h. The wrapped
    initializer is represented by its start and max step; [unsigned] is
    modelled with its wrap-around at 2^32. Only the step counters are
    modelled, all other calls are forwarded as they are. *)
From Verif Require Import Base.

(** [unsigned] arithmetic *)
Definition u32 (x : Z) : Z := x mod 2 ^ 32.

Record wrapped := mkWrapped { w_start : Z; w_max : Z }.

(** The members (varstepinitializerproxy.h:100-101) *)
Record proxy := mkProxy { x_obj : wrapped; x_new : Z }.

(** The constructor (varstepinitializerproxy.h:30-35) *)
Definition proxy_make (w : wrapped) : proxy := mkProxy w (w_max w).

(** [resetMaxSteps] (varstepinitializerproxy.h:41-44) *)
Definition proxy_reset (x : proxy) : proxy := mkProxy (x_obj x) (u32 (w_max (x_obj x) - w_start (x_obj x))).

(** [setMaxSteps] (varstepinitializerproxy.h:49-51) *)
Definition proxy_set (x : proxy) (n : Z) : proxy := mkProxy (x_obj x) n.

(** [startStep] (varstepinitializerproxy.h:69-72) *)
Definition proxy_start (x : proxy) : Z := w_start (x_obj x).

(** [maxSteps] (varstepinitializerproxy.h:78-81) *)
Definition proxy_max (x : proxy) : Z := u32 (w_start (x_obj x) + x_new x).

(** [clone] (varstepinitializerproxy.h:89-92): the implicit copy
    constructor. *)
Definition proxy_clone (x : proxy) : proxy := mkProxy (x_obj x) (x_new x).

(** What clients may do with a proxy, in any order. *)
Inductive proxy_op := XReset | XSet (n : Z) | XClone.

Definition proxy_do (x : proxy) (o : proxy_op) : proxy :=
  match o with XReset => proxy_reset x | XSet n => proxy_set x n | XClone => proxy_clone x end.
