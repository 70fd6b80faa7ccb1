(** RandomBalancer with any arithmetic, and the numbers it draws. Definitions
    only.

    Sources: loadbalancer/randombalancer.cpp, misc/random.h.

    Simplification: [long] is unbounded, [unsigned] has 32 bits. The generator
    itself (misc/random.cpp) is a parameter: [raw i] is the [i]-th number
    which [randomMT] returns. *)
From Verif Require Import Base RegionOpsModel PartitionManagerModel ParamModel BalancerModel.

(** [Limits<unsigned>::getMax()] (misc/limits.h:23-36) *)
Definition uint_max : Z := 2 ^ 32 - 1.

(** [Random::genUnsigned] (misc/random.h:18-21) *)
Definition gen_unsigned (raw max : Z) : Z := raw mod max.

Section Random.
Context {N : Type} (A : arith N).

(** [Random::genDouble(1.0)] (misc/random.h:23-26) *)
Definition gen_double (raw : Z) : N :=
  a_mul A (a_div A (a_ofZ A (gen_unsigned raw uint_max)) (a_ofZ A uint_max)) (a_ofZ A 1).

(** The independent fill (randombalancer.cpp:14-16) *)
Definition random_base (raw : nat -> Z) (n : nat) : list N := map (fun i => gen_double (raw i)) (seq 0 n).

(** The sum of the numbers drawn (randombalancer.cpp:19-24) *)
Definition random_sum (base : list N) : N := fold_left (a_add A) base (a_ofZ A 0).

(** The scaled fill (randombalancer.cpp:28-31); [None]: conversion of a number
    that isn't finite. *)
Definition scaled_fill (base : list N) (loads_sum : Z) : option (list Z) :=
  let rand_sum := random_sum base in
  mapo (fun b => a_trunc A (a_div A (a_mul A b (a_ofZ A loads_sum)) rand_sum)) base.

(** The number of iterations of the loop which scatters the remainder
    (randombalancer.cpp:34): the remainder is converted to [unsigned]. *)
Definition scatter_count (remainder : Z) : nat := Z.to_nat (remainder mod 2 ^ 32).

(** [RandomBalancer::balance] (randombalancer.cpp:6-39) *)
Definition random_balance_in (raw : nat -> Z) (weights : list Z) : option (list Z) :=
  let n := length weights in
  let loads_sum := zsum weights in
  obind (scaled_fill (random_base raw n) loads_sum) (fun ret =>
  let remainder := loads_sum - zsum ret in
  Some (scatter ret (map (fun i => Z.to_nat (gen_unsigned (raw (n + i)%nat) (Z.of_nat n))) (seq 0 (scatter_count remainder))))).
End Random.
