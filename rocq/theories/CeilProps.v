(** C228: quotients which are rounded up in double precision *)
From Coq Require Import Floats.SpecFloat.
From Verif Require Import Base ParamModel CeilModel CeilFacts.

(** [k] is [a / b], rounded up. *)
Definition rounded_up (a b k : Z) : Prop := (k - 1) * b < a <= k * b.

Lemma ceil_div_up a b : 1 <= b -> rounded_up a b (- ((- a) / b)).
Proof. intros Hb. unfold rounded_up. pose proof (Z.div_mod (- a) b ltac:(lia)). pose proof (Z.mod_pos_bound (- a) b ltac:(lia)). nia. Qed.

(** The number of blocks of CUDASimulator *)
Theorem C228_blocks : forall n block, - 2 ^ 31 <= n < 2 ^ 31 -> 1 <= block < 2 ^ 32 ->
  exists k, cuda_ceil n block = Some k /\ rounded_up n block k.
Proof.
  intros n block Hn Hb. exists (- ((- n) / block)). split; [apply cuda_ceil_ok; lia|now apply ceil_div_up].
Qed.
Print Assumptions C228_blocks.

(** The end of the cells which Plotter draws *)
Theorem C228_plotter : forall origin dim cell, - 2 ^ 31 <= origin < 2 ^ 31 -> - 2 ^ 31 <= dim < 2 ^ 31 -> 1 <= cell < 2 ^ 31 ->
  exists k, plot_ceil origin dim cell = Some k /\ rounded_up (origin + dim) cell k.
Proof.
  intros origin dim cell Ho Hd Hc. exists (- ((- (origin + dim)) / cell)). split; [apply plot_ceil_ok; lia|now apply ceil_div_up].
Qed.
Print Assumptions C228_plotter.

Example C228_example : cuda_ceil 2147483647 3 = Some 715827883 /\ cuda_ceil 128 32 = Some 4 /\ plot_ceil (-17) 4 5 = Some (-2) /\ plot_ceil 2147483647 2147483647 7 = Some 613566757.
Proof. split; [vm_compute; reflexivity|]. split; [vm_compute; reflexivity|]. split; vm_compute; reflexivity. Qed.
