(** C224, C225: RandomBalancer in double precision. *)
From Coq Require Import Floats.SpecFloat.
From Verif Require Import Base RegionOpsModel ParamModel BalancerModel BalancerSpec BalancerProps RandomDoubleModel RandomDoubleFacts.

(** Numbers of a generator for [unsigned] *)
Definition generated (raw : nat -> Z) : Prop := forall i, 0 <= raw i < 2 ^ 32.

(** At least one of the numbers drawn for [n] nodes isn't 0. *)
Definition some_positive (raw : nat -> Z) (n : nat) : Prop := exists i, (i < n)%nat /\ raw i mod (2 ^ 32 - 1) <> 0.

Lemma index_ok raw n i : (0 < n)%nat -> (Z.to_nat (gen_unsigned (raw (n + i)%nat) (Z.of_nat n)) < n)%nat.
Proof. intros H. unfold gen_unsigned. pose proof (Z.mod_pos_bound (raw (n + i)%nat) (Z.of_nat n) ltac:(lia)). lia. Qed.

(** ** C224: nothing is lost by rounding *)

Theorem C224_random_double : forall raw weights,
  some_positive raw (length weights) -> Forall (fun w => 0 <= w) weights ->
  Z.of_nat (length weights) <= 2 ^ 30 -> fold_right Z.add 0 weights * (2 * Z.of_nat (length weights) + 3) <= 2 ^ 52 ->
  exists l, random_balance_in ieee raw weights = Some l /\ distributes (length weights) (fold_right Z.add 0 weights) l.
Proof.
  intros raw weights Hx Hw Hn Hb. pose proof (zsum_nonneg weights Hw) as HW. rewrite <- zsum_right in *.
  assert (Hpos : (0 < length weights)%nat) by (destruct Hx as (i & Hi & _); lia).
  destruct (scaled_fill_ok raw (length weights) (zsum weights) Hn HW Hb Hx) as (ret & E & L & P & R).
  unfold random_balance_in. rewrite E. cbn [obind]. eexists. split; [reflexivity|]. rewrite <- zsum_right in R.
  set (ks := map _ (seq 0 _)). destruct (scatter_ok ks ret) as (L' & P' & S').
  { apply Forall_forall. intros k Hk. apply in_map_iff in Hk. destruct Hk as (i & <- & _). rewrite L. now apply index_ok. }
  { exact P. }
  split; [congruence|]. split; [exact P'|]. rewrite <- zsum_right, S'. unfold ks. rewrite map_length, seq_length. unfold scatter_count.
  rewrite Z.mod_small by lia. lia.
Qed.
Print Assumptions C224_random_double.

Definition ex_raw (i : nat) : Z := (Z.of_nat (S i) * 1103515245 + 12345) mod 2 ^ 32.

Example C224_example :
  some_positive ex_raw 4 /\ 1000017 * (2 * 4 + 3) <= 2 ^ 52 /\
  random_balance_in ieee ex_raw [5; 0; 1000000; 12] = Some [163725; 327448; 491172; 17672] /\
  163725 + 327448 + 491172 + 17672 = 5 + 0 + 1000000 + 12.
Proof. split; [exists 0%nat; split; [lia|vm_compute; discriminate]|]. split; [vm_compute; discriminate|]. split; vm_compute; reflexivity. Qed.

(** ** C225: what the balancer gets wrong *)

(** If all numbers drawn are 0, the balancer divides 0 by 0, and converting the
    result is undefined. *)
Theorem C225_zero_refuted : exists raw weights,
  generated raw /\ weights <> [] /\ Forall (fun w => 0 <= w) weights /\ fold_right Z.add 0 weights = 17 /\ random_balance_in ieee raw weights = None.
Proof.
  exists (fun i => if Nat.even i then 0 else 2 ^ 32 - 1), [5; 12]. split; [intros i; destruct (Nat.even i); lia|]. split; [discriminate|].
  split; [repeat constructor; lia|]. split; [reflexivity|vm_compute; reflexivity].
Qed.
Print Assumptions C225_zero_refuted.

Lemma total_of raw weights ret : (0 < length weights)%nat -> scaled_fill ieee (random_base ieee raw (length weights)) (zsum weights) = Some ret ->
  length ret = length weights -> Forall (fun w => 0 <= w) ret ->
  exists l, random_balance_in ieee raw weights = Some l /\ zsum l = zsum ret + (zsum weights - zsum ret) mod 2 ^ 32.
Proof.
  intros Hpos E L P. unfold random_balance_in. rewrite E. cbn [obind]. eexists. split; [reflexivity|]. set (ks := map _ (seq 0 _)).
  destruct (scatter_ok ks ret) as (_ & _ & S').
  { apply Forall_forall. intros k Hk. apply in_map_iff in Hk. destruct Hk as (i & <- & _). rewrite L. now apply index_ok. }
  { exact P. }
  rewrite S'. unfold ks. rewrite map_length, seq_length. unfold scatter_count. pose proof (Z.mod_pos_bound (zsum weights - zsum ret) (2 ^ 32) ltac:(lia)). lia.
Qed.

(** Totals which aren't doubles may be rounded up. Then the remainder is
    negative, and converting it to [unsigned] adds 2^32 items. *)
Theorem C225_total_refuted : exists raw weights l,
  generated raw /\ some_positive raw (length weights) /\ Forall (fun w => 0 <= w < 2 ^ 63) weights /\
  random_balance_in ieee raw weights = Some l /\ fold_right Z.add 0 l = fold_right Z.add 0 weights + 2 ^ 32.
Proof.
  set (raw := fun _ : nat => 2 ^ 32 - 2). destruct (total_of raw [2 ^ 53 + 3] [2 ^ 53 + 4]) as (l & E & S).
  - cbn. lia.
  - vm_compute. reflexivity.
  - reflexivity.
  - repeat constructor; lia.
  - exists raw, [2 ^ 53 + 3], l. split; [intros i; unfold raw; lia|]. split; [exists 0%nat; split; [cbn; lia|discriminate]|].
    split; [repeat constructor; lia|]. split; [exact E|]. rewrite <- !zsum_right, S. reflexivity.
Qed.
Print Assumptions C225_total_refuted.
