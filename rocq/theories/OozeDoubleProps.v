(** C226, C227: OozeBalancer in double precision. *)
From Coq Require Import QArith Floats.SpecFloat.
From Verif Require Import Base ParamModel BalancerModel BalancerSpec BalancerProps SetupSpec OozeDoubleModel OozeDoubleFacts.

(** The double closest to [a/b], for small integers *)
Definition dec (a b : Z) : spec_float := a_div ieee (a_ofZ ieee a) (a_ofZ ieee b).

(** ** C226: rounding errors make the balancer throw *)

(** With exact numbers the balancer succeeds. In double precision the optimum's
    last share is slightly too small, hence rounded down, and only one of the
    two missing items is made up for. *)
Theorem C226_ooze_double_refuted : exists weights (loads : list spec_float) (qloads : list Q),
  Forall2 (fun x q => x = dec (Qnum q) (QDen q)) loads qloads /\ Forall (fun q => 0 < q /\ q < 1)%Q qloads /\
  Forall running loads /\ Forall (fun w => 0 < w)%Z weights /\ length loads = length weights /\
  (exists l, ooze_balance (1 # 2) weights qloads = Some l /\ distributes (length weights) (fold_right Z.add 0%Z weights) l) /\
  ooze_balance_in ieee (dec 1 2) weights loads = OozeLogicError.
Proof.
  exists [1; 1; 1]%Z, [dec 4 10; dec 2 10; dec 3 10], [4 # 10; 2 # 10; 3 # 10]. split; [repeat constructor|]. split; [repeat constructor|].
  split; [constructor; [|constructor; [|constructor; [|constructor]]]; (split; [|split]; vm_compute; reflexivity)|].
  split; [repeat constructor|]. split; [reflexivity|]. split; [|vm_compute; reflexivity].
  exists [0; 1; 2]%Z. split; [vm_compute; reflexivity|]. split; [reflexivity|]. split; [repeat constructor; discriminate|reflexivity].
Qed.
Print Assumptions C226_ooze_double_refuted.

(** ** C227: nothing worse happens *)

(** A weight of new loads which the constructor accepts *)
Definition unit_weight (x : spec_float) : Prop := valid_binary 53 1024 x = true /\ SFleb (dec 0 1) x = true /\ SFleb x (dec 1 1) = true.

(** The balancer either distributes all items, or it throws an exception. *)
Theorem C227_ooze_defined : forall weight weights loads,
  unit_weight weight -> weights <> [] -> length loads = length weights -> (Z.of_nat (length weights) <= 2 ^ 50)%Z ->
  Forall (fun w => 0 <= w)%Z weights -> (fold_right Z.add 0 weights <= 2 ^ 50)%Z -> Forall speed_ok loads ->
  (exists l, ooze_balance_in ieee weight weights loads = OozeWeights l /\ distributes (length weights) (fold_right Z.add 0%Z weights) l) \/
  ooze_balance_in ieee weight weights loads = OozeLogicError.
Proof.
  intros weight weights loads (V & W0 & W1) Hne Ll Hn Hw HT Hl. rewrite <- zsum_right in *. pose proof (zsum_nonneg weights Hw) as HW.
  destruct (ooze_defined weight weights loads) as [(l & E & L & P & S)|E]; auto.
  - now apply unit_within.
  - clear - Hw. induction Hw as [|w ws H Hw IH]; [constructor|]. rewrite zsum_cons. pose proof (zsum_nonneg ws Hw). constructor; [lia|].
    eapply Forall_impl; [|exact IH]. cbn. lia.
  - left. exists l. split; [exact E|]. split; [exact L|]. split; [exact P|]. now rewrite <- zsum_right.
Qed.
Print Assumptions C227_ooze_defined.

Example C227_example :
  unit_weight (dec 1 2) /\ Forall speed_ok [dec 2 10; dec 6 10; dec 0 1; dec 1 10] /\
  ooze_balance_in ieee (dec 1 2) [4; 3; 0; 3]%Z [dec 2 10; dec 6 10; dec 0 1; dec 1 10] = OozeWeights [4; 2; 0; 4]%Z.
Proof.
  split; [split; [|split]; vm_compute; reflexivity|].
  split; [|vm_compute; reflexivity].
  constructor; [right; split; [|split]; vm_compute; reflexivity|]. constructor; [right; split; [|split]; vm_compute; reflexivity|].
  constructor; [left; vm_compute; reflexivity|]. constructor; [right; split; [|split]; vm_compute; reflexivity|]. constructor.
Qed.
