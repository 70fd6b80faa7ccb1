(** Properties C233-C236: filters for GPUs. *)
From Coq Require Import Permutation.
From Verif Require Import Base ListFacts RegionSpec RegionStreaks RegionOpsModel GridModel GridFacts SellFacts SoAModel CudaFilterModel CudaFilterSpec CudaFilterFacts.

Section ArrayProofs.
Context {V : Type} (order : Z -> list (Z * Z)) (junk : Z -> V) (A : Z) (Ho : any_order1 order) (HA : 0 < A <= 2147483647).

Lemma out_pairs_sound (src tgt : list V) num stride : 0 < num -> num <= stride -> num * A <= Z.of_nat (length tgt) -> (A - 1) * stride + num <= Z.of_nat (length src) ->
  sound (vec_get src) (host_pairs A (fun i j => (i * A + j, j * stride + i)) num) tgt.
Proof using HA.
  clear order junk Ho. intros Hn Hs Ht Hl. split.
  - intros p s Hi. apply host_pairs_mem in Hi. destruct Hi as (i & j & Hi & Hj & E). injection E as -> ->. split; [nia|]. destruct (vec_get_in src (j * stride + i)) as (v & Ev); [nia|congruence].
  - intros p s s' Hi Hi'. apply host_pairs_mem in Hi, Hi'. destruct Hi as (i & j & Hi & Hj & E), Hi' as (i' & j' & Hi' & Hj' & E'). injection E as -> ->. injection E' as Ep ->.
    destruct (split_unique A i j i' j') as [-> ->]; auto.
Qed.

Lemma aggregate_same (src tgt : list V) num stride : 0 < num <= 2147483647 -> num <= stride -> num * A <= Z.of_nat (length tgt) -> (A - 1) * stride + num <= Z.of_nat (length src) ->
  aggregate_array order A src tgt num stride = host_array_out A src tgt num stride.
Proof using Ho HA.
  clear junk. intros Hn Hs Ht Hl. unfold aggregate_array, host_array_out. rewrite launch_each by lia. symmetry. apply copy_same; [reflexivity| |apply out_pairs_sound; lia].
  intros w. rewrite host_pairs_mem, (strided_all order Ho (fun b i => (b * A + i, i * stride + b))). reflexivity.
Qed.

Lemma host_out_spec (src tgt : list V) num stride : 0 < num -> num <= stride -> num * A <= Z.of_nat (length tgt) -> (A - 1) * stride + num <= Z.of_nat (length src) ->
  exists m, host_array_out A src tgt num stride = Some m /\ same_elements A num stride m src /\ length m = length tgt /\ forall p, num * A <= p -> vec_get m p = vec_get tgt p.
Proof using HA.
  clear order junk Ho. intros Hn Hs Ht Hl. pose proof (out_pairs_sound src tgt num stride Hn Hs Ht Hl) as Hso. destruct (copy_spec assign (vec_get src) ltac:(reflexivity) _ tgt Hso) as (m & E & Lm & G & G').
  exists m. split; [exact E|]. split; [|split; [exact Lm|]].
  - intros i j Hi Hj. destruct (vec_get_in src (j * stride + i)) as (v & Ev); [nia|]. destruct (vec_get_in tgt (i * A + j)) as (x & Ex); [nia|]. rewrite Ev.
    apply (G _ (j * stride + i) v x); auto. apply host_pairs_mem. eauto 6.
  - intros p Hp. apply G'. intros s Hi. apply host_pairs_mem in Hi. destruct Hi as (i & j & Hi & Hj & E0). injection E0 as E0 _. nia.
Qed.

Theorem C233_array_out sl tl (src tgt : list V) num stride : 0 < num <= 2147483647 -> num <= stride -> (sl = Host -> tl = Device -> stride = num) ->
  num * A <= Z.of_nat (length tgt) -> (A - 1) * stride + num <= Z.of_nat (length src) ->
  cuda_array_out order junk A sl tl src tgt num stride = host_array_out A src tgt num stride /\
  exists m, cuda_array_out order junk A sl tl src tgt num stride = Some m /\ same_elements A num stride m src /\ length m = length tgt /\ forall p, num * A <= p -> vec_get m p = vec_get tgt p.
Proof using Ho HA.
  intros Hn Hs Hhd Ht Hl. enough (Heq : cuda_array_out order junk A sl tl src tgt num stride = host_array_out A src tgt num stride). { split; [exact Heq|]. rewrite Heq. apply host_out_spec; lia. }
  assert (0 <= num * A) by nia. pose proof (buffer_length junk (num * A) ltac:(lia)) as Hb. destruct sl, tl; cbn [cuda_array_out].
  - reflexivity.
  - specialize (Hhd eq_refl eq_refl). subst stride. etransitivity; [|apply (through_front assign junk src _ (num * A)); [nia|]].
    + unfold device_buffer. destruct (memcpy_spec src (num * A) (map junk (zrange 0 (num * A))) ltac:(nia) ltac:(lia)) as (buf & E & Lb & _). rewrite E. cbn [obind]. apply aggregate_same; nia.
    + intros p s Hi. apply host_pairs_mem in Hi. destruct Hi as (i & j & Hi & Hj & E). injection E as -> ->. nia.
  - unfold device_buffer. rewrite aggregate_same by lia. unfold host_array_out. apply through_back; [lia| | |].
    + intros p s Hi. destruct (out_pairs_sound src tgt num stride ltac:(lia) Hs Ht Hl) as [S1 _]. destruct (S1 p s Hi) as [_ Hr]. split; [|exact Hr]. apply host_pairs_mem in Hi. destruct Hi as (i & j & Hi & Hj & E). injection E as -> ->. nia.
    + apply (out_pairs_sound src tgt num stride); lia.
    + intros p Hp. destruct (split_exists A num p ltac:(lia) Hp) as (i & j & Hi & Hj & ->). exists (j * stride + i). apply host_pairs_mem. eauto 6.
  - now apply aggregate_same.
Qed.

Lemma in_pairs_sound (src tgt : list V) num : 0 <= num -> num * A <= Z.of_nat (length tgt) -> num * A <= Z.of_nat (length src) ->
  sound (vec_get src) (host_pairs A (fun i j => (j * num + i, i * A + j)) num) tgt.
Proof using HA.
  clear order junk Ho. intros Hn Ht Hl. split.
  - intros p s Hi. apply host_pairs_mem in Hi. destruct Hi as (i & j & Hi & Hj & E). injection E as -> ->. split; [nia|]. destruct (vec_get_in src (i * A + j)) as (v & Ev); [nia|congruence].
  - intros p s s' Hi Hi'. apply host_pairs_mem in Hi, Hi'. destruct Hi as (i & j & Hi & Hj & E), Hi' as (i' & j' & Hi' & Hj' & E'). injection E as -> ->. injection E' as Ep ->.
    destruct (split_unique num j i j' i') as [-> ->]; auto.
Qed.

Lemma distribute_same (src tgt : list V) num : 0 <= num -> num * A <= Z.of_nat (length tgt) -> num * A <= Z.of_nat (length src) ->
  distribute_array order A src tgt num num = host_array_in A src tgt num num.
Proof using Ho HA.
  clear junk. intros Hn Ht Hl. unfold distribute_array, host_array_in. rewrite launch_each by lia. symmetry. apply copy_same; [reflexivity| |apply in_pairs_sound; lia].
  intros w. rewrite host_pairs_mem, (strided_all order Ho (fun b i => (b * num + i, i * A + b))). split; intros (a & b & Ha & Hb & ->); exists b, a; auto.
Qed.

Lemma host_in_spec (src tgt : list V) num : 0 <= num -> num * A <= Z.of_nat (length tgt) -> num * A <= Z.of_nat (length src) ->
  exists m, host_array_in A src tgt num num = Some m /\ same_elements A num num src m /\ length m = length tgt /\ forall p, num * A <= p -> vec_get m p = vec_get tgt p.
Proof using HA.
  clear order junk Ho. intros Hn Ht Hl. pose proof (in_pairs_sound src tgt num Hn Ht Hl) as Hso. destruct (copy_spec assign (vec_get src) ltac:(reflexivity) _ tgt Hso) as (m & E & Lm & G & G').
  exists m. split; [exact E|]. split; [|split; [exact Lm|]].
  - intros i j Hi Hj. destruct (vec_get_in src (i * A + j)) as (v & Ev); [nia|]. destruct (vec_get_in tgt (j * num + i)) as (x & Ex); [nia|]. rewrite Ev.
    symmetry. apply (G _ (i * A + j) v x); auto. apply host_pairs_mem. eauto 6.
  - intros p Hp. apply G'. intros s Hi. apply host_pairs_mem in Hi. destruct Hi as (i & j & Hi & Hj & E0). injection E0 as E0 _. nia.
Qed.

Theorem C233_array_in sl tl (src tgt : list V) num : 0 <= num -> num * A <= Z.of_nat (length tgt) -> num * A <= Z.of_nat (length src) ->
  cuda_array_in order junk A sl tl src tgt num num = host_array_in A src tgt num num /\
  exists m, cuda_array_in order junk A sl tl src tgt num num = Some m /\ same_elements A num num src m /\ length m = length tgt /\ forall p, num * A <= p -> vec_get m p = vec_get tgt p.
Proof using Ho HA.
  intros Hn Ht Hl. enough (Heq : cuda_array_in order junk A sl tl src tgt num num = host_array_in A src tgt num num). { split; [exact Heq|]. rewrite Heq. apply host_in_spec; lia. }
  assert (0 <= num * A) by nia. pose proof (buffer_length junk (num * A) ltac:(lia)) as Hb. destruct sl, tl; cbn [cuda_array_in].
  - reflexivity.
  - etransitivity; [|apply (through_front assign junk src _ (num * A)); [nia|]].
    + unfold device_buffer. destruct (memcpy_spec src (num * A) (map junk (zrange 0 (num * A))) ltac:(nia) ltac:(lia)) as (buf & E & Lb & _). rewrite E. cbn [obind]. apply distribute_same; nia.
    + intros p s Hi. apply host_pairs_mem in Hi. destruct Hi as (i & j & Hi & Hj & E). injection E as -> ->. nia.
  - unfold device_buffer. rewrite distribute_same by lia. unfold host_array_in. apply through_back; [lia| | |].
    + intros p s Hi. destruct (in_pairs_sound src tgt num Hn Ht Hl) as [S1 _]. destruct (S1 p s Hi) as [_ Hr]. split; [|exact Hr]. apply host_pairs_mem in Hi. destruct Hi as (i & j & Hi & Hj & E). injection E as -> ->. nia.
    + apply (in_pairs_sound src tgt num); lia.
    + intros p Hp. destruct (Z.eq_dec num 0) as [->|Hz]; [lia|]. destruct (split_exists num A p ltac:(lia) ltac:(lia)) as (j & i & Hj & Hi & ->). exists (i * A + j). apply host_pairs_mem. eauto 6.
  - now apply distribute_same.
Qed.
End ArrayProofs.
Print Assumptions C233_array_out.
Print Assumptions C233_array_in.

(** Threads in reverse *)
Definition backwards1 (n : Z) : list (Z * Z) := rev (threads1 n).
Example C233_example_order : any_order1 backwards1 /\ any_order1 threads1.
Proof. split; intros n; [apply Permutation_rev|apply Permutation_refl]. Qed.
Example C233_example :
  cuda_array_in backwards1 (fun q => - q) 2 Device Host [1; 2; 3; 4; 5; 6] [0; 0; 0; 0; 0; 0; 7] 3 3 = Some [1; 3; 5; 2; 4; 6; 7] /\
  cuda_array_out backwards1 (fun q => - q) 2 Device Host [1; 3; 5; 9; 2; 4; 6] [0; 0; 0; 0; 0; 0; 7] 3 4 = Some [1; 2; 3; 4; 5; 6; 7].
Proof. vm_compute. auto. Qed.

(** ** C234 *)

(** Streaks which are longer than the number of cells copied: with the GPU
    something else is written than with the host, or the source is left. *)
Theorem C234_stride_refuted : exists (A num stride : Z) (src tgt soa : list Z) (junk : Z -> Z),
  0 < A /\ 0 < num <= stride /\ A * stride <= Z.of_nat (length tgt) /\ A * num <= Z.of_nat (length src) /\ A * stride <= Z.of_nat (length soa) /\
  (exists m m', host_array_in A src tgt num stride = Some m /\ cuda_array_in threads1 junk A Host Device src tgt num stride = Some m' /\
    same_elements A num stride src m /\ ~ same_elements A num stride src m') /\
  (exists m, host_array_out A soa tgt num stride = Some m) /\ cuda_array_out threads1 junk A Host Device soa tgt num stride = None.
Proof.
  exists 2, 2, 4, [1; 2; 3; 4], [0; 0; 0; 0; 0; 0; 0; 0], [1; 3; 0; 0; 2; 4; 0; 0], (fun q => q). do 5 (split; [cbn; lia|]). split; [|split; [|vm_compute; reflexivity]].
  - exists [1; 3; 0; 0; 2; 4; 0; 0], [1; 3; 2; 4; 0; 0; 0; 0]. split; [vm_compute; reflexivity|]. split; [vm_compute; reflexivity|]. split.
    + intros i j Hi Hj. assert (i = 0 \/ i = 1) as [-> | ->] by lia; assert (j = 0 \/ j = 1) as [-> | ->] by lia; reflexivity.
    + intros H. specialize (H 0 1 ltac:(lia) ltac:(lia)). vm_compute in H. discriminate.
  - eexists. vm_compute. reflexivity.
Qed.
Print Assumptions C234_stride_refuted.

(** ** C235 *)

(** No cells: nothing has to be copied, and the host doesn't; a launch of no
    blocks is an error. *)
Theorem C235_empty_refuted : exists (A : Z) (src tgt : list Z), 0 < A /\
  host_array_out A src tgt 0 0 = Some tgt /\ forall order junk, any_order1 order -> cuda_array_out order junk A Device Device src tgt 0 0 = None /\ cuda_array_out order junk A Device Host src tgt 0 0 = None.
Proof. exists 2, [1; 2], [3; 4]. split; [lia|]. split; [reflexivity|]. intros order junk _. split; reflexivity. Qed.
Print Assumptions C235_empty_refuted.

(** ** C236 *)

Section MemberProofs.
Context {C V : Type} (order : Z -> list (Z * Z)) (junk : Z -> V) (get : C -> V) (put : V -> C -> C) (Ho : any_order1 order) (Hput : forall v c, put v (put v c) = put v c).

Lemma member_mem num w : 0 <= num -> In w (map (fun i => (i, i)) (zrange 0 num)) <-> In w (flat_map (thread_cell num) (order (num / 32 + 1))).
Proof using Ho. clear junk get put Hput. intros Hn. rewrite (cells_all order Ho num w Hn). destruct w as [p s]. rewrite diag_mem. split; [intros [-> H]; eauto|intros (i & H & E); injection E as -> ->; auto]. Qed.

Lemma blocks_ok num : 0 <= num <= 2147483647 -> 0 < num / 32 + 1 <= 2147483647.
Proof using. clear order junk get put Ho Hput. intros H. pose proof (Z.div_pos num 32 ltac:(lia) ltac:(lia)). pose proof (Z.div_le_mono num 2147483647 32 ltac:(lia) ltac:(lia)) as Hm. change (2147483647 / 32) with 67108863 in Hm. lia. Qed.

Lemma diag_sound {X W} (rd : Z -> option W) num (m : list X) : (forall i, 0 <= i < num -> rd i <> None) -> num <= Z.of_nat (length m) -> sound rd (map (fun i => (i, i)) (zrange 0 num)) m.
Proof using. clear order junk get put Ho Hput. intros Hr Hl. split; [intros p s Hi; apply diag_mem in Hi; destruct Hi as [<- Hi]; split; [lia|auto]|]. intros p s s' Hi Hi'. apply diag_mem in Hi, Hi'. lia. Qed.

Lemma distribute_member_same (src : list V) (tgt : list C) num : 0 <= num <= 2147483647 -> num <= Z.of_nat (length src) -> num <= Z.of_nat (length tgt) ->
  distribute_member order put src tgt num = host_member_in put src tgt num.
Proof using Ho Hput.
  clear junk get. intros Hn Hs Ht. unfold distribute_member, host_member_in. rewrite launch_each by now apply blocks_ok. symmetry. apply copy_same; [exact Hput|intros w; apply member_mem; lia|].
  apply diag_sound; [|lia]. intros i Hi. destruct (vec_get_in src i) as (v & Ev); [lia|congruence].
Qed.

Lemma aggregate_member_same (src : list C) (tgt : list V) num : 0 <= num <= 2147483647 -> num <= Z.of_nat (length src) -> num <= Z.of_nat (length tgt) ->
  aggregate_member order get src tgt num = host_member_out get src tgt num.
Proof using Ho.
  clear junk put Hput. intros Hn Hs Ht. unfold aggregate_member, host_member_out. rewrite launch_each by now apply blocks_ok. symmetry. apply copy_same; [reflexivity|intros w; apply member_mem; lia|].
  apply diag_sound; [|lia]. intros i Hi. destruct (vec_get_in src i) as (v & Ev); [lia|]. rewrite Ev. discriminate.
Qed.

Theorem C236_member_in sl tl (src : list V) (tgt : list C) num : 0 <= num <= 2147483647 -> num <= Z.of_nat (length src) -> num <= Z.of_nat (length tgt) ->
  cuda_member_in order junk put sl tl src tgt num = host_member_in put src tgt num /\
  exists m, cuda_member_in order junk put sl tl src tgt num = Some m /\ length m = length tgt /\
    (forall i v c, 0 <= i < num -> vec_get src i = Some v -> vec_get tgt i = Some c -> vec_get m i = Some (put v c)) /\ (forall i, num <= i -> vec_get m i = vec_get tgt i).
Proof using Ho Hput.
  clear get. intros Hn Hs Ht. enough (Heq : cuda_member_in order junk put sl tl src tgt num = host_member_in put src tgt num).
  { split; [exact Heq|]. rewrite Heq. destruct (copy_spec put (vec_get src) Hput (map (fun i => (i, i)) (zrange 0 num)) tgt) as (m & E & Lm & G & G').
    - apply diag_sound; [|lia]. intros i Hi. destruct (vec_get_in src i) as (v & Ev); [lia|congruence].
    - exists m. split; [exact E|]. split; [exact Lm|]. split; [intros i v c Hi Hv Hc; apply (G i i); auto; apply diag_mem; lia|]. intros i Hi. apply G'. intros s Hd. apply diag_mem in Hd. lia. }
  assert (Hf : forall p s, In (p, s) (map (fun i => (i, i)) (zrange 0 num)) -> 0 <= s < num) by (intros p s Hi; apply diag_mem in Hi; lia).
  pose proof (buffer_length junk num ltac:(lia)) as Hb. destruct sl, tl; cbn [cuda_member_in].
  - reflexivity.
  - etransitivity; [|apply (through_front put junk src _ num); [lia|exact Hf]]. destruct (memcpy_spec src num (map junk (zrange 0 num)) ltac:(lia) ltac:(lia)) as (buf & E & Lb & _). rewrite E. cbn [obind]. apply distribute_member_same; lia.
  - apply (through_front put junk src _ num); [lia|exact Hf].
  - now apply distribute_member_same.
Qed.

Theorem C236_member_out sl tl (src : list C) (tgt : list V) num : 0 <= num <= 2147483647 -> num <= Z.of_nat (length src) -> num <= Z.of_nat (length tgt) ->
  cuda_member_out order junk get sl tl src tgt num = host_member_out get src tgt num /\
  exists m, cuda_member_out order junk get sl tl src tgt num = Some m /\ length m = length tgt /\
    (forall i c, 0 <= i < num -> vec_get src i = Some c -> vec_get m i = Some (get c)) /\ (forall i, num <= i -> vec_get m i = vec_get tgt i).
Proof using Ho.
  clear put Hput. intros Hn Hs Ht. assert (Hr : forall i, 0 <= i < num -> option_map get (vec_get src i) <> None) by (intros i Hi; destruct (vec_get_in src i) as (v & Ev); [lia|]; rewrite Ev; discriminate).
  enough (Heq : cuda_member_out order junk get sl tl src tgt num = host_member_out get src tgt num).
  { split; [exact Heq|]. rewrite Heq. destruct (copy_spec assign (fun s => option_map get (vec_get src s)) ltac:(reflexivity) (map (fun i => (i, i)) (zrange 0 num)) tgt) as (m & E & Lm & G & G').
    - now apply diag_sound.
    - exists m. split; [exact E|]. split; [exact Lm|]. split.
      + intros i c Hi Hc. destruct (vec_get_in tgt i) as (x & Ex); [lia|]. apply (G i i (get c) x); [apply diag_mem; lia|now rewrite Hc|exact Ex].
      + intros i Hi. apply G'. intros s Hd. apply diag_mem in Hd. lia. }
  pose proof (buffer_length junk num ltac:(lia)) as Hb.
  assert (Hbk : obind (host_member_out get src (map junk (zrange 0 num)) num) (fun buf => memcpy buf num tgt) = host_member_out get src tgt num).
  { unfold host_member_out. apply through_back; [lia| | |].
    - intros p s Hi. apply diag_mem in Hi. destruct Hi as [<- Hi]. split; [lia|auto].
    - intros p s s' Hi Hi'. apply diag_mem in Hi, Hi'. lia.
    - intros p Hp. exists p. apply diag_mem. lia. }
  destruct sl, tl; cbn [cuda_member_out]; [reflexivity|exact Hbk| |now apply aggregate_member_same]. rewrite aggregate_member_same by lia. exact Hbk.
Qed.
End MemberProofs.
Print Assumptions C236_member_in.
Print Assumptions C236_member_out.

(** Cells with two members; also without any cell. *)
Example C236_example :
  (forall (v : Z) (c : Z * Z), (fst ((fst c, v)), v) = (fst c, v)) /\
  cuda_member_in backwards1 (fun q => - q) (fun v (c : Z * Z) => (fst c, v)) Host Device [7; 8] [(1, 2); (3, 4); (5, 6)] 2 = Some [(1, 7); (3, 8); (5, 6)] /\
  cuda_member_out backwards1 (fun q => - q) (@snd Z Z) Device Host [(1, 2); (3, 4); (5, 6)] [0; 0; 9] 2 = Some [2; 4; 9] /\
  cuda_member_in backwards1 (fun q => - q) (fun v (c : Z * Z) => (fst c, v)) Device Device [] [(1, 2)] 0 = Some [(1, 2)].
Proof. split; [reflexivity|]. vm_compute. auto. Qed.
