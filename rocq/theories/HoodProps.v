(** C94-C96: how the cells of unstructured grids are updated. *)
From Coq Require Import Sorted Permutation.
From Verif Require Import Base ListFacts RegionSpec RegionModel RegionRep RegionOpsModel RegionIterModel RegionStreaks GridModel PatchModel HaloSpec SellModel SellSpec SellFacts SellProps HoodModel HoodFacts.

(** A Region of cells of a grid of [n] cells. *)
Definition cells_below (n : Z) (r : indices) : Prop := forall x, inr 0 r [x] -> 0 <= x < n.

(** Runs of cells which start within a chunk extend at least to the end of
    this chunk. *)
Definition reaches_chunk_end (C : Z) (r : indices) : Prop :=
  forall a, inr 0 r [a] -> ~ inr 0 r [a - 1] -> a mod C <> 0 -> forall y, a <= y < (a / C + 1) * C -> inr 0 r [y].

Lemma region_streaks_1d r : rvalid 0 r -> exists l, reg_streaks r = Some l /\ region_coords r = Some (flat_map streak_coords l) /\
  forall k, In k l -> s_pre k = [] /\ s_x k < s_e k /\ ~ inr 0 r [s_e k] /\ ~ inr 0 r [s_x k - 1] /\ (forall x, s_x k <= x < s_e k -> inr 0 r [x]).
Proof.
  intros Hv. destruct (streaks_valid 0 r Hv) as (l & Hok & Hin & El & _). exists l. split; [exact El|].
  split; [unfold region_coords; now rewrite El|]. intros k Hk. destruct (streak_maximal l k Hok Hk) as (M1 & M2 & Ep & Hx).
  split; [exact Ep|]. split; [exact Hx|]. split; [intros [_ Hi]; apply M1; now apply Hin|]. split; [intros [_ Hi]; apply M2; now apply Hin|].
  intros x Hr. split; [reflexivity|]. apply Hin; [reflexivity|]. exists k. split; [exact Hk|]. apply (in_streak_snoc k [] x). split; [now rewrite Ep|exact Hr].
Qed.

(** ** C94 *)

(** Cell by cell: each cell of the Region is updated once, in order, and is
    presented the row of the matrix which is stored at its position. *)
Theorem C94_update : forall V (zero : V) C S srt n m r,
  1 <= C -> 1 <= S -> 1 <= n -> sorting srt -> rows_below n m -> rvalid 0 r -> cells_below n r ->
  exists s, sell_init zero C S srt (sell_make C n) m = Some s /\
  exists ws, aos_update C s n r = Some ws /\ region_coords r = Some (map (fun w => [fst w]) ws) /\
    forall q l, In (q, l) ws -> exists x, In (x, q) (sl_sorted s) /\ is_row m x l.
Proof.
  intros V zero C S srt n m r HC HS Hn Hsrt Hm Hv Hb. destruct (Hsrt m) as [Hp Hs].
  assert (Hm' : rows_below n (srt m)). { apply Forall_forall. intros e He. unfold rows_below in Hm. rewrite Forall_forall in Hm. apply Hm. now apply (Permutation_in _ (Permutation_sym Hp)). }
  destruct (sell_init_padded zero C S n (srt m) HC HS Hn Hm' Hs) as (s & perm & E & Hd & HK & (H1 & H2 & _) & Hin & Hreal & Hrow & Hlane).
  exists s. split; [exact E|]. set (K := Z.min _ _) in *. clearbody K.
  set (at_q := fun q => match vec_get perm q with Some x => x | None => 0 end).
  assert (Hq : forall q, 0 <= q < n -> vec_get perm q = Some (at_q q)).
  { intros q Hq. unfold at_q. destruct (vec_get_ex perm q) as [x Ex]; [|now rewrite Ex]. rewrite (Permutation_length H1), zrange_length. lia. }
  destruct (region_streaks_1d r Hv) as (ss & Es & Ec & Hk). unfold aos_update. rewrite Es. cbn [obind].
  set (R := fun q => row_entries (srt m) (at_q q)).
  destruct (all_streaks_spec (V := V) (aos_streak C s n) R ss) as (ws & Ew & Ewc & Ewl).
  { intros k Hi. destruct (Hk k Hi) as (Ep & Hx & _ & _ & Hr). split; [exact Ep|].
    pose proof (Hb _ (Hr (s_x k) ltac:(lia))) as B1. pose proof (Hb _ (Hr (s_e k - 1) ltac:(lia))) as B2.
    unfold aos_streak. rewrite (aos_cells_spec C HC s n R).
    - now replace (s_x k + Z.of_nat (Z.to_nat (s_e k - s_x k))) with (s_e k) by lia.
    - intros q Hqn. split; [apply Hrow; auto|]. exists (cnt (srt m) (at_q q)). split; [apply Hlane; auto|unfold cnt; lia].
    - lia.
    - lia. }
  exists ws. split; [exact Ew|]. split; [now rewrite Ewc|]. intros q l Hi. exists (at_q q).
  assert (Hqn : 0 <= q < n).
  { apply (in_map (fun w => [fst w])) in Hi. cbn [fst] in Hi. rewrite Ewc in Hi. apply in_flat_map in Hi. destruct Hi as (k & Hkk & Hi).
    apply streak_coords_in in Hi. destruct (Hk k Hkk) as (Ep & Hx & _ & _ & Hr). apply (in_streak_snoc k [] q) in Hi. apply Hb, Hr. tauto. }
  split; [apply Hin; now apply Hq|]. rewrite (Ewl q l Hi). split; [now apply row_perm|now apply row_sorted].
Qed.
Print Assumptions C94_update.

(** Chunk by chunk: the same, if no run of cells ends within the chunk in which
    it starts, unless it starts at the beginning of this chunk. Behind the
    entries of its row a cell may be presented padding: entries with weight
    zero, referring to cell 0. *)
Theorem C94_vectorised_update : forall V (zero : V) C S srt n m r k,
  0 <= k -> C = 2 ^ k -> 1 <= S -> 1 <= n -> sorting srt -> rows_below n m -> rvalid 0 r -> cells_below n r -> reaches_chunk_end C r ->
  exists s, sell_init zero C S srt (sell_make C n) m = Some s /\
  exists ws, soa_update C s (soa_size C n) r = Some ws /\ region_coords r = Some (map (fun w => [fst w]) ws) /\
    forall q l, In (q, l) ws -> exists x row pad, In (x, q) (sl_sorted s) /\ is_row m x row /\ l = row ++ repeat (0, zero) pad.
Proof.
  intros V zero C S srt n m r k Hk Ek HS Hn Hsrt Hm Hv Hb Hre. destruct (Hsrt m) as [Hp Hs].
  assert (HC : 1 <= C) by (rewrite Ek; pose proof (Z.pow_pos_nonneg 2 k); lia).
  assert (Hm' : rows_below n (srt m)). { apply Forall_forall. intros e He. unfold rows_below in Hm. rewrite Forall_forall in Hm. apply Hm. now apply (Permutation_in _ (Permutation_sym Hp)). }
  destruct (sell_init_padded zero C S n (srt m) HC HS Hn Hm' Hs) as (s & perm & E & Hd & HK & (H1 & H2 & _) & Hin & Hreal & _ & Hlane).
  exists s. split; [exact E|]. set (K := Z.min _ _) in *. clearbody K.
  set (at_q := fun q => match vec_get perm q with Some x => x | None => 0 end).
  assert (Hq : forall q, 0 <= q < n -> vec_get perm q = Some (at_q q)).
  { intros q Hq. unfold at_q. destruct (vec_get_ex perm q) as [x Ex]; [|now rewrite Ex]. rewrite (Permutation_length H1), zrange_length. lia. }
  destruct (region_streaks_1d r Hv) as (ss & Es & Ec & Hks). unfold soa_update. rewrite Es. cbn [obind].
  set (R := fun q => match sh_lane C s (q / C) (q mod C) with Some l => l | None => [] end).
  assert (HR : forall q, 0 <= q < n -> exists pad, sh_lane C s (q / C) (q mod C) = Some (row_entries (srt m) (at_q q) ++ repeat (0, zero) pad)).
  { intros q Hqn. destruct (Hlane q _ (Hq q Hqn)) as (_ & off & len & pad & G1 & G2 & G3). exists pad. unfold sh_lane. rewrite G1, G2. cbn [obind].
    replace (off + Z.of_nat len * C - off) with (Z.of_nat len * C) by lia. rewrite Z.quot_mul by lia. rewrite Z.eqb_refl.
    destruct (Z.leb_spec 0 (Z.of_nat len)); [|lia]. cbn [andb]. rewrite Nat2Z.id. exact G3. }
  destruct (all_streaks_spec (V := V) (soa_streak C s (soa_size C n)) R ss) as (ws & Ew & Ewc & Ewl).
  { intros kk Hi. destruct (Hks kk Hi) as (Ep & Hx & Hne & Hnx & Hr). split; [exact Ep|].
    pose proof (Hb _ (Hr (s_x kk) ltac:(lia))) as B1. pose proof (Hb _ (Hr (s_e kk - 1) ltac:(lia))) as B2.
    unfold soa_streak. apply (loop_peeler_spec C HC s (soa_size C n) n R) with (k := k); auto; try lia.
    - unfold soa_size. rewrite Z.quot_div_nonneg by lia. pose proof (Z.div_mod (n - 1) C ltac:(lia)). pose proof (Z.mod_pos_bound (n - 1) C ltac:(lia)). nia.
    - intros q Hqn. destruct (HR q Hqn) as [pad G]. unfold R. now rewrite G.
    - destruct (Z.eq_dec (s_x kk mod C) 0) as [Ez|Ez]; [now left|right].
      destruct (Z_lt_le_dec (s_e kk) ((s_x kk / C + 1) * C)) as [L|L]; [|exact L]. exfalso. apply Hne.
      apply (Hre (s_x kk)); auto; [|lia]. apply Hr. lia. }
  exists ws. split; [exact Ew|]. split; [now rewrite Ewc|]. intros q l Hi. 
  assert (Hqn : 0 <= q < n).
  { apply (in_map (fun w => [fst w])) in Hi. cbn [fst] in Hi. rewrite Ewc in Hi. apply in_flat_map in Hi. destruct Hi as (kk & Hkk & Hi).
    apply streak_coords_in in Hi. destruct (Hks kk Hkk) as (Ep & Hx & _ & _ & Hr). apply (in_streak_snoc kk [] q) in Hi. apply Hb, Hr. tauto. }
  destruct (HR q Hqn) as [pad G]. exists (at_q q), (row_entries (srt m) (at_q q)), pad.
  split; [apply Hin; now apply Hq|]. split; [split; [now apply row_perm|now apply row_sorted]|].
  rewrite (Ewl q l Hi). unfold R. now rewrite G.
Qed.
Print Assumptions C94_vectorised_update.

(** 10 cells in chunks of 4: a run which starts and ends within chunks, and one
    which fits into a chunk but starts at its beginning. *)
Example C94_example :
  let m := [((1, 3), 13); ((0, 0), 1); ((1, 1), 11); ((3, 4), 34); ((3, 0), 30); ((3, 2), 32); ((4, 4), 44); ((9, 1), 91)]%Z in
  let r := reg_insert (reg_insert (reg_empty 1) (mkStreak [] 1 6)) (mkStreak [] 8 10) in
  exists s, sell_init 0 4 1 entry_sort (sell_make 4 10) m = Some s /\ rows_below 10 m /\
    aos_update 4 s 10 r = Some [(1, [(1, 11); (3, 13)]); (2, []); (3, [(0, 30); (2, 32); (4, 34)]); (4, [(4, 44)]); (5, []); (8, []); (9, [(1, 91)])] /\
    soa_update 4 s (soa_size 4 10) r =
      Some [(1, [(1, 11); (3, 13); (0, 0)]); (2, [(0, 0); (0, 0); (0, 0)]); (3, [(0, 30); (2, 32); (4, 34)]); (4, [(4, 44)]); (5, [(0, 0)]); (8, [(0, 0)]); (9, [(1, 91)])].
Proof. eexists. split; [vm_compute; reflexivity|]. split; [repeat constructor; cbn; lia|]. split; vm_compute; reflexivity. Qed.

(** The Region of the example meets the hypotheses. *)
Example C94_example_region :
  let r := reg_insert (reg_insert (reg_empty 1) (mkStreak [] 1 6)) (mkStreak [] 8 10) in
  rvalid 0 r /\ cells_below 10 r /\ reaches_chunk_end 4 r.
Proof.
  intros r. assert (Hv : rvalid 0 r). { subst r. apply insert_valid; [|reflexivity]. apply insert_valid; [apply rvalid_empty|reflexivity]. }
  assert (Hin : forall x, inr 0 r [x] <-> 1 <= x < 6 \/ 8 <= x < 10).
  { intros x. destruct (streaks_valid 0 r Hv) as (l & _ & Hi & El & _). assert (l = [mkStreak [] 1 6; mkStreak [] 8 10]) by (vm_compute in El; congruence). subst l.
    unfold inr. split.
    - intros [_ H]. apply Hi in H; [|reflexivity]. destruct H as (k & [<-|[<-|[]]] & H); apply (in_streak_snoc _ [] x) in H; cbn in H; lia.
    - intros H. split; [reflexivity|]. apply Hi; [reflexivity|]. destruct H as [H|H].
      + exists (mkStreak [] 1 6). split; [now left|]. apply (in_streak_snoc _ [] x). split; [reflexivity|exact H].
      + exists (mkStreak [] 8 10). split; [now right; left|]. apply (in_streak_snoc _ [] x). split; [reflexivity|exact H]. }
  split; [exact Hv|]. split.
  - intros x H. apply Hin in H. lia.
  - intros a Ha Hb Hz y Hy. apply Hin. apply Hin in Ha. assert (Hb' : ~ (1 <= a - 1 < 6 \/ 8 <= a - 1 < 10)) by (rewrite <- Hin; exact Hb).
    assert (Ea : a = 1 \/ a = 8) by lia. destruct Ea as [-> | ->]; [cbn in Hy; lia|now exfalso; apply Hz].
Qed.

(** ** C95 *)

(** A run of cells within a chunk, which doesn't start at the beginning of the
    chunk: the peeled loop runs to the end of the chunk and updates cells which
    aren't part of the Region (here: cell 3). *)
Theorem C95_short_streak_refuted : exists (m : list (entry Z)) s r ws q l,
  rows_below 8 m /\ sell_init 0 4 1 entry_sort (sell_make 4 8) m = Some s /\ rvalid 0 r /\ cells_below 8 r /\
  soa_update 4 s (soa_size 4 8) r = Some ws /\ In (q, l) ws /\ ~ inr 0 r [q].
Proof.
  set (r := reg_insert (reg_empty 1) (mkStreak [] 1 3)). destruct (insert_valid 0 (reg_empty 1) (mkStreak [] 1 3) (rvalid_empty 0) eq_refl) as [Hv Hm]. fold r in Hv, Hm.
  assert (Hin : forall x, inr 0 r [x] -> 1 <= x < 3).
  { intros x [_ H]. apply Hm in H; [|reflexivity]. destruct H as [H|H]; [discriminate H|]. apply (in_streak_snoc _ [] x) in H. exact (proj2 H). }
  exists [((1, 3), 13); ((3, 0), 30)]. eexists. exists r. do 3 eexists. split; [repeat constructor; cbn; lia|]. split; [vm_compute; reflexivity|]. split; [exact Hv|].
  split; [intros x H; apply Hin in H; lia|]. split; [vm_compute; reflexivity|]. split; [right; right; left; reflexivity|]. intros H. apply Hin in H. lia.
Qed.
Print Assumptions C95_short_streak_refuted.

(** ** C96 *)

(** [operator+=] doesn't move the neighborhood to another row: the entries
    remain those at the previous position, their number is taken from the new
    one. *)
Theorem C96_hood_add_refuted : exists (m : list (entry Z)) s l,
  rows_below 4 m /\ sell_init 0 2 1 entry_sort (sell_make 2 4) m = Some s /\
  ah_entries 2 s (ah_add (ah_make 2 0) 1) = Some l /\ ~ is_row m 1 l /\
  (exists row, ah_entries 2 s (ah_next 2 (ah_make 2 0)) = Some row /\ is_row m 1 row).
Proof.
  exists [((0, 0), 1); ((1, 1), 11)]. do 2 eexists. split; [repeat constructor; cbn; lia|]. split; [vm_compute; reflexivity|]. split; [vm_compute; reflexivity|].
  split; [|eexists; split; [vm_compute; reflexivity|split; [vm_compute; apply Permutation_refl|repeat constructor]]].
  intros [Hp _]. apply (Permutation_in (1, 11)) in Hp; [|vm_compute; auto]. destruct Hp as [Hp|[]]. discriminate.
Qed.
Print Assumptions C96_hood_add_refuted.
