(** Properties C01 (history), C02 (equality), C03 (set algebra) and C05
    (iteration) of Regions. *)
From Verif Require Import Base ListFacts RegionSpec RegionModel RegionRep RegionIterModel RegionStreaks
  CoordModel CoordSpec RegionOpsModel RegionOps CoordFacts RegionHistory RegionHist RegionReach.
From Coq Require Import Sorted.

(** ** C01 *)

(** After any history of insertions and removals [count] answers, without
    touching invalid memory, 1 exactly for those coordinates whose most
    recent mention was an insertion. *)
Theorem C01_region_history : forall d h fuel,
  Forall (rop_ok (S d)) h -> (history_fuel h <= fuel)%nat ->
  exists r, run_history fuel (reg_empty (S d)) h = Some r /\
    forall c, length c = S d ->
      (last_inserted h c -> reg_count r c = Some true) /\
      (~ last_inserted h c -> reg_count r c = Some false).
Proof.
  intros d h fuel Hok Hf. destruct (history_valid d h fuel Hok Hf) as (r & H1 & H2 & H3).
  exists r. split; [exact H1|]. intros c Hc. specialize (H3 c Hc). unfold rin in H3.
  destruct (count_total d r c H2 Hc) as [E|E]; rewrite E in *; split; intros H; auto; exfalso.
  - apply H. apply H3. auto.
  - apply H3 in H. discriminate.
Qed.
Print Assumptions C01_region_history.

Definition ex_history : list rop :=
  [InsStreak (mkStreak [2] 3 8); InsBox (mkBox [1; 2] [3; 4]); RemStreak (mkStreak [2] 4 6); InsCoord [2; 5];
   RemBox (mkBox [3; 3] [1; 1]); RemCoord [7; 7]].

Example C01_example :
  Forall (rop_ok 2) ex_history /\
  option_map (fun r => map (reg_count r) [[2; 4]; [2; 5]; [3; 3]; [1; 2]; [2; 7]])
    (run_history (history_fuel ex_history) (reg_empty 2) ex_history)
  = Some [Some false; Some true; Some false; Some true; Some true].
Proof. split; [repeat (constructor; try (cbn; lia))|vm_compute; reflexivity]. Qed.

(** [count] of a streak answers whether all of its coordinates are
    contained. *)
Theorem C01_count_streak : forall d h fuel r s,
  Forall (rop_ok (S d)) h -> (history_fuel h <= fuel)%nat -> run_history fuel (reg_empty (S d)) h = Some r ->
  S (length (s_pre s)) = S d -> s_x s < s_e s ->
  exists b, reg_count_streak r s = Some b /\ (b = true <-> forall c, in_streak s c -> last_inserted h c).
Proof.
  intros d h fuel r s Hok Hf Hr Hl Hx. injection Hl as Hl.
  destruct (history_valid d h fuel Hok Hf) as (r' & H1 & H2 & H3). rewrite Hr in H1. injection H1 as <-.
  destruct (count_streak_valid d r s H2 Hl Hx) as (b & Hb & Hiff). exists b. split; auto.
  rewrite Hiff. split; intros H c Hc; assert (length c = S d) by
    (destruct Hc as (x & -> & _); rewrite app_length; cbn; lia); apply H3; auto.
Qed.
Print Assumptions C01_count_streak.

(** ** C02 *)

(** [operator==] decides equality of the coordinate sets. *)
Theorem C02_region_equality : forall d a b, reachable d a -> reachable d b ->
  (reg_eqb a b = true <-> forall c, length c = S d -> reg_count a c = reg_count b c).
Proof.
  intros d a b Ha Hb. apply reachable_valid in Ha. apply reachable_valid in Hb. rewrite reg_eqb_spec. split.
  - intros ->; auto.
  - intros H. apply (valid_ext d a b Ha Hb). intros c Hc. unfold rin. rewrite H by auto. tauto.
Qed.
Print Assumptions C02_region_equality.

(** The streaks of a Region are non-empty, in order, and neither overlap nor
    touch. *)
Theorem C02_streaks_maximal : forall d r, reachable d r ->
  exists l, reg_streaks r = Some l /\ streaks_ok d l.
Proof.
  intros d r Hr. apply reachable_valid in Hr. destruct (streaks_valid d r Hr) as (l & H1 & _ & H2 & _). eauto.
Qed.
Print Assumptions C02_streaks_maximal.

Example C02_example :
  exists a b, run_history 100 (reg_empty 2) [InsBox (mkBox [0; 0] [2; 5])] = Some a /\
    run_history 100 (reg_empty 2) [InsStreak (mkStreak [1] 2 5); InsStreak (mkStreak [0] 0 9);
       InsStreak (mkStreak [1] 0 3); RemStreak (mkStreak [0] 5 12); InsCoord [5; 5]; RemCoord [5; 5]] = Some b /\
    a = b /\ reg_eqb a b = true /\ reg_streaks a = Some [mkStreak [0] 0 5; mkStreak [1] 0 5].
Proof. do 2 eexists. repeat split; vm_compute; reflexivity. Qed.

(** ** C03 *)

(** Union, intersection and difference are those of the coordinate sets; the
    assigning variants yield the same Regions. *)
Theorem C03_set_algebra : forall d a b, reachable d a -> reachable d b ->
  exists u i m u' i' m',
    reg_union a b = Some u /\ reg_isect a b = Some i /\ reg_diff a b = Some m /\
    reg_union_assign a b = Some u' /\ reg_isect_assign a b = Some i' /\ reg_diff_assign a b = Some m' /\
    u' = u /\ i' = i /\ m' = m /\
    forall c, length c = S d ->
      (reg_count u c = Some true <-> reg_count a c = Some true \/ reg_count b c = Some true) /\
      (reg_count i c = Some true <-> reg_count a c = Some true /\ reg_count b c = Some true) /\
      (reg_count m c = Some true <-> reg_count a c = Some true /\ reg_count b c = Some false).
Proof.
  intros d a b Ha Hb. apply reachable_valid in Ha. apply reachable_valid in Hb.
  destruct (reg_union_valid d a b Ha Hb) as (u & Eu & Vu & Hu).
  destruct (reg_isect_valid d a b Ha Hb) as (i & Ei & Vi & Hi).
  destruct (reg_diff_valid d a b Ha Hb) as (m & Em & Vm & Hm).
  destruct (reg_union_assign_valid d a b Ha Hb) as (u' & Eu' & Vu' & Hu').
  destruct (reg_isect_valid d b a Hb Ha) as (i' & Ei' & Vi' & Hi').
  exists u, i, m, u', i', m. repeat (split; [assumption|]).
  split. { apply (valid_ext d); auto. intros c Hc. rewrite Hu, Hu' by auto. tauto. }
  split. { apply (valid_ext d); auto. intros c Hc. rewrite Hi, Hi' by auto. tauto. }
  split; [reflexivity|].
  intros c Hc. specialize (Hu c Hc). specialize (Hi c Hc). specialize (Hm c Hc). unfold rin in *.
  split; [auto|]. split; [auto|]. rewrite Hm.
  destruct (count_total d b c Hb Hc) as [E|E]; rewrite E; intuition congruence.
Qed.
Print Assumptions C03_set_algebra.

Example C03_example :
  let a := insert_all (reg_empty 2) [mkStreak [0] 0 5; mkStreak [1] 2 9] in
  let b := insert_all (reg_empty 2) [mkStreak [1] 4 6; mkStreak [2] 0 1] in
  option_map reg_streaks (reg_diff a b) = Some (Some [mkStreak [0] 0 5; mkStreak [1] 2 4; mkStreak [1] 6 9]) /\
  option_map reg_streaks (reg_isect a b) = Some (Some [mkStreak [1] 4 6]) /\
  option_map reg_streaks (reg_union a b) = Some (Some [mkStreak [0] 0 5; mkStreak [1] 2 9; mkStreak [2] 0 1]).
Proof. vm_compute. auto. Qed.

(** ** C05 *)

(** Coordinate iteration yields every contained coordinate exactly once, in
    increasing order; streak iteration yields the same coordinates. *)
Theorem C05_iteration : forall d r, reachable d r ->
  exists cs ss, (forall fuel, (length cs <= fuel)%nat -> reg_coords fuel r = Some cs) /\
    StronglySorted coord_lt cs /\
    (forall c, length c = S d -> (In c cs <-> reg_count r c = Some true)) /\
    Forall (fun c => length c = S d) cs /\
    reg_streaks r = Some ss /\ streaks_ok d ss /\ cs = flat_map streak_coords ss.
Proof.
  intros d r Hr. apply reachable_valid in Hr. destruct (streaks_valid d r Hr) as (l & H1 & H2 & H3 & _).
  exists (flat_map streak_coords l), l. split; [intros; now apply (coords_valid d)|].
  split; [now apply (coords_sorted d)|].
  split.
  { intros c Hc. change (reg_count r c = Some true) with (rin r c). rewrite H2 by auto. rewrite in_flat_map.
    unfold in_streaks. split; intros (s & Hs & Hin); exists s; split; auto; now apply streak_coords_in. }
  split.
  { apply Forall_forall. intros c Hc. apply in_flat_map in Hc. destruct Hc as (s & Hs & Hin).
    apply streak_coords_in in Hin. destruct Hin as (x & -> & _). destruct H1 as [_ H1].
    rewrite Forall_forall in H1. apply H1 in Hs. rewrite app_length. cbn. lia. }
  auto.
Qed.
Print Assumptions C05_iteration.

(** [region[i]] addresses the i-th streak of the walk, and walking on from
    there yields the remaining streaks; beyond the last streak it is the end
    iterator. *)
Theorem C05_random_access : forall d r ss i, reachable d r -> reg_streaks r = Some ss ->
  match nth_error ss i with
  | Some s => exists it, reg_at r i = Some it /\ it_streak it = s /\
                it_run (length ss - i) r (zero_off r) 0 it (it_end r) = Some (skipn i ss)
  | None => exists it, reg_at r i = Some it /\ it_eqb it (it_end r) = true
  end.
Proof.
  intros d r ss i Hr Hs. apply reachable_valid in Hr. destruct (nth_error ss i) as [s|] eqn:E.
  - eapply reg_at_valid; eauto.
  - apply nth_error_None in E. eapply reg_at_end; eauto.
Qed.
Print Assumptions C05_random_access.

Example C05_example :
  exists r, run_history 100 (reg_empty 3) [InsBox (mkBox [0; 0; 0] [1; 2; 2]); InsStreak (mkStreak [4; 1] 7 9);
       RemCoord [0; 1; 0]] = Some r /\
    reg_coords 5 r = Some [[0; 0; 0]; [0; 0; 1]; [0; 1; 1]; [4; 1; 7]; [4; 1; 8]] /\
    option_map it_streak (reg_at r 2) = Some (mkStreak [4; 1] 7 9).
Proof. eexists. repeat split; vm_compute; reflexivity. Qed.
