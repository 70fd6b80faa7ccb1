(** Property C08: [Region::streakIteratorOnOrAfter]. *)
From Verif Require Import Base ListFacts RegionSpec RegionModel RegionRep RegionIterModel RegionStreaks
  CoordModel CoordSpec RegionOpsModel RegionOps RegionHistory RegionReach RegionSeekModel RegionSeek.

(** In one and two dimensions the returned iterator starts exactly at the
    first streak whose origin is not smaller (in lexicographic order) than the
    given coordinate; it is the end iterator if there is none. Iterating from
    there yields the remaining streaks. In three dimensions the same claim
    (C54) does not hold, see below. *)
Theorem C08_on_or_after : forall d r c, (d <= 1)%nat -> reachable d r -> length c = S d ->
  exists it before after,
    reg_on_or_after r c = Some it /\
    reg_streaks r = Some (before ++ after) /\
    it_run (length after) r (zero_off r) 0 it (it_end r) = Some after /\
    (forall s, In s before -> coord_lt (s_origin s) c) /\
    (forall s, In s after -> ~ coord_lt (s_origin s) c).
Proof.
  intros d r c Hd Hr Hc. pose proof (reachable_valid d r Hr) as Hv.
  destruct d as [|[|d]]; [| |lia].
  - destruct c as [|x [|]]; try discriminate. destruct (seek_1d r x Hv) as (it & ss1 & ss2 & H1 & H2 & H3 & H4 & H5 & _). exists it, ss1, ss2. auto.
  - destruct c as [|y [|x [|]]]; try discriminate. destruct (seek_2d r y x Hv) as (it & ss1 & ss2 & H1 & H2 & H3 & H4 & H5 & _). exists it, ss1, ss2. auto.
Qed.
Print Assumptions C08_on_or_after.

Example C08_example :
  let r := insert_all (reg_empty 2) [mkStreak [3] 2 4; mkStreak [3] 6 9; mkStreak [7] 0 1] in
  reachable 1 r /\
  option_map it_streak (reg_on_or_after r [3; 4]) = Some (mkStreak [3] 6 9) /\
  option_map it_streak (reg_on_or_after r [3; 7]) = Some (mkStreak [7] 0 1) /\
  option_map it_streak (reg_on_or_after r [2; 7]) = Some (mkStreak [3] 2 4) /\
  reg_on_or_after r [7; 1] = Some (it_end r).
Proof.
  cbv zeta. split; [|vm_compute; auto].
  eapply reach_rop with (op := InsStreak (mkStreak [7] 0 1)) (fuel := O); [|reflexivity|auto|reflexivity].
  eapply reach_rop with (op := InsStreak (mkStreak [3] 6 9)) (fuel := O); [|reflexivity|auto|reflexivity].
  eapply reach_rop with (op := InsStreak (mkStreak [3] 2 4)) (fuel := O); [|reflexivity|auto|reflexivity].
  constructor.
Qed.

(** In three dimensions the search may return garbage: the case in which all
    rows of the plane precede the coordinate stores the [first] component of
    an index entry (a y coordinate) as an index into the streak vector
    (region.h:1405-1408). Here the streak [(0,1,1)] ((x,y,z) order) is the
    first one on or after [(0,5,0)], but the iterator which is returned is
    not the end and points to [(2,0,0)], which is not in the Region and
    precedes the coordinate. *)
Theorem C54_on_or_after_3d_refuted :
  exists r c it l, reachable 2 r /\ length c = 3%nat /\
    reg_on_or_after r c = Some it /\ it_pos it <> it_pos (it_end r) /\
    reg_streaks r = Some l /\ (exists s, In s l /\ ~ coord_lt (s_origin s) c) /\
    ~ In (it_streak it) l /\ coord_lt (s_origin (it_streak it)) c /\
    reg_count r (s_origin (it_streak it)) = Some false.
Proof.
  exists (insert_all (reg_empty 3) [mkStreak [0; 0] 0 1; mkStreak [1; 1] 0 1; mkStreak [1; 1] 2 3]).
  exists [0; 5; 0]. eexists. eexists.
  split.
  { eapply reach_rop with (op := InsStreak (mkStreak [1; 1] 2 3)) (fuel := O); [|reflexivity|auto|reflexivity].
    eapply reach_rop with (op := InsStreak (mkStreak [1; 1] 0 1)) (fuel := O); [|reflexivity|auto|reflexivity].
    eapply reach_rop with (op := InsStreak (mkStreak [0; 0] 0 1)) (fuel := O); [|reflexivity|auto|reflexivity].
    constructor. }
  split; [reflexivity|]. split; [vm_compute; reflexivity|]. split; [vm_compute; discriminate|].
  split; [vm_compute; reflexivity|].
  split; [exists (mkStreak [1; 1] 0 1); split; vm_compute; intuition discriminate|].
  split; [vm_compute; intuition discriminate|]. split; [vm_compute; auto|vm_compute; reflexivity].
Qed.
Print Assumptions C54_on_or_after_3d_refuted.
