(** CollectingWriter: the delegate gets to see the whole grid. *)
From Verif Require Import Base ListFacts RegionSpec RegionModel RegionRep RegionIterModel RegionStreaks RegionOps HaloSpec
  CoordModel CoordSpec CoordFacts RegionOpsModel RegionSeekModel RegionObjModel RegionGeometry SellModel AdjacencyFacts UpdateModel GridModel GridSpec GridReach CollectModel CollectSpec CollectFacts.

(** C51: whatever the order in which the nodes run, the delegate is called
    once for each of the root's last calls, in order, with the complete state
    of the simulation at that call. *)
Theorem C51_delivers : forall C E t correct (dflt : C) n dims size root cap num (calls : nat -> nat -> wcall C E) G m s,
  length t = S n -> length dims = S n -> Forall (fun k => 0 < k) dims -> (root < size)%nat -> (0 < cap)%nat ->
  calls_ok t correct n dims size root num calls G ->
  execution t correct dflt size root cap num calls (S n) m s ->
  Forall2 (delivers t dims root calls G) (due root calls (w_call s)) (rev (w_log s)).
Proof.
  intros C E t correct dflt n dims size root cap num calls G m s Ht Hd Hp Hr Hc Hok Hex.
  exact (i_log _ _ _ _ _ _ _ _ _ _ _ _ (inv_execution t correct dflt n dims size root cap num calls G Ht Hd Hp Hr Hc Hok m s Hex)).
Qed.
Print Assumptions C51_delivers.

(** C51: nothing goes wrong on the way, the nodes don't wait for each other
    forever, and they need only so many steps. *)
Theorem C51_no_deadlock : forall C E t correct (dflt : C) n dims size root cap num (calls : nat -> nat -> wcall C E) G m s,
  length t = S n -> length dims = S n -> Forall (fun k => 0 < k) dims -> (root < size)%nat -> (0 < cap)%nat ->
  calls_ok t correct n dims size root num calls G ->
  execution t correct dflt size root cap num calls (S n) m s ->
  (forall e, w_step t correct dflt size root cap num calls s e <> Crash) /\
  (w_call s = num \/ exists e s', w_step t correct dflt size root cap num calls s e = Next s') /\
  (m <= num * (2 * size + 2))%nat.
Proof.
  intros C E t correct dflt n dims size root cap num calls G m s Ht Hd Hp Hr Hc Hok Hex.
  pose proof (inv_execution t correct dflt n dims size root cap num calls G Ht Hd Hp Hr Hc Hok m s Hex) as Hi.
  split; [intros e; eapply inv_crash; eauto|]. split; [|eapply inv_bound; eauto].
  assert (w_call s <= num)%nat by (pose proof (i_phase _ _ _ _ _ _ _ _ _ _ _ _ Hi) as H; destruct (w_phase s); lia).
  destruct (Nat.eq_dec (w_call s) num); [now left|right]. eapply inv_progress; eauto. lia.
Qed.
Print Assumptions C51_no_deadlock.

(** ** Example

    Two nodes report a ring of four cells in two calls each, all four cells
    being covered only after the second one. *)
Definition ex_grid : dgrid Z := mkDGrid (mkVGrid [4] [10; 11; 12; 13] 99) [0] [4].

Definition ex_span (a b : Z) : indices := rg_idx (rg_insert_all (rg_new 1) [mkStreak [] a b]).

Definition ex_calls (rank i : nat) : wcall Z bool :=
  let r := match rank, i with O, O => ex_span 0 1 | O, _ => ex_span 1 2 | _, O => ex_span 3 4 | _, _ => ex_span 2 3 end in
  mkCall ex_grid r [4] (7 + Z.of_nat i) true (match i with O => false | _ => true end).

Definition ex_state (i : nat) (c : coord) : Z := 10 + hd 0 c.

Lemma ex_grid_reach : dg_reach [true] false (mkBox [0] [4]) [4] ex_grid.
Proof.
  apply (reach_op _ _ _ _ (mkDGrid (mkVGrid [4] [0; 0; 0; 0] 99) [0] [4]) (GSetStreak (mkStreak [] 0 4) [10; 11; 12; 13])).
  - apply (reach_make [true] false (mkBox [0] [4]) [4] 0 99).
  - split; [cbn; lia|]. split; [|reflexivity]. cbn. repeat constructor; cbn; lia.
  - reflexivity.
Qed.

Lemma ex_span_valid a b : rvalid 0 (ex_span a b).
Proof. destruct (insert_new 0 [mkStreak [] a b]) as [H _]; [repeat constructor|]. exact (proj1 H). Qed.

Lemma ex_span_in a b c : inr 0 (ex_span a b) c <-> exists x, c = [x] /\ a <= x < b.
Proof.
  unfold inr, ex_span. destruct (insert_new 0 [mkStreak [] a b]) as [_ H]; [repeat constructor|]. split.
  - intros [Hl Hc]. apply H in Hc; [|exact Hl]. destruct Hc as (s & [<-|[]] & Hs). destruct c as [|x [|]]; try discriminate.
    exists x. split; [reflexivity|]. unfold in_streak in Hs. cbn in Hs. destruct Hs as (y & Ey & Hy). injection Ey as ->. lia.
  - intros (x & -> & Hx). split; [reflexivity|]. apply H; [reflexivity|]. eexists. split; [left; reflexivity|]. exists x. split; [reflexivity|cbn; lia].
Qed.

Lemma ex_cells x : 0 <= x < 4 -> x = 0 \/ x = 1 \/ x = 2 \/ x = 3.
Proof. lia. Qed.

Example C51_ex_hypotheses : calls_ok [true] false 0 [4] 2 1 2 ex_calls ex_state.
Proof.
  split.
  - intros rank i Hr Hi. assert (Hreg : exists a b, k_region (ex_calls rank i) = ex_span a b /\ 0 <= a /\ b <= 4).
    { destruct rank, i; unfold ex_calls; cbn [k_region]; do 2 eexists; (split; [reflexivity|lia]). }
    destruct Hreg as (a & b & Ereg & Ha & Hb). unfold call_ok. rewrite Ereg. split; [reflexivity|]. split; [apply ex_span_valid|].
    split; [intros c Hc; apply ex_span_in in Hc; destruct Hc as (x & -> & Hx); cbn; lia|]. exists (mkBox [0] [4]), [4]. split; [|split; [|split]].
    + repeat split; try discriminate. constructor; [lia|constructor].
    + exact ex_grid_reach.
    + intros c Hc. apply ex_span_in in Hc. destruct Hc as (x & -> & Hx). cbn. lia.
    + intros c Hc. apply ex_span_in in Hc. destruct Hc as (x & -> & Hx). destruct (ex_cells x ltac:(lia)) as [->|[->|[->| ->]]]; reflexivity.
  - intros i Hi Hlast. exists O. split; [lia|]. split; [reflexivity|]. intros c Hc.
    destruct c as [|x [|]]; cbn in Hc; try tauto. destruct (ex_cells x ltac:(lia)) as [->|[->|[->| ->]]].
    + exists O, O. split; [lia|]. split; [lia|]. apply ex_span_in. exists 0. split; [reflexivity|lia].
    + exists 1%nat, O. split; [destruct i; [discriminate|lia]|]. split; [lia|]. apply ex_span_in. exists 1. split; [reflexivity|lia].
    + exists 1%nat, 1%nat. split; [destruct i; [discriminate|lia]|]. split; [lia|]. apply ex_span_in. exists 2. split; [reflexivity|lia].
    + exists O, 1%nat. split; [lia|]. split; [lia|]. apply ex_span_in. exists 3. split; [reflexivity|lia].
Qed.

(** A run to completion; node 0 is the one to send. *)
Fixpoint ex_run (es : list wevent) (s : wstate Z bool) : outcome (wstate Z bool) :=
  match es with
  | [] => Next s
  | e :: es' => match w_step [true] false 0 2 1 1 2 ex_calls s e with Next s' => ex_run es' s' | o => o end
  end.

Example C51_ex_run : match ex_run [Root; Send 0; Root; Send 0; Root; Root; Root; Root; Root; Root] (w_init 0 1) with
  | Next s => w_call s = 2%nat /\ w_log s = [mkDelivery (mkDGrid (mkVGrid [4] [10; 11; 12; 13] 99) [0] [0]) 8 true]
  | _ => False
  end.
Proof. vm_compute. split; reflexivity. Qed.

(** Node 0 can't be ahead by two messages, and the root waits for it. *)
Example C51_ex_blocked : ex_run [Send 0; Send 0] (w_init 0 1) = Blocked /\ ex_run [Root; Root] (w_init 0 1) = Blocked.
Proof. vm_compute. split; reflexivity. Qed.
