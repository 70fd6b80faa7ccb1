(** ParallelMemoryWriter: every node gets a copy of the whole grid. *)
From Verif Require Import Base ListFacts RegionSpec RegionModel RegionRep RegionIterModel RegionStreaks RegionOps HaloSpec
  CoordModel CoordSpec CoordFacts RegionOpsModel RegionObjModel UpdateModel GridModel GridSpec GridReach CollectModel CollectSpec CollectFacts CollectProps
  ParMemModel ParMemSpec ParMemFacts ParMemProtocol.

(** C219: whatever the order in which the nodes run, once a node has returned
    from a call, its grid for that step has the simulation's dimensions and
    edge cell, and contains all cells which any node has passed with that
    call. *)
Theorem C219_copies : forall C E t correct (dflt : C) n dims size cap num eager (calls : nat -> nat -> wcall C E) G Edge finished period m s,
  length t = S n -> length dims = S n -> Forall (fun k => 0 < k) dims ->
  reports_ok t correct n dims size num calls G Edge finished period ->
  pm_execution t n size num calls dflt cap eager m s ->
  forall q i, (q < size)%nat -> (i < m_call s q)%nat ->
    let g := m_grids s q (k_step (calls q i)) in
    dg_box g = mkBox (map (fun _ => 0) dims) dims /\ g_edge (d_grid g) = Edge (k_step (calls q i)) /\
    forall r c, (r < size)%nat -> inr n (k_region (calls r i)) c -> dg_get t false g c = Some (G (k_step (calls q i)) c).
Proof.
  intros C E t correct dflt n dims size cap num eager calls G Edge finished period m s Ht Hd Hp Hok Hex q i Hq Hi g.
  assert (HI : inv t n dims size num calls G Edge m s) by (eapply inv_execution; eauto).
  destruct (i_pos _ _ _ _ _ _ _ _ _ _ HI q Hq) as (Hc & _). assert (Hin : (i < num)%nat) by lia.
  assert (Hh : forall r, heard size s q r i) by (intros r; now left). destruct (i_know _ _ _ _ _ _ _ _ _ _ HI) as (K1 & K2 & K3). subst g. split; [|split].
  - destruct (K1 q (k_step (calls q i)) Hq) as [K|[_ K]]; [|exfalso; now apply (K q i Hq Hin (Hh q))]. exact (collect_box t n dims Ht Hd Hp _ K).
  - now apply (K3 q q i).
  - intros r c Hr Hcc. now apply (K2 q r i).
Qed.
Print Assumptions C219_copies.

(** C220: nothing goes wrong on the way, the nodes don't wait for each other
    forever, not even if messages are delivered only to nodes which wait for
    them, and they need only so many steps. *)
Theorem C220_no_deadlock : forall C E t correct (dflt : C) n dims size cap num eager (calls : nat -> nat -> wcall C E) G Edge finished period m s,
  length t = S n -> length dims = S n -> Forall (fun k => 0 < k) dims -> (0 < size)%nat ->
  reports_ok t correct n dims size num calls G Edge finished period ->
  pm_execution t n size num calls dflt cap eager m s ->
  (forall e, pm_step t dflt size cap num eager calls s e <> Crash) /\
  ((forall q, (q < size)%nat -> m_call s q = num) \/ exists e s', pm_step t dflt size cap num eager calls s e = Next s') /\
  (m <= size * (num * (size * size + 2)))%nat.
Proof.
  intros C E t correct dflt n dims size cap num eager calls G Edge finished period m s Ht Hd Hp Hsz Hok Hex.
  assert (HI : inv t n dims size num calls G Edge m s) by (eapply inv_execution; eauto).
  split; [intros e; eapply inv_crash; eauto|]. split; [eapply inv_progress; eauto|]. assert (Hl : (m <= size * (num * S (S (length (pm_pairs size)))))%nat) by (eapply inv_limit; eauto).
  assert (length (pm_pairs size) <= size * size)%nat.
  { unfold pm_pairs. transitivity (length (list_prod (seq 0 size) (seq 0 size))); [|rewrite prod_length, seq_length; lia]. clear. induction (list_prod (seq 0 size) (seq 0 size)) as [|x l IH]; [apply le_n|]. cbn [filter length]. destruct (negb _); cbn [length]; lia. }
  nia.
Qed.
Print Assumptions C220_no_deadlock.

(** ** Example
    Two nodes share a ring of four cells, there are two calls: one for step 4,
    one for step 6. *)
Definition px_calls (rank i : nat) : wcall Z bool :=
  mkCall ex_grid (match rank with O => ex_span 0 3 | _ => ex_span 3 4 end) [4] (4 + 2 * Z.of_nat i) true true.

Definition px_state (step : Z) (c : coord) : Z := 10 + hd 0 c.

Example C219_ex_hypotheses : reports_ok [true] false 0 [4] 2 2 px_calls px_state (fun _ => 99) (fun e => e) 2.
Proof.
  split; [|split].
  - intros q i Hq Hi. split.
    + assert (Hreg : exists a b, k_region (px_calls q i) = ex_span a b /\ 0 <= a /\ b <= 4).
      { destruct q; unfold px_calls; cbn [k_region]; do 2 eexists; (split; [reflexivity|lia]). }
      destruct Hreg as (a & b & Ereg & Ha & Hb). unfold report_ok. rewrite Ereg. split; [reflexivity|]. split; [apply ex_span_valid|].
      split; [intros c Hc; apply ex_span_in in Hc; destruct Hc as (x & -> & Hx); cbn; lia|]. split; [reflexivity|]. exists (mkBox [0] [4]), [4]. split; [|split].
      * repeat split; try discriminate. constructor; [lia|constructor].
      * exact ex_grid_reach.
      * intros c Hc. apply ex_span_in in Hc. destruct Hc as (x & -> & Hx). split; [cbn; lia|]. destruct (ex_cells x ltac:(lia)) as [->|[->|[->| ->]]]; reflexivity.
    + destruct i as [|[|]]; [reflexivity|reflexivity|lia].
  - reflexivity.
  - intros q r i c Hq Hr Hi Nqr Hc Hc'. unfold px_calls in Hc, Hc'. cbn [k_region] in Hc, Hc'.
    destruct q, r; try lia; apply ex_span_in in Hc, Hc'; destruct Hc as (x & -> & Hx), Hc' as (y & Ey & Hy); injection Ey as ->; lia.
Qed.

Fixpoint px_run (cap : nat) (eager : bool) (es : list pevent) (s : pstate Z) : outcome (pstate Z) :=
  match es with
  | [] => Next s
  | e :: es' => match pm_step [true] 0 2 cap 2 eager px_calls s e with Next s' => px_run cap eager es' s' | o => o end
  end.

Definition px_whole : dgrid Z := mkDGrid (mkVGrid [4] [10; 11; 12; 13] 99) [0] [0].

(** Node 0 is ahead, node 1 has returned from the first call. *)
Example C219_ex_run : match px_run 1 true [Local 0; Post 0; Local 1; Fetch 1; Post 1; Local 1; Local 1; Fetch 0; Local 0; Local 0; Meet 0 1; Meet 1 0; Local 1; Local 0] (pm_init 0 1) with
  | Next s => (m_call s 0%nat, m_call s 1%nat) = (2, 2)%nat /\ (m_grids s 0%nat 4, m_grids s 1%nat 4, m_grids s 0%nat 6, m_grids s 1%nat 6) = (px_whole, px_whole, px_whole, px_whole)
  | _ => False
  end.
Proof. vm_compute. split; reflexivity. Qed.

Example C220_ex_blocked : px_run 0 false [Local 0; Post 0] (pm_init 0 1) = Blocked /\ px_run 1 false [Local 0; Post 0; Fetch 0] (pm_init 0 1) = Blocked.
Proof. vm_compute. split; reflexivity. Qed.
