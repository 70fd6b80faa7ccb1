(** Distributed partitioning: theorems. *)
From Coq Require Import Floats.SpecFloat.
From Verif Require Import Base RegionSpec RegionModel RegionRep RegionIterModel RegionStreaks CoordModel CoordSpec RegionOpsModel RegionOps CoordFacts
  RegionHistory RegionHist RegionReach PartitionSpec PartitionFacts RegionObjModel PatchModel GridModel GridFacts UpdateModel UpdateFacts AdjacencyModel AdjacencySpec AdjacencyFacts AdjacencyProps
  ParamModel ScotchModel ScotchSpec ScotchFacts ScotchRegions ScotchProps DistScotchModel DistScotchSpec DistScotchFacts FloatFacts DistScotchSlices.
From Coq Require Import Lia ZifyBool ZifyNat.

(** ** C195 *)

Definition in_slice (i : Z) (s : Z * Z) : Prop := fst s <= i < snd s.

Lemma slices_of {N} (A : arith N) num cells b : (forall r, 0 <= r <= Z.of_nat num -> slice_bound A num cells r = Some (b r)) ->
  all_slices A num cells = Some (map (fun r => (b (Z.of_nat r), b (Z.of_nat r + 1))) (seq 0 num)).
Proof.
  intros H. unfold all_slices. assert (G : forall m a, (a + m <= num)%nat -> omap (fun r => start_end A num cells (Z.of_nat r)) (seq a m) = Some (map (fun r => (b (Z.of_nat r), b (Z.of_nat r + 1))) (seq a m))).
  { induction m as [|m IH]; intros a Ha; [reflexivity|]. cbn [seq omap map]. rewrite (IH (S a)) by lia. unfold start_end. rewrite (H (Z.of_nat a)) by lia. cbn [obind]. rewrite (H (Z.of_nat a + 1)) by lia. reflexivity. }
  apply G. lia.
Qed.

Lemma slices_cover cells num b : cut cells num b -> forall i, 0 <= i < cells ->
  exists r s, nth_error (map (fun r => (b (Z.of_nat r), b (Z.of_nat r + 1))) (seq 0 num)) r = Some s /\ in_slice i s /\
    forall r' s', nth_error (map (fun r => (b (Z.of_nat r), b (Z.of_nat r + 1))) (seq 0 num)) r' = Some s' -> in_slice i s' -> r' = r.
Proof.
  intros C i Hi. destruct (cut_find cells num b C i Hi) as (r & Hr & B). exists r, (b (Z.of_nat r), b (Z.of_nat r + 1)). split; [|split].
  - rewrite nth_error_map, (nth_error_nth' _ 0%nat) by (rewrite seq_length; exact Hr). rewrite seq_nth by exact Hr. reflexivity.
  - exact B.
  - intros r' s' E I'. assert (Hr' : (r' < num)%nat). { rewrite <- (seq_length num 0), <- (map_length (fun r => (b (Z.of_nat r), b (Z.of_nat r + 1)))). apply nth_error_Some. congruence. }
    rewrite nth_error_map, (nth_error_nth' _ 0%nat) in E by (rewrite seq_length; exact Hr'). rewrite seq_nth in E by exact Hr'. cbn [option_map plus] in E. injection E as <-. exact (cut_unique cells num b C i r' r Hr' Hr I' B).
Qed.

(** Up to 2^24 cells single precision is good enough. *)
Theorem C195_slices : forall num cells, (1 <= num)%nat -> Z.of_nat num <= 2 ^ 24 -> 0 <= cells <= 2 ^ 24 ->
  exists ss, all_slices single num cells = Some ss /\ length ss = num /\ Forall (fun s => 0 <= fst s <= snd s /\ snd s <= cells) ss /\
  forall i, 0 <= i < cells -> exists r s, nth_error ss r = Some s /\ in_slice i s /\ forall r' s', nth_error ss r' = Some s' -> in_slice i s' -> r' = r.
Proof.
  intros num cells Hn Hn2 Hc. pose proof (bound32_cut num cells Hn Hc) as C. eexists. split; [apply slices_of; intros r Hr; now apply bound32_spec|].
  split; [now rewrite map_length, seq_length|]. split; [|exact (slices_cover cells num _ C)].
  apply Forall_forall. intros s Hs. apply in_map_iff in Hs. destruct Hs as (r & <- & Hr). apply in_seq in Hr. cbn [fst snd].
  pose proof (cut_mono _ _ _ C r 0 ltac:(lia) ltac:(lia)) as M1. pose proof (cut_mono _ _ _ C 1 (Z.of_nat r) ltac:(lia) ltac:(lia)) as M2.
  pose proof (cut_mono _ _ _ C (num - S r) (Z.of_nat r + 1) ltac:(lia) ltac:(lia)) as M3. destruct C as (C0 & Cn & _). replace (0 + Z.of_nat r) with (Z.of_nat r) in M1 by lia. replace (Z.of_nat r + Z.of_nat 1) with (Z.of_nat r + 1) in M2 by lia. replace (Z.of_nat r + 1 + Z.of_nat (num - S r)) with (Z.of_nat num) in M3 by lia. lia.
Qed.

Example slices_3 : all_slices single 3 10 = Some [(0, 3); (3, 6); (6, 10)] /\ all_slices single 3 16777216 = Some [(0, 5592405); (5592405, 11184811); (11184811, 16777216)].
Proof. split; vm_compute; reflexivity. Qed.

(** ** C196 *)

(** Beyond that the last cell may be lost, or cells beyond the end may be
    added; exact arithmetic would do. *)
Theorem C196_slices_refuted :
  (exists ss, all_slices single 2 16777217 = Some ss /\ ~ exists s, In s ss /\ in_slice 16777216 s) /\
  (exists ss s, all_slices single 2 16777219 = Some ss /\ In s ss /\ in_slice 16777219 s).
Proof.
  split.
  - exists [(0, 8388608); (8388608, 16777216)]. split; [vm_compute; reflexivity|]. intros (s & [<-|[<-|[]]] & H); unfold in_slice in H; cbn [fst snd] in H; lia.
  - exists [(0, 8388610); (8388610, 16777220)], (8388610, 16777220). split; [vm_compute; reflexivity|]. split; [right; now left|]. unfold in_slice. cbn [fst snd]. lia.
Qed.

(** ** C197 *)

Theorem C197_exchange : forall num partials, fragments num partials -> forall s, xreach num partials s ->
  (forall e, xstep partials s e <> Crash) /\
  (~ xdone num s -> exists e s', unavoidable e /\ xstep partials s e = Next s') /\
  (forall e s', xstep partials s e = Next s' -> (remaining num s' < remaining num s)%nat) /\
  (xdone num s -> forall r, (r < num)%nat -> length (x_regs s r) = num /\ forall k g, nth_error (x_regs s r) k = Some g -> assembled num partials k g).
Proof.
  intros num partials F s R. pose proof (reach_inv num partials F s R) as I. split; [|split; [|split]].
  - intros e E. pose proof (step_inv num partials F s e I) as H. now rewrite E in H.
  - intros D. exact (progress num partials F s I D).
  - intros e s' E. exact (step_decreases num partials s e s' I E).
  - intros D r Hr. exact (done_regs num partials s I D r Hr).
Qed.

(** Two ranks, two cells each: parts 0, 1 and 1, 0 *)
Definition two (r : nat) : list indices :=
  match r with
  | O => [insert_all (reg_empty 1) [mkStreak [] 0 1]; insert_all (reg_empty 1) [mkStreak [] 1 2]]
  | _ => [insert_all (reg_empty 1) [mkStreak [] 3 4]; insert_all (reg_empty 1) [mkStreak [] 2 3]]
  end.

Fixpoint xrun (s : xstate) (es : list xevent) : option xstate :=
  match es with [] => Some s | e :: es' => match xstep two s e with Next s' => xrun s' es' | _ => None end end.

Definition merged : list indices := [insert_all (reg_empty 1) [mkStreak [] 0 1; mkStreak [] 3 4]; insert_all (reg_empty 1) [mkStreak [] 1 3]].

Example two_ranks :
  option_map (fun s => (x_regs s 0, x_regs s 1, x_todo s 0, x_todo s 1)) (xrun (xinit 2 two) [EHandOver 1 0; EBuffer 1; EReceive 0; EBuffer 0; EReceive 1; EHandOver 0 1]%nat)
    = Some (merged, merged, [], []) /\
  xstep two (xinit 2 two) (EHandOver 0 1) = Blocked.
Proof. split; vm_compute; reflexivity. Qed.

Lemma two_fragments : fragments 2 two.
Proof.
  assert (O : forall a b, a < b -> reachable 0 (insert_all (reg_empty 1) [mkStreak [] a b])).
  { intros a b Hab. apply (reach_rop 0 (reg_empty 1) (InsStreak (mkStreak [] a b)) 0%nat); [constructor|reflexivity|cbn; lia|reflexivity]. }
  intros r Hr. destruct r as [|[|r]]; [| |lia]; (split; [reflexivity|]); repeat constructor; apply O; lia.
Qed.

(** ** C198 *)

Lemma csr_shift edges start : forall n i index, csr_loop edges n (start + i) index = csr_loop (fun k => edges (start + k)) n i index.
Proof. induction n as [|n IH]; intros i index; [reflexivity|]. cbn [csr_loop]. replace (start + i + 1) with (start + (i + 1)) by lia. now rewrite IH. Qed.

Lemma last_nth (l : list Z) d : last l d = nth (length l - 1) l d.
Proof. induction l as [|x l IH]; [reflexivity|]. destruct l as [|y l]; [reflexivity|]. change (last (x :: y :: l) d) with (last (y :: l) d). rewrite IH. cbn [length]. rewrite !Nat.sub_succ, !Nat.sub_0_r. reflexivity. Qed.

Lemma local_graph_spec a (E : Z -> Z -> Prop) (nb : Z -> list Z) s e : 0 <= s <= e ->
  (forall i acc, 0 <= i < e -> ra_neighbors a i acc = Some (acc ++ nb i)) ->
  (forall i, 0 <= i < e -> NoDup (nb i) /\ forall j, In j (nb i) <-> E i j) ->
  exists g, local_graph a s e = Some g /\ describes g (e - s) (fun i j => E (s + i) j).
Proof.
  intros Hs Hn He. unfold local_graph. destruct (csr_loop nb (Z.to_nat (e - s)) s 0) as [vt et] eqn:Ec.
  pose proof (adj_loop_spec a nb e Hn (Z.to_nat (e - s)) s 0 [] [] ltac:(lia) ltac:(lia)) as G. rewrite Ec in G. cbn [app] in G. rewrite G. cbn [option_map fst snd].
  destruct (csr_spec _ _ _ _ _ _ Ec) as (L & _ & V & _).
  assert (La : last vt 0 = Z.of_nat (length et)). { rewrite last_nth, L. replace (S (Z.to_nat (e - s)) - 1)%nat with (Z.to_nat (e - s)) by lia. lia. }
  rewrite La. eexists. split; [reflexivity|]. replace s with (s + 0) in Ec at 2 by lia. rewrite csr_shift in Ec.
  pose proof (csr_describes (fun k => nb (s + k)) (fun i j => E (s + i) j) (Z.to_nat (e - s))) as D. rewrite Z2Nat.id in D by lia. apply D; [|exact Ec]. intros i Hi. apply He. lia.
Qed.

Lemma partial_spec num start parts : 0 <= start -> Forall (fun p => 0 <= p < Z.of_nat num) parts ->
  exists rs, partial_regions num start parts = Some rs /\ length rs = num /\
    forall k f, nth_error rs k = Some f -> reachable 0 f /\ forall c, length c = 1%nat ->
      (rin f c <-> exists i, start <= i < start + Z.of_nat (length parts) /\ part_of parts (i - start) = Z.of_nat k /\ c = [i]).
Proof.
  intros Hs Fp. set (all := repeat (-1) (Z.to_nat start) ++ parts).
  assert (Fi : firstn (Z.to_nat start) all = repeat (-1) (Z.to_nat start)). { unfold all. rewrite firstn_app, repeat_length, Nat.sub_diag. cbn [firstn]. rewrite app_nil_r. apply firstn_all2. rewrite repeat_length. lia. }
  assert (Po : forall j k : Z, 0 <= j -> 0 <= k -> (part_of all j = k <-> start <= j /\ part_of parts (j - start) = k)).
  { intros j k Hj Hk. unfold part_of, all. destruct (Z_lt_le_dec j start) as [L|L].
    - rewrite app_nth1 by (rewrite repeat_length; lia). rewrite nth_repeat. lia.
    - rewrite app_nth2 by (rewrite repeat_length; lia). rewrite repeat_length. replace (Z.to_nat j - Z.to_nat start)%nat with (Z.to_nat (j - start)) by lia. intuition. }
  destruct (coords_spec num all parts start (repeat (reg_empty 1) num)) as (rs & R1 & R2 & R3); try assumption.
  - now rewrite Fi.
  - rewrite Fi, repeat_length. reflexivity.
  - apply repeat_length.
  - intros k r Hk. apply nth_error_In, repeat_spec in Hk. subst r. split; [constructor|]. intros c Hc. split; [intros H; exfalso; now apply (rin_empty 0 c Hc)|].
    intros (j & Hj & Hp & _). apply Po in Hp; lia.
  - exists rs. split; [exact R1|]. split; [exact R2|]. intros k f Hf. destruct (R3 k f Hf) as (A & B). split; [exact A|]. intros c Hc. rewrite (B c Hc).
    assert (La : Z.of_nat (length all) = start + Z.of_nat (length parts)) by (unfold all; rewrite app_length, repeat_length; lia). rewrite La.
    split; intros (j & Hj & Hp & E); exists j.
    + apply Po in Hp; [|lia|lia]. destruct Hp as (P1 & P2). repeat split; try lia; assumption.
    + repeat split; try lia; try assumption. apply Po; [lia|lia|]. split; [lia|exact Hp].
Qed.

(** What PT-SCOTCH may return: for each rank the parts of its cells *)
Definition dparts_ok (num : nat) (ss : list (Z * Z)) (pss : list (list Z)) : Prop :=
  Forall2 (fun s ps => parts_ok (snd s - fst s) num ps) ss pss.

(** Whatever the order of messages: in the end all ranks agree on the
    partition chosen by PT-SCOTCH. *)
Theorem C198_partition MAX maxSize os scotch num cells_ :
  0 <= maxSize -> edges_below MAX os -> Z.of_nat num <= 2 ^ 24 -> (1 <= num)%nat -> 0 <= cells_ <= 2 ^ 24 -> cells_ <= MAX ->
  (forall ss gs, all_slices single num cells_ = Some ss ->
     Forall2 (fun s g => describes g (snd s - fst s) (fun i j => In (fst s + i, j) (edges os))) ss gs -> dparts_ok num ss (scotch gs num)) ->
  exists a ss gs partials, ra_ops MAX (ra_new MAX maxSize) os = Some a /\
    all_slices single num cells_ = Some ss /\
    Forall2 (fun s g => describes g (snd s - fst s) (fun i j => In (fst s + i, j) (edges os))) ss gs /\
    all_partials single scotch num cells_ a = Some partials /\
    fragments num (fun r => nth r partials []) /\
    forall st, xreach num (fun r => nth r partials []) st -> xdone num st -> forall rank, (rank < num)%nat ->
      exact_cover 0 num (fun k => nth_error (x_regs st rank) k) (in_box (mkBox [0] [cells_])) /\
      forall k r s ps i, (k < num)%nat -> nth_error ss r = Some s -> nth_error (scotch gs num) r = Some ps -> in_slice i s ->
        (cells 0 (fun k => nth_error (x_regs st rank) k) k [i] <-> part_of ps (i - fst s) = Z.of_nat k).
Proof.
  intros Hm He Hn2 Hn Hc HM Hs. destruct (C43_adjacency MAX maxSize os Hm He) as (a & es & Ea & Hnb & _ & _ & _).
  set (nb := fun i => match ra_neighbors a i [] with Some l => l | None => [] end).
  assert (N1 : forall i, 0 <= i < cells_ -> ra_neighbors a i [] = Some (nb i) /\ NoDup (nb i) /\ forall t, In t (nb i) <-> In (i, t) (edges os)).
  { intros i Hi. destruct (Hnb i [] ltac:(lia)) as (l & El & Hl & Ht). unfold nb. rewrite El. cbn [app]. split; [reflexivity|]. split; [|exact Ht].
    clear - Hl. induction Hl as [|x l _ IH F]; constructor; [|exact IH]. intros Hx. rewrite Forall_forall in F. specialize (F x Hx). lia. }
  assert (N2 : forall i acc, 0 <= i < cells_ -> ra_neighbors a i acc = Some (acc ++ nb i)).
  { intros i acc Hi. rewrite neighbors_acc. destruct (N1 i Hi) as (-> & _). reflexivity. }
  destruct (C195_slices num cells_ Hn Hn2 Hc) as (ss & Ess & Lss & Fss & Cov).
  assert (Gs : exists gs, omap (fun s => local_graph a (fst s) (snd s)) ss = Some gs /\ Forall2 (fun s g => describes g (snd s - fst s) (fun i j => In (fst s + i, j) (edges os))) ss gs).
  { clear - Fss N1 N2. induction Fss as [|s ss Hss _ (gs & E & F)]; [exists []; split; [reflexivity|constructor]|].
    destruct (local_graph_spec a (fun i j => In (i, j) (edges os)) nb (fst s) (snd s) ltac:(lia)) as (g & Eg & Dg).
    - intros i acc Hi. apply N2. lia.
    - intros i Hi. destruct (N1 i ltac:(lia)) as (_ & H). exact H.
    - exists (g :: gs). cbn [omap]. rewrite Eg. cbn [obind]. rewrite E. split; [reflexivity|]. constructor; assumption. }
  destruct Gs as (gs & Egs & Fgs). specialize (Hs ss gs Ess Fgs).
  assert (Ps : exists partials, omap (fun p => partial_regions num (fst (fst p)) (snd p)) (combine ss (scotch gs num)) = Some partials /\ length partials = length ss /\
    forall r s ps, nth_error ss r = Some s -> nth_error (scotch gs num) r = Some ps -> exists rs, nth_error partials r = Some rs /\ length rs = num /\
      forall k f, nth_error rs k = Some f -> reachable 0 f /\ forall c, length c = 1%nat -> (rin f c <-> exists i, in_slice i s /\ part_of ps (i - fst s) = Z.of_nat k /\ c = [i])).
  { clear - Fss Hs. unfold dparts_ok in Hs. induction Hs as [|s ps ss pss (P1 & P2) _ IH]; [exists []; repeat split; intros [|r] s ps H; discriminate|].
    inversion Fss as [|? ? F1 F2]; subst. destruct (IH F2) as (partials & E & L & H). destruct (partial_spec num (fst s) ps ltac:(lia) P2) as (rs & E1 & L1 & H1).
    exists (rs :: partials). cbn [combine omap fst snd]. rewrite E1. cbn [obind]. rewrite E. split; [reflexivity|]. split; [cbn [length]; lia|].
    intros [|r] s' ps' Es Ep; cbn [nth_error] in Es, Ep; [|exact (H r s' ps' Es Ep)]. injection Es as <-. injection Ep as <-. exists rs. split; [reflexivity|]. split; [exact L1|].
    intros k f Hf. destruct (H1 k f Hf) as (A & B). split; [exact A|]. intros c Hcl. rewrite (B c Hcl). unfold in_slice. rewrite P1. replace (fst s + (snd s - fst s)) with (snd s) by lia. reflexivity. }
  destruct Ps as (partials & Ep & Lp & Hp).
  assert (Pl : length (scotch gs num) = num). { assert (L : length ss = length (scotch gs num)) by (clear - Hs; unfold dparts_ok in Hs; induction Hs; cbn [length]; lia). lia. }
  assert (At : forall r, (r < num)%nat -> exists s ps rs, nth_error ss r = Some s /\ nth_error (scotch gs num) r = Some ps /\ nth r partials [] = rs /\ length rs = num /\
      forall k f, nth_error rs k = Some f -> reachable 0 f /\ forall c, length c = 1%nat -> (rin f c <-> exists i, in_slice i s /\ part_of ps (i - fst s) = Z.of_nat k /\ c = [i])).
  { intros r Hr. destruct (nth_error ss r) as [s|] eqn:E1; [|apply nth_error_None in E1; lia]. destruct (nth_error (scotch gs num) r) as [ps|] eqn:E2; [|apply nth_error_None in E2; lia].
    destruct (Hp r s ps E1 E2) as (rs & E3 & L & H). exists s, ps, rs. repeat split; try assumption; try (now apply nth_error_nth). all: intros; now apply (H k f). }
  assert (Fr : fragments num (fun r => nth r partials [])).
  { intros r Hr. destruct (At r Hr) as (s & ps & rs & _ & _ & E & L & H). rewrite E. split; [exact L|]. apply Forall_forall. intros f Hf. apply In_nth_error in Hf. destruct Hf as (k & Hk). now apply (H k f). }
  exists a, ss, gs, partials. split; [exact Ea|]. split; [exact Ess|]. split; [exact Fgs|]. split; [unfold all_partials; rewrite Ess; cbn [obind]; rewrite Egs; exact Ep|]. split; [exact Fr|].
  intros st R D rank Hrank. destruct (C197_exchange num _ Fr st R) as (_ & _ & _ & Dn). destruct (Dn D rank Hrank) as (Lr & As).
  assert (O : forall k c, (k < num)%nat -> (cells 0 (fun k => nth_error (x_regs st rank) k) k c <-> exists r s ps i, (r < num)%nat /\ nth_error ss r = Some s /\ nth_error (scotch gs num) r = Some ps /\ in_slice i s /\ part_of ps (i - fst s) = Z.of_nat k /\ c = [i])).
  { intros k c Hk. unfold cells. destruct (nth_error (x_regs st rank) k) as [g|] eqn:Eg; [|apply nth_error_None in Eg; lia]. destruct (As k g Eg) as (_ & B). split.
    - intros (g' & [= <-] & Hcl & Hin). apply (B c Hcl) in Hin. destruct Hin as (i & f & Hi & Ef & Hin). destruct (At i Hi) as (s & ps & rs & E1 & E2 & E3 & _ & H). rewrite E3 in Ef.
      destruct (H k f Ef) as (_ & Hf). apply (Hf c Hcl) in Hin. destruct Hin as (j & J1 & J2 & J3). exists i, s, ps, j. auto 7.
    - intros (r & s & ps & i & Hr & E1 & E2 & J1 & J2 & ->). exists g. split; [reflexivity|]. split; [reflexivity|]. apply (B [i] eq_refl). destruct (At r Hr) as (s' & ps' & rs & E1' & E2' & E3 & L & H).
      assert (s' = s) by congruence. assert (ps' = ps) by congruence. subst s' ps'. destruct (nth_error rs k) as [f|] eqn:Ef; [|apply nth_error_None in Ef; lia].
      exists r, f. split; [exact Hr|]. split; [now rewrite E3|]. apply (H k f Ef); [reflexivity|]. exists i. auto. }
  split; [split; [|split]|].
  - intros k Hk. destruct (nth_error (x_regs st rank) k) as [g|] eqn:Eg; [|apply nth_error_None in Eg; lia]. exists g. split; [reflexivity|]. now apply (As k g).
  - intros k k' c Hk Hk' C1 C2. apply O in C1; [|exact Hk]. apply O in C2; [|exact Hk']. destruct C1 as (r & s & ps & i & Hr & E1 & E2 & J1 & J2 & ->). destruct C2 as (r' & s' & ps' & i' & Hr' & E1' & E2' & J1' & J2' & Ei). injection Ei as <-.
    assert (Hi : 0 <= i < cells_). { rewrite Forall_forall in Fss. pose proof (Fss s (nth_error_In _ _ E1)). unfold in_slice in J1. lia. }
    destruct (Cov i Hi) as (q & t & _ & _ & U). assert (r = q) by (apply (U r s E1 J1)). assert (r' = q) by (apply (U r' s' E1' J1')). subst r r'. assert (s' = s) by congruence. assert (ps' = ps) by congruence. subst. lia.
  - intros c. unfold in_box. cbn [b_origin b_dim]. split.
    + intros Hb. destruct c as [|i [|]]; cbn [inside] in Hb; try tauto. destruct Hb as (Hi & _). destruct (Cov i ltac:(lia)) as (r & s & E1 & J1 & _).
      assert (Hr : (r < num)%nat) by (rewrite <- Lss; apply nth_error_Some; congruence). destruct (At r Hr) as (s' & ps & rs & E1' & E2 & _). assert (s' = s) by congruence. subst s'.
      assert (P : 0 <= part_of ps (i - fst s) < Z.of_nat num).
      { assert (Pk : parts_ok (snd s - fst s) num ps).
        { clear - Hs E1 E2. unfold dparts_ok in Hs. revert r E1 E2. induction Hs as [|x y l l' Hxy _ IH]; intros [|r] E1 E2; try discriminate; cbn [nth_error] in *; [congruence|eauto]. }
        destruct Pk as (P1 & P2). unfold part_of. rewrite Forall_forall in P2. apply P2, nth_In. unfold in_slice in J1. lia. }
      exists (Z.to_nat (part_of ps (i - fst s))). split; [lia|]. apply O; [lia|]. exists r, s, ps, i. refine (conj Hr (conj E1 (conj E2 (conj J1 (conj _ eq_refl))))). rewrite Z2Nat.id; [reflexivity|apply P].
    + intros (k & Hk & C). apply O in C; [|exact Hk]. destruct C as (r & s & ps & i & Hr & E1 & _ & J1 & _ & ->). rewrite Forall_forall in Fss. pose proof (Fss s (nth_error_In _ _ E1)). unfold in_slice in J1. cbn [inside]. repeat split; lia.
  - intros k r s ps i Hk E1 E2 J1. rewrite (O k [i] Hk). split.
    + intros (r' & s' & ps' & i' & Hr' & E1' & E2' & J1' & J2' & Ei). injection Ei as <-.
      assert (Hi : 0 <= i < cells_). { rewrite Forall_forall in Fss. pose proof (Fss s (nth_error_In _ _ E1)). unfold in_slice in J1. lia. }
      destruct (Cov i Hi) as (q & t & _ & _ & U). assert (r = q) by (apply (U r s E1 J1)). assert (r' = q) by (apply (U r' s' E1' J1')). subst r r'. assert (s' = s) by congruence. assert (ps' = ps) by congruence. subst. exact J2'.
    + intros J2. exists r, s, ps, i. refine (conj _ (conj E1 (conj E2 (conj J1 (conj J2 eq_refl))))). rewrite <- Lss. apply nth_error_Some. congruence.
Qed.

(** The path of ScotchProps on two ranks. *)
Definition alternate (gs : list graph) (n : nat) : list (list Z) := [[0; 1]; [1; 0]].

Example alternate_partials :
  obind (ra_ops 100 (ra_new 100 50) path_edges) (fun a => all_partials single alternate 2 4 a) = Some [two 0; two 1] /\
  obind (ra_ops 100 (ra_new 100 50) path_edges) (fun a => local_graph a 2 4) = Some (mkGraph [0; 2; 3] [1; 3; 2] 3).
Proof. split; vm_compute; reflexivity. Qed.

Example alternate_ok : forall ss gs, all_slices single 2 4 = Some ss -> dparts_ok 2 ss (alternate gs 2).
Proof.
  intros ss gs H. assert (E : all_slices single 2 4 = Some [(0, 2); (2, 4)]) by (vm_compute; reflexivity). assert (ss = [(0, 2); (2, 4)]) by congruence. subst ss.
  unfold dparts_ok, alternate. repeat constructor; lia.
Qed.

Print Assumptions C195_slices.
Print Assumptions C196_slices_refuted.
Print Assumptions C197_exchange.
Print Assumptions C198_partition.
