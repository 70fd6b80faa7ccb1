(** SCOTCH partitions: theorems. *)
From Verif Require Import Base RegionSpec RegionModel RegionRep RegionIterModel RegionStreaks CoordModel CoordSpec RegionOpsModel RegionOps CoordFacts
  RegionHistory RegionHist RegionReach RegionSeekModel PartitionSpec PartitionFacts StripingFacts RegionObjModel PatchModel GridModel GridFacts UpdateModel AdjacencyModel AdjacencySpec AdjacencyFacts AdjacencyProps
  ScotchModel ScotchSpec ScotchFacts ScotchRegions.
From Coq Require Import Lia ZifyBool ZifyNat Permutation.

(** ** C191 *)

(** Whatever is found behind the last element: the graph is the grid's, and
    the regions are SCOTCH's parts. *)
Theorem C191_scotch d scotch beyond origin dims weights :
  (length dims = 2%nat \/ length dims = 3%nat) -> length dims = S d -> Forall (fun n => 1 <= n) dims -> length origin = S d ->
  (forall g, describes g (prod dims) (face_neighbors dims) -> parts_ok (prod dims) (length weights) (scotch g weights)) ->
  exists g rs, describes g (prod dims) (face_neighbors dims) /\
    scotch_partition scotch (Some beyond) origin dims weights = Some rs /\
    exact_cover d (length weights) (scotch_region (Some rs)) (in_box (mkBox origin dims)) /\
    forall k c, (k < length weights)%nat ->
      (cells d (scotch_region (Some rs)) k c <-> in_box (mkBox origin dims) c /\ part_of (scotch g weights) (cell_no 0 dims (zsub c origin)) = Z.of_nat k).
Proof.
  intros H23 Hd Hpos Ho Hs. assert (Hf : dims_fine dims) by (split; assumption). destruct (grid_graph_spec dims Hf) as (g & Eg & Dg).
  specialize (Hs g Dg). destruct (create_spec d (length weights) origin dims beyond (scotch g weights) Hf Hd Ho Hs) as (rs & Er & Dr).
  pose proof (done_owner d (length weights) origin dims (scotch g weights) Hf Hd Ho rs Dr) as O.
  exists g, rs. split; [exact Dg|]. split; [unfold scotch_partition; rewrite Eg; exact Er|]. split; [|exact O].
  split; [|split].
  - intros k Hk. destruct Dr as (L & R). unfold scotch_region. cbn [obind]. destruct (nth_error rs k) as [r|] eqn:E; [|apply nth_error_None in E; lia]. exists r. split; [reflexivity|]. now apply (R k r).
  - intros k k' c Hk Hk' C1 C2. apply O in C1; [|exact Hk]. apply O in C2; [|exact Hk']. lia.
  - intros c. split.
    + intros Hc. pose proof Hc as Hb. apply box_shift in Hb; [|lia]. destruct Hb as (_ & G). pose proof (cell_no_bound dims _ Hf G) as B.
      destruct (read_in d (length weights) origin dims beyond (scotch g weights) Hd Ho Hs _ B) as (_ & P). set (p := part_of _ _) in *.
      exists (Z.to_nat p). split; [lia|]. apply O; [lia|]. split; [exact Hc|]. fold p. lia.
    + intros (k & Hk & C). apply O in C; [|exact Hk]. apply C.
Qed.

(** ** C192 *)

Lemma overread parts origin dims : Z.of_nat (length parts) = prod dims ->
  forall n i rank len start rs, i + Z.of_nat n = prod dims + 1 -> (0 < n)%nat -> regions_loop None parts origin dims n i rank len start rs = None.
Proof.
  intros HL. induction n as [|n IH]; intros i rank len start rs Hi Hn; [lia|]. cbn [regions_loop].
  destruct (read_part None parts i) as [p|] eqn:E; [|reflexivity]. cbn [obind].
  destruct n as [|n].
  - exfalso. unfold read_part in E. destruct (vec_get parts i) as [q|] eqn:G; [|destruct (i =? Z.of_nat (length parts)); discriminate].
    unfold vec_get in G. destruct (i <? 0); [discriminate|]. assert (Z.to_nat i < length parts)%nat by (apply nth_error_Some; congruence). lia.
  - destruct ((rank =? p) && (i <? prod dims) && negb (i mod axis 0 dims =? 0)); [apply IH; lia|].
    destruct (vec_get rs rank) as [r|]; [|reflexivity]. cbn [obind]. destruct (reg_insert_box 1 r _) as [r'|]; [|reflexivity]. cbn [obind].
    destruct (vec_set rs rank r') as [rs'|]; [|reflexivity]. cbn [obind]. apply IH; lia.
Qed.

(** Each and every partition reads behind the end of the array of parts. *)
Theorem C192_overread_refuted : forall scotch origin dims weights, 1 <= prod dims ->
  (forall g, Z.of_nat (length (scotch g weights)) = prod dims) ->
  scotch_partition scotch None origin dims weights = None.
Proof.
  intros scotch origin dims weights Hp Hs. unfold scotch_partition. destruct (grid_graph dims) as [g|]; [|reflexivity]. cbn [obind]. unfold create_regions.
  destruct (read_part None (scotch g weights) 0) as [p|]; [|reflexivity]. cbn [obind]. apply overread; [apply Hs|lia|lia].
Qed.

(** A grid of 3 x 2 cells, in two parts. *)
Definition halves (g : graph) (w : list Z) : list Z := [0; 0; 1; 0; 1; 1].

Example halves_ok : forall g, parts_ok (prod [2; 3]) 2 (halves g [3; 3]).
Proof. intros g. split; [reflexivity|]. unfold halves. repeat constructor; lia. Qed.

Example halves_regions :
  grid_graph [2; 3] = Some (mkGraph [0; 2; 5; 7; 9; 12; 14] [1; 3; 0; 2; 4; 1; 5; 4; 0; 3; 5; 1; 4; 2] 14) /\
  scotch_partition halves (Some 77) [10; 20] [2; 3] [3; 3] =
    Some [insert_all (reg_empty 2) [mkStreak [10] 20 22; mkStreak [11] 20 21]; insert_all (reg_empty 2) [mkStreak [10] 22 23; mkStreak [11] 21 23]] /\
  scotch_partition halves None [10; 20] [2; 3] [3; 3] = None.
Proof. split; [|split]; vm_compute; reflexivity. Qed.

(** ** C193 *)

Lemma neighbors_acc a i acc : ra_neighbors a i acc = option_map (app acc) (ra_neighbors a i []).
Proof.
  unfold ra_neighbors. destruct (nth_error (ra_regions a) (ra_index a i)) as [reg|]; [|reflexivity]. cbn [obind]. destruct (rg_refresh reg) as [reg'|]; [|reflexivity]. cbn [obind].
  destruct (reg_on_or_after _ _) as [b|]; [|reflexivity]. cbn [obind]. destruct (reg_on_or_after _ _) as [e|]; [|reflexivity]. cbn [obind]. destruct (it_run _ _ _ _ _ _) as [l|]; reflexivity.
Qed.

Theorem C193_unstructured MAX maxSize os scotch cells_ weights :
  0 <= maxSize -> edges_below MAX os -> Z.of_nat cells_ <= MAX ->
  (forall f t, In (f, t) (edges os) -> 0 <= f < Z.of_nat cells_) ->
  (forall g, describes g (Z.of_nat cells_) (fun i j => In (i, j) (edges os)) -> parts_ok (Z.of_nat cells_) (length weights) (scotch g (length weights))) ->
  exists a g rs, ra_ops MAX (ra_new MAX maxSize) os = Some a /\
    describes g (Z.of_nat cells_) (fun i j => In (i, j) (edges os)) /\
    unstructured_scotch scotch cells_ weights a = Some rs /\
    exact_cover 0 (length weights) (scotch_region (Some rs)) (in_box (mkBox [0] [Z.of_nat cells_])) /\
    forall k i, (k < length weights)%nat ->
      (cells 0 (scotch_region (Some rs)) k [i] <-> 0 <= i < Z.of_nat cells_ /\ part_of (scotch g (length weights)) i = Z.of_nat k).
Proof.
  intros Hm He HM Hin Hs. destruct (C43_adjacency MAX maxSize os Hm He) as (a & es & Ea & Hn & Hsz & Hnd & Hes).
  set (nb := fun i => match ra_neighbors a i [] with Some l => l | None => [] end).
  assert (Hnb : forall i, 0 <= i < Z.of_nat cells_ -> ra_neighbors a i [] = Some (nb i) /\ NoDup (nb i) /\ forall t, In t (nb i) <-> In (i, t) (edges os)).
  { intros i Hi. destruct (Hn i [] ltac:(lia)) as (l & El & Hl & Ht). unfold nb. rewrite El. cbn [app]. split; [reflexivity|]. split; [|exact Ht].
    clear - Hl. induction Hl as [|x l _ IH F]; constructor; [|exact IH]. intros Hx. rewrite Forall_forall in F. specialize (F x Hx). lia. }
  assert (Hacc : forall i acc, 0 <= i < Z.of_nat cells_ -> ra_neighbors a i acc = Some (acc ++ nb i)).
  { intros i acc Hi. rewrite neighbors_acc. destruct (Hnb i Hi) as (-> & _). reflexivity. }
  destruct (csr_loop nb cells_ 0 0) as [vt et] eqn:Ec.
  pose proof (adj_loop_spec a nb (Z.of_nat cells_) Hacc cells_ 0 0 [] [] ltac:(lia) ltac:(lia)) as Eg. rewrite Ec in Eg. cbn [app] in Eg.
  destruct (csr_spec nb _ _ _ _ _ Ec) as (_ & _ & _ & Et & _).
  assert (Len : length es = length et).
  { set (pairs := flat_map (fun k => map (pair (Z.of_nat k)) (nb (0 + Z.of_nat k))) (seq 0 cells_)).
    assert (L1 : length pairs = length et).
    { rewrite Et. unfold pairs. clear. induction (seq 0 cells_) as [|k l IH]; [reflexivity|]. cbn [flat_map]. rewrite !app_length, IH, map_length. reflexivity. }
    assert (L2 : NoDup pairs /\ forall e, In e pairs <-> In e (edges os)).
    { split.
      - unfold pairs. clear pairs L1 Et. pose proof (seq_NoDup cells_ 0) as ND. assert (B : forall k, In k (seq 0 cells_) -> (k < cells_)%nat) by (intros k Hk; apply in_seq in Hk; lia).
        induction (seq 0 cells_) as [|k l IH]; [constructor|]. cbn [flat_map]. inversion ND as [|? ? N1 N2]; subst.
        assert (ND1 : NoDup (map (pair (Z.of_nat k)) (nb (0 + Z.of_nat k)))).
        { apply FinFun.Injective_map_NoDup; [intros x y E; now injection E|]. apply Hnb. specialize (B k (or_introl eq_refl)). lia. }
        assert (ND2 := IH N2 (fun q Hq => B q (or_intror Hq))).
        assert (DJ : forall e, In e (map (pair (Z.of_nat k)) (nb (0 + Z.of_nat k))) -> ~ In e (flat_map (fun k => map (pair (Z.of_nat k)) (nb (0 + Z.of_nat k))) l)).
        { intros e H1 H2. apply in_map_iff in H1. destruct H1 as (t & <- & _). apply in_flat_map in H2. destruct H2 as (k' & Hk' & H2). apply in_map_iff in H2. destruct H2 as (t' & E & _). injection E as E _. apply Nat2Z.inj in E. subst k'. contradiction. }
        clear - ND1 ND2 DJ. induction (map (pair (Z.of_nat k)) (nb (0 + Z.of_nat k))) as [|e m IHm]; [exact ND2|]. cbn [app]. inversion ND1; subst. constructor.
        + rewrite in_app_iff. intros [H|H]; [contradiction|]. exact (DJ e (or_introl eq_refl) H).
        + apply IHm; [assumption|]. intros e' H'. apply DJ. now right.
      - intros [f t]. unfold pairs. rewrite in_flat_map. split.
        + intros (k & Hk & H). apply in_seq in Hk. apply in_map_iff in H. destruct H as (t' & E & H). injection E as <- <-. apply Hnb in H; [|lia]. replace (0 + Z.of_nat k) with (Z.of_nat k) in H by lia. exact H.
        + intros H. pose proof (Hin f t H) as Hf. exists (Z.to_nat f). split; [apply in_seq; lia|]. apply in_map_iff. exists t. split; [f_equal; lia|]. apply Hnb; [lia|]. replace (0 + Z.of_nat (Z.to_nat f)) with f by lia. exact H. }
    rewrite <- L1. apply Permutation_length. apply NoDup_Permutation; [exact Hnd|apply L2|]. intros e. rewrite Hes. symmetry. apply L2. }
  set (g := mkGraph vt et (Z.of_nat (length et))).
  assert (Dg : describes g (Z.of_nat cells_) (fun i j => In (i, j) (edges os))).
  { apply csr_describes with (edges := nb); [|exact Ec]. intros i Hi. destruct (Hnb i Hi) as (_ & H). exact H. }
  specialize (Hs g Dg). destruct Hs as (Lp & Fp).
  destruct (coords_spec (length weights) (scotch g (length weights)) (scotch g (length weights)) 0 (repeat (reg_empty 1) (length weights))) as (rs & R1 & R2 & R3); try reflexivity; try assumption; try apply repeat_length; try lia.
  { intros k r Hk. apply nth_error_In, repeat_spec in Hk. subst r. split; [constructor|]. intros c Hc. split; [intros H; exfalso; now apply (rin_empty 0 c Hc)|intros (j & Hj & _); lia]. }
  rewrite Lp in R3.
  assert (O : forall k c, (k < length weights)%nat -> (cells 0 (scotch_region (Some rs)) k c <-> exists i, c = [i] /\ 0 <= i < Z.of_nat cells_ /\ part_of (scotch g (length weights)) i = Z.of_nat k)).
  { intros k c Hk. unfold cells, scotch_region. cbn [obind]. destruct (nth_error rs k) as [r|] eqn:E; [|apply nth_error_None in E; lia]. destruct (R3 k r E) as (_ & H). split.
    - intros (r' & [= <-] & Hc & Hi). apply (H c Hc) in Hi. destruct Hi as (j & Hj & Hp & ->). exists j. auto.
    - intros (i & -> & Hi & Hp). exists r. split; [reflexivity|]. split; [reflexivity|]. apply (H [i] eq_refl). exists i. auto. }
  exists a, g, rs. split; [exact Ea|]. split; [exact Dg|]. split; [|split].
  - unfold unstructured_scotch, adj_graph. rewrite Hsz. cbn [obind]. rewrite Eg. cbn [option_map obind fst snd]. rewrite Len. exact R1.
  - split; [|split].
    + intros k Hk. unfold scotch_region. cbn [obind]. destruct (nth_error rs k) as [r|] eqn:E; [|apply nth_error_None in E; lia]. exists r. split; [reflexivity|]. now apply (R3 k r).
    + intros k k' c Hk Hk' C1 C2. apply O in C1; [|exact Hk]. apply O in C2; [|exact Hk']. destruct C1 as (i & -> & _ & P1). destruct C2 as (i' & Ei & _ & P2). injection Ei as <-. lia.
    + intros c. unfold in_box. cbn [b_origin b_dim]. split.
      * intros Hc. destruct c as [|i [|]]; cbn [inside] in Hc; try tauto. destruct Hc as (Hi & _).
        assert (P : 0 <= part_of (scotch g (length weights)) i < Z.of_nat (length weights)).
        { unfold part_of. rewrite Forall_forall in Fp. apply Fp. apply nth_In. lia. }
        exists (Z.to_nat (part_of (scotch g (length weights)) i)). split; [lia|]. apply O; [lia|]. exists i. split; [reflexivity|]. lia.
      * intros (k & Hk & C). apply O in C; [|exact Hk]. destruct C as (i & -> & Hi & _). cbn [inside]. repeat split; lia.
  - intros k i Hk. rewrite (O k [i] Hk). split.
    + intros (i' & E & H). injection E as <-. exact H.
    + intros H. exists i. auto.
Qed.

(** A path of four nodes in two parts. *)
Definition path_edges : list raop := [Edges 1 [0; 2]; Edge 0 1; Edge 2 3; Edge 2 1; Edge 3 2].

Definition ends (g : graph) (n : nat) : list Z := [1; 0; 0; 1].

Example path_ok : edges_below 100 path_edges /\ (forall f t, In (f, t) (edges path_edges) -> 0 <= f < 4) /\ forall g, parts_ok 4 2 (ends g 2).
Proof.
  split; [|split].
  - repeat constructor; lia.
  - cbn. intros f t H. repeat (destruct H as [H|H]; [injection H as <- <-; lia|]). contradiction.
  - intros g. split; [reflexivity|]. unfold ends. repeat constructor; lia.
Qed.

Example path_regions : obind (ra_ops 100 (ra_new 100 50) path_edges) (fun a => obind (adj_graph a 4) (fun g => option_map (pair g) (unstructured_scotch ends 4 [5; 5] a))) =
  Some (mkGraph [0; 1; 3; 5; 6] [1; 0; 2; 1; 3; 2] 6, [insert_all (reg_empty 1) [mkStreak [] 1 3]; insert_all (reg_empty 1) [mkStreak [] 0 1; mkStreak [] 3 4]]).
Proof. vm_compute. reflexivity. Qed.

(** ** C194 *)

(** Only the number of the weights counts. *)
Theorem C194_weights_refuted : forall scotch cells_ a,
  unstructured_scotch scotch cells_ [1; 99] a = unstructured_scotch scotch cells_ [99; 1] a.
Proof. reflexivity. Qed.

Print Assumptions C191_scotch.
Print Assumptions C192_overread_refuted.
Print Assumptions C193_unstructured.
Print Assumptions C194_weights_refuted.
