(** Properties of ReorderingUnstructuredGrid. *)
From Coq Require Import Permutation Sorted.
From Verif Require Import Base ListFacts RegionSpec RegionModel RegionRep RegionStreaks HaloSpec RegionIterModel RegionOpsModel RegionOps CoordModel PatchModel GridModel GridFacts SellModel SellSpec SellFacts SellProps ReorderModel ReorderSpec ReorderFacts.

(** ** C40 *)

(** Whatever the weights, reading a node yields what has been written to it
    last, cell by cell or via loadRegion; saveRegion delivers these values in
    the order of the IDs. *)
Theorem C40_reordering_transparent : forall A V (zero : V) (dflt d e : A) C S M srt nodes ops,
  1 <= C -> 1 <= S -> sorting srt -> rvalid 0 nodes -> (exists x, is_node nodes x) -> Forall (uop_ok nodes M) ops ->
  exists g, obind (rg_make C M nodes d e) (fun g => rg_ops zero dflt C S M srt g ops) = Some g /\
    (forall x, is_node nodes x -> rg_get g x = Some (node_value d ops x)) /\
    (forall x, ~ is_node nodes x -> (exists y, is_node nodes y /\ x < y) -> rg_get g x = Some (rg_get_edge g)) /\
    forall r, rvalid 0 r -> (forall x, is_node r x -> is_node nodes x) ->
      exists ids, node_ids r = Some ids /\ rg_save g r = Some (map (node_value d ops) ids).
Proof.
  intros A V zero dflt d e C S M srt nodes ops HC HS Hsrt Hr (x0 & Hx0) Hops.
  destruct (node_ids_spec nodes Hr) as (ids & Eids & _ & Hids). assert (Hne : ids <> []). { intros ->. now apply Hids in Hx0. }
  destruct (rinv_make C M nodes ids Hr Eids Hne d e (V := V)) as (g0 & E0 & R0). rewrite E0. cbn [obind].
  destruct (rinv_ops zero dflt C S M srt HC HS Hsrt nodes ids Hr Eids Hne ops g0 _ R0 Hops) as (g & E & R). exists g. split; [exact E|].
  split; [|split].
  - intros x Hx. apply (rinv_get M nodes ids Hr Eids Hne g _ x R Hx).
  - intros x Hx (y & Hy & Hxy). destruct R as (_ & Ht & _). unfold rg_get. rewrite (map_id_other ids _ _ x y Ht); [reflexivity| | |exact Hxy]; now rewrite Hids.
  - intros r Vr Hsub. destruct (node_ids_spec r Vr) as (xs & Exs & _ & Hxs). exists xs. split; [exact Exs|]. unfold rg_save. rewrite Exs. cbn [obind].
    assert (Hn : forall x, In x xs -> is_node nodes x) by (intros x Hx; apply Hsub; now apply Hxs).
    rewrite (phys_streaks_spec M nodes ids Hr Eids g _ xs R Hn). cbn [obind]. apply (rinv_save M nodes ids Hr Eids Hne g _ xs R Hn).
Qed.
Print Assumptions C40_reordering_transparent.

(** Nodes 2, 3, 5 and 8; row 5 names the missing node 4. *)
Definition ex_nodes : indices := [[(2, 4); (5, 6); (8, 9)]].
Definition ex_weights : list (entry Z) := [((5, 2), 1); ((2, 8), 2); ((3, 2), 3); ((3, 8), 4); ((5, 4), 5); ((8, 3), 6); ((7, 2), 7); ((8, 2), 8)].

Lemma ex_nodes_valid : rvalid 0 ex_nodes.
Proof.
  destruct (insert_all_valid 0 [mkStreak [] 2 4; mkStreak [] 5 6; mkStreak [] 8 9] (reg_empty 1) (rvalid_empty 0)) as [H _]; [repeat constructor|exact H].
Qed.

Definition ex_uops : list (uop Z Z) := [RSet 2 20; RSet 8 80; RWeights 0 ex_weights; RSet 5 50; RLoad [[(3, 4); (8, 9)]] [31; 81]; RWeights 1 []; RSet 2 21].

Example C40_example : rvalid 0 ex_nodes /\ is_node ex_nodes 5 /\ Forall (uop_ok ex_nodes 2) ex_uops /\
  exists g, obind (rg_make 2 2 ex_nodes 7 0) (fun g => rg_ops 0 0 2 2 2 entry_sort g ex_uops) = Some g /\
    map (rg_get g) [2; 3; 5; 8] = [Some 21; Some 31; Some 50; Some 81] /\ rg_save g [[(3, 4); (5, 6)]] = Some [31; 50].
Proof.
  split; [exact ex_nodes_valid|]. split; [vm_compute; auto|]. split.
  - repeat (apply Forall_cons || apply Forall_nil); cbn [uop_ok]; try (vm_compute; auto; fail); try lia.
    split; [destruct (insert_all_valid 0 [mkStreak [] 3 4; mkStreak [] 8 9] (reg_empty 1) (rvalid_empty 0)) as [H _]; [repeat constructor|exact H]|]. split.
    + intros x Hx. assert (V : rvalid 0 [[(3, 4); (8, 9)]]).
      { destruct (insert_all_valid 0 [mkStreak [] 3 4; mkStreak [] 8 9] (reg_empty 1) (rvalid_empty 0)) as [H _]; [repeat constructor|exact H]. }
      destruct (node_ids_spec _ V) as (xs & E & _ & Hin). apply Hin in Hx. vm_compute in E. injection E as <-. destruct Hx as [<-|[<-|[]]]; vm_compute; auto.
    + intros ids E. vm_compute in E. injection E as <-. cbn. lia.
  - eexists. split; [vm_compute; reflexivity|]. split; vm_compute; reflexivity.
Qed.

(** ** C75 *)

(** The edge cell isn't kept: setWeights resets it to a default constructed
    cell. *)
Theorem C75_edge_lost_refuted : exists nodes (g g' : rgrid Z Z),
  rg_make 1 1 nodes 7 5 = Some g /\ rg_get_edge g = 5 /\ rg_set_weights 0 0 1 1 1 entry_sort g 0 [] = Some g' /\ rg_get_edge g' <> 5.
Proof.
  exists ex_nodes. do 2 eexists. split; [vm_compute; reflexivity|]. split; [reflexivity|]. split; [vm_compute; reflexivity|]. discriminate.
Qed.
Print Assumptions C75_edge_lost_refuted.

(** ** C76 *)

(** Nor are the other matrices. *)
Theorem C76_matrices_lost_refuted : exists nodes (g g1 g2 : rgrid Z Z) m s s',
  rg_make 1 2 nodes 7 5 = Some g /\ rg_set_weights 0 0 1 1 2 entry_sort g 0 m = Some g1 /\ rg_set_weights 0 0 1 1 2 entry_sort g1 1 m = Some g2 /\
  vec_get (rg_mats g1) 0 = Some s /\ sell_row 1 s 0 = Some [(3, 2)] /\ vec_get (rg_mats g2) 0 = Some s' /\ sell_row 1 s' 0 = Some [].
Proof.
  exists ex_nodes. do 3 eexists. exists ex_weights. do 2 eexists. split; [vm_compute; reflexivity|]. split; [vm_compute; reflexivity|]. split; [vm_compute; reflexivity|].
  split; [reflexivity|]. split; [vm_compute; reflexivity|]. split; vm_compute; reflexivity.
Qed.
Print Assumptions C76_matrices_lost_refuted.

(** ** C77 *)

(** The row of a node's physical position names the physical positions of its
    neighbors: by looking these up one gets the cells and weights which the
    given matrix assigns to the node, or none if a neighbor is missing. *)
Theorem C77_neighborhood : forall A V (zero : V) (dflt d e : A) C S M srt nodes ops k m,
  1 <= C -> 1 <= S -> sorting srt -> rvalid 0 nodes -> (exists x, is_node nodes x) -> Forall (uop_ok nodes M) ops -> 0 <= k < Z.of_nat M ->
  exists g s, obind (rg_make C M nodes d e) (fun g => rg_ops zero dflt C S M srt g (ops ++ [RWeights k m])) = Some g /\
    vec_get (rg_mats g) k = Some s /\ (forall x, is_node nodes x <-> exists q, stored_at g q x) /\
    forall q x, stored_at g q x ->
      grid_get cube1 (rg_cells g) [q] = Some (node_value d ops x) /\
      exists l, sell_row C s q = Some l /\
        (complete nodes m x -> Permutation (map (fun qw => (grid_get cube1 (rg_cells g) [fst qw], snd qw)) l)
                                           (map (fun yw => (Some (node_value d ops (fst yw)), snd yw)) (row_entries m x))) /\
        (~ complete nodes m x -> l = []).
Proof.
  intros A V zero dflt d e C S M srt nodes ops k m HC HS Hsrt Hr (x0 & Hx0) Hops Hk.
  destruct (node_ids_spec nodes Hr) as (ids & Eids & _ & Hids). assert (Hne : ids <> []). { intros ->. now apply Hids in Hx0. }
  destruct (rinv_make C M nodes ids Hr Eids Hne d e (V := V)) as (g0 & E0 & R0). rewrite E0. cbn [obind].
  destruct (rinv_ops zero dflt C S M srt HC HS Hsrt nodes ids Hr Eids Hne ops g0 _ R0 Hops) as (g1 & E1 & R1).
  destruct (set_weights_spec zero dflt C S M srt HC HS Hsrt nodes ids Hr Eids Hne g1 _ k m R1 Hk) as (g & s & E & R & Es & Hrow).
  exists g, s. split.
  { clear - E1 E. revert g0 E1. induction ops as [|o ops IH]; intros g0 E1; cbn [rg_ops app] in *.
    - injection E1 as ->. cbn [rg_op]. now rewrite E.
    - destruct (rg_op zero dflt C S M srt g0 o); [|discriminate]. cbn [obind] in *. now apply IH. }
  split; [exact Es|]. pose proof R as (_ & Ht & _).
  assert (Hst : forall x, is_node nodes x -> stored_at g (index_of (rg_p2l g) x) x).
  { intros x Hx. apply Hids in Hx. apply (map_id_spec ids _ _ x (ids_nodup nodes ids Hr Eids) Ht Hx). }
  split.
  - intros x. split; [eauto|]. intros (q & Hq). apply Hids. destruct Ht as (Hp & _). apply (Permutation_in _ (Permutation_sym Hp)).
    unfold stored_at, vec_get in Hq. destruct (q <? 0); [discriminate|]. now apply nth_error_In in Hq.
  - intros q x Hq. split; [apply (rinv_cells M nodes ids Hne g _ q x R Hq)|]. destruct (Hrow q x Hq) as (l & El & _ & H1 & H2). exists l. split; [exact El|]. split; [|exact H2].
    intros Hc. apply Permutation_sym. eapply Permutation_trans; [|apply Permutation_map; apply (H1 Hc)]. rewrite map_map. cbn [fst snd].
    erewrite map_ext_in; [apply Permutation_refl|]. intros [y w] Hy. cbn [fst snd]. f_equal. symmetry.
    apply (rinv_cells M nodes ids Hne g _ _ y R). apply Hst. now apply (Hc y w).
Qed.
Print Assumptions C77_neighborhood.

Example C77_example :
  complete ex_nodes ex_weights 3 /\ ~ complete ex_nodes ex_weights 5 /\
  exists g s, obind (rg_make 2 2 ex_nodes 7 0) (fun g => rg_ops 0 0 2 2 2 entry_sort g (ex_uops ++ [RWeights 1 ex_weights])) = Some g /\
    vec_get (rg_mats g) 1 = Some s /\ rg_p2l g = [3; 2; 8; 5] /\ sell_row 2 s 0 = Some [(1, 3); (2, 4)] /\ sell_row 2 s 3 = Some [] /\
    map (fun q => grid_get cube1 (rg_cells g) [q]) [1; 2] = [Some 21; Some 81].
Proof.
  split; [|split].
  - intros y v H. vm_compute in H. destruct H as [E|[E|[]]]; injection E as <- <-; vm_compute; auto.
  - intros H. specialize (H 4 5). assert (is_node ex_nodes 4) as [_ F] by (apply H; vm_compute; auto). vm_compute in F. discriminate.
  - do 2 eexists. split; [vm_compute; reflexivity|]. split; [vm_compute; reflexivity|]. repeat split; vm_compute; reflexivity.
Qed.

(** ** C78 *)

Lemma remap_ids_spec A V M nodes ids (g : rgrid A V) f xs : rvalid 0 nodes -> node_ids nodes = Some ids -> rinv M nodes ids g f -> (forall x, In x xs -> is_node nodes x) ->
  forall ret, rvalid 0 ret -> exists r', remap_ids (rg_l2p g) xs ret = Some r' /\ rvalid 0 r' /\
    forall q, is_node r' q <-> is_node ret q \/ exists x, In x xs /\ stored_at g q x.
Proof.
  intros Hr Eids Hg Hx. induction xs as [|x xs IH]; intros ret Vr.
  - exists ret. split; [reflexivity|]. split; [exact Vr|]. intros q. split; [auto|]. intros [H|(x & [] & _)]. exact H.
  - destruct Hg as (G1 & G2 & G3). assert (Hin : In x ids) by (apply (ids_in nodes ids Hr Eids); apply Hx; now left).
    destruct (map_id_spec ids _ _ x (ids_nodup nodes ids Hr Eids) G2 Hin) as [E Hq]. cbn [remap_ids]. rewrite E. cbn [obind].
    change [index_of (rg_p2l g) x] with ([] ++ [index_of (rg_p2l g) x]). unfold reg_insert_coord. rewrite coord_streak_snoc.
    destruct (insert_valid 0 ret (mkStreak [] (index_of (rg_p2l g) x) (index_of (rg_p2l g) x + 1)) Vr eq_refl) as [V2 H2].
    destruct (IH (fun y Hy => Hx y (or_intror Hy)) _ V2) as (r' & E' & V' & H'). exists r'. split; [exact E'|]. split; [exact V'|].
    intros q. rewrite H'. assert (Hone : is_node (reg_insert ret (mkStreak [] (index_of (rg_p2l g) x) (index_of (rg_p2l g) x + 1))) q <-> is_node ret q \/ q = index_of (rg_p2l g) x).
    { specialize (H2 [q] eq_refl). unfold is_node, inr. unfold rin in H2. rewrite H2. unfold in_streak. cbn [s_pre s_x s_e app]. split.
      - intros [_ [?|(z & Ez & ?)]]; [auto|]. injection Ez as ->. right. lia.
      - intros [[_ ?]| ->]; (split; [reflexivity|]); [auto|]. right. eexists. split; [reflexivity|lia]. }
    rewrite Hone. cbn [In]. split.
    + intros [[?| ->]|(y & Hy & Hs)]; [auto| |]; right; [exists x; split; [now left|exact Hq]|exists y; auto].
    + intros [?|(y & [<-|Hy] & Hs)]; [auto| |right; eauto]. left. right. apply (vec_get_inj (rg_p2l g) _ _ x); auto. apply (Permutation_NoDup (proj1 G2)), (ids_nodup nodes ids Hr Eids).
Qed.

(** remapRegion yields the physical positions of the given nodes. *)
Theorem C78_remap : forall A V (zero : V) (dflt d e : A) C S M srt nodes ops r,
  1 <= C -> 1 <= S -> sorting srt -> rvalid 0 nodes -> (exists x, is_node nodes x) -> Forall (uop_ok nodes M) ops ->
  rvalid 0 r -> (forall x, is_node r x -> is_node nodes x) ->
  exists g r', obind (rg_make C M nodes d e) (fun g => rg_ops zero dflt C S M srt g ops) = Some g /\
    rg_remap g r = Some r' /\ rvalid 0 r' /\ forall q, is_node r' q <-> exists x, is_node r x /\ stored_at g q x.
Proof.
  intros A V zero dflt d e C S M srt nodes ops r HC HS Hsrt Hr (x0 & Hx0) Hops Vr Hsub.
  destruct (node_ids_spec nodes Hr) as (ids & Eids & _ & Hids). assert (Hne : ids <> []). { intros ->. now apply Hids in Hx0. }
  destruct (rinv_make C M nodes ids Hr Eids Hne d e (V := V)) as (g0 & E0 & R0). rewrite E0. cbn [obind].
  destruct (rinv_ops zero dflt C S M srt HC HS Hsrt nodes ids Hr Eids Hne ops g0 _ R0 Hops) as (g & E & R).
  destruct (node_ids_spec r Vr) as (xs & Exs & _ & Hxs).
  assert (Hn : forall x, In x xs -> is_node nodes x) by (intros x Hx; apply Hsub; now apply Hxs).
  destruct (remap_ids_spec A V M nodes ids g _ xs Hr Eids R Hn (reg_empty 1) (rvalid_empty 0)) as (r' & Er & V' & H').
  exists g, r'. split; [exact E|]. split; [unfold rg_remap; rewrite Exs; exact Er|]. split; [exact V'|]. intros q. rewrite H'. split.
  - intros [[_ H]|(x & Hx & Hs)]; [exfalso; apply (rin_empty 0 [q] eq_refl H)|]. exists x. split; [now apply Hxs|exact Hs].
  - intros (x & Hx & Hs). right. exists x. split; [now apply Hxs|exact Hs].
Qed.
Print Assumptions C78_remap.

Lemma chunk_interval C a e q : 1 <= C -> 0 <= a < e -> (Z.quot a C * C <= q < Z.quot (e + C - 1) C * C <-> exists p, a <= p < e /\ p / C = q / C).
Proof.
  intros HC Ha. rewrite !Z.quot_div_nonneg by lia.
  pose proof (Z.div_mod a C ltac:(lia)) as Da. pose proof (Z.mod_pos_bound a C ltac:(lia)) as Ba.
  pose proof (Z.div_mod (e + C - 1) C ltac:(lia)) as De. pose proof (Z.mod_pos_bound (e + C - 1) C ltac:(lia)) as Be.
  pose proof (Z.div_mod q C ltac:(lia)) as Dq. pose proof (Z.mod_pos_bound q C ltac:(lia)) as Bq.
  set (qa := a / C) in *. set (ra := a mod C) in *. set (qe := (e + C - 1) / C) in *. set (re := (e + C - 1) mod C) in *. set (qq := q / C) in *. set (rq := q mod C) in *.
  clearbody qa ra qe re qq rq. split.
  - intros [H1 H2]. assert (qa <= qq) by nia. assert (qq < qe) by nia. exists (Z.max a (C * qq)). split; [split; [lia|]; apply Z.max_lub_lt; [lia|nia]|].
    symmetry. destruct (Z.eq_dec qa qq) as [<-|].
    + apply (Z.div_unique _ _ _ (Z.max a (C * qa) - C * qa)); lia.
    + assert (a < C * qq) by nia. rewrite Z.max_r by lia. apply (Z.div_unique _ _ _ 0); lia.
  - intros (p & Hp & Ep). pose proof (Z.div_mod p C ltac:(lia)) as Dp. pose proof (Z.mod_pos_bound p C ltac:(lia)) as Bp. rewrite Ep in Dp. set (rp := p mod C) in *. clearbody rp. clear Ep. assert (qa < qq + 1) by (apply (Z.mul_lt_mono_pos_l C); lia). assert (qq < qe) by (apply (Z.mul_lt_mono_pos_l C); lia). split; nia.
Qed.

(** expandChunksInRemappedRegion fills up precisely the chunks touched. *)
Theorem C78_expand_chunks : forall C r, 1 <= C -> rvalid 0 r -> (forall q, is_node r q -> 0 <= q) ->
  exists r', rg_expand_chunks C r = Some r' /\ rvalid 0 r' /\ forall q, is_node r' q <-> exists p, is_node r p /\ p / C = q / C.
Proof.
  intros C r HC Hr Hp. destruct (streaks_valid 0 r Hr) as (l & Hok & Hin & El & _). unfold rg_expand_chunks. rewrite El. cbn [option_map].
  assert (Ef : forall acc, fold_left (fun acc s => reg_insert acc (chunk_streak C s)) l acc = insert_all acc (map (chunk_streak C) l)).
  { clear. unfold insert_all. induction l as [|s l IH]; intros acc; [reflexivity|]. cbn [fold_left map]. apply IH. }
  rewrite Ef. destruct Hok as [_ Hf]. rewrite Forall_forall in Hf.
  destruct (insert_all_valid 0 (map (chunk_streak C) l) (reg_empty 1) (rvalid_empty 0)) as [V' H'].
  { apply Forall_forall. intros s Hs. apply in_map_iff in Hs. destruct Hs as (s0 & <- & Hs0). cbn. now destruct (Hf s0 Hs0). }
  eexists. split; [reflexivity|]. split; [exact V'|]. intros q. unfold is_node, inr. specialize (H' [q] eq_refl). unfold rin in H'. rewrite H'.
  assert (Hsp : forall s z, In s l -> (in_streak s [z] <-> s_x s <= z < s_e s)).
  { intros s z Hs. destruct (Hf s Hs) as [Hpre _]. destruct s as [pre a e']. cbn in Hpre. destruct pre; [|discriminate]. unfold in_streak. cbn [s_pre s_x s_e app]. split.
    - intros (y & Ey & ?). injection Ey as ->. assumption.
    - intros. eauto. }
  assert (Hlt : forall s, In s l -> 0 <= s_x s < s_e s).
  { intros s Hs. destruct (Hf s Hs) as [_ Hlt]. split; [|exact Hlt]. apply Hp. split; [reflexivity|]. apply Hin; [reflexivity|]. exists s. split; [exact Hs|]. apply Hsp; [exact Hs|lia]. }
  assert (Hcs : forall s z, In s l -> (in_streak (chunk_streak C s) [z] <-> exists p, in_streak s [p] /\ p / C = z / C)).
  { intros s z Hs. transitivity (Z.quot (s_x s) C * C <= z < Z.quot (s_e s + C - 1) C * C).
    - destruct (Hf s Hs) as [Hpre _]. destruct s as [pre a e']. cbn in Hpre. destruct pre; [|discriminate]. unfold in_streak, chunk_streak. cbn [s_pre s_x s_e app]. split.
      + intros (y & Ey & ?). injection Ey as ->. assumption.
      + intros. eauto.
    - rewrite (chunk_interval C _ _ z HC (Hlt s Hs)). split; intros (p & H1 & H2); exists p; (split; [|exact H2]); now apply Hsp in H1 || now apply Hsp. }
  split.
  - intros [_ [H|(s & Hs & Hc)]]; [exfalso; apply (rin_empty 0 [q] eq_refl H)|]. apply in_map_iff in Hs. destruct Hs as (s0 & <- & Hs0). apply Hcs in Hc; [|exact Hs0].
    destruct Hc as (p & Hc & E). exists p. split; [|exact E]. split; [reflexivity|]. apply Hin; [reflexivity|]. exists s0. auto.
  - intros (p & [_ Hpr] & E). split; [reflexivity|]. right. apply Hin in Hpr; [|reflexivity]. destruct Hpr as (s & Hs & Hc). exists (chunk_streak C s). split; [now apply in_map|].
    apply Hcs; [exact Hs|]. eauto.
Qed.
Print Assumptions C78_expand_chunks.

Example C78_example :
  (exists g, obind (rg_make 2 2 ex_nodes 7 0) (fun g => rg_ops 0 0 2 2 2 entry_sort g [RWeights 0 ex_weights]) = Some g /\
     rg_remap g [[(2, 3); (5, 6)]] = Some [[(1, 2); (3, 4)]]) /\
  rg_expand_chunks 4 [[(1, 2); (7, 9)]] = Some [[(0, 12)]] /\ rg_expand_chunks 4 [[(1, 2); (9, 11)]] = Some [[(0, 4); (8, 12)]].
Proof. split; [eexists; split; [vm_compute; reflexivity|vm_compute; reflexivity]|]. split; vm_compute; reflexivity. Qed.
