(** Properties of RegionBasedAdjacency. *)
From Coq Require Import Sorted.
From Verif Require Import Base RegionOpsModel AdjacencyModel AdjacencySpec AdjacencyFacts.

(** ** C43 *)

Lemma ops_inv MAX m os : 0 <= m -> edges_below MAX os ->
  exists a, ra_ops MAX (ra_new MAX m) os = Some a /\ rainv MAX a (fun x y => In (x, y) (edges os)).
Proof.
  intros Hm He. destruct (rainv_ops MAX os (ra_new MAX m) (fun _ _ => False) (rainv_new MAX m Hm)) as (a & E & Ha).
  - apply Forall_forall. intros e Hin. apply in_flat_map in Hin. destruct Hin as (o & Ho & Hin). unfold edges_below in He. rewrite Forall_forall in He. specialize (He o Ho). destruct o as [f t|f ts].
    + destruct Hin as [<-|[]]. exact He.
    + destruct He as [Hf Ht]. rewrite Forall_forall in Ht. apply in_map_iff in Hin. destruct Hin as (t & <- & Hin). cbn. split; [exact Hf|now apply Ht].
  - apply Forall_forall. intros o Ho. unfold edges_below in He. rewrite Forall_forall in He. specialize (He o Ho). destruct o; [exact I|tauto].
  - exists a. split; [exact E|]. apply (rainv_ext MAX a _ _) with (2 := Ha). intros x y. tauto.
Qed.

(** Whatever the order of insertions and however often the storage was split:
    the neighbors of a node are the nodes to which an edge was inserted, each
    once and in ascending order, appended to what the vector held before; the
    size is the number of different edges. *)
Theorem C43_adjacency : forall MAX maxSize os, 0 <= maxSize -> edges_below MAX os ->
  exists a es, ra_ops MAX (ra_new MAX maxSize) os = Some a /\
    (forall node acc, node <= MAX -> exists l, ra_neighbors a node acc = Some (acc ++ l) /\ StronglySorted Z.lt l /\
       forall t, In t l <-> In (node, t) (edges os)) /\
    ra_size a = Some (Z.of_nat (length es)) /\ NoDup es /\ (forall e, In e es <-> In e (edges os)).
Proof.
  intros MAX m os Hm He. destruct (ops_inv MAX m os Hm He) as (a & E & Ha). destruct (ra_size_spec MAX a _ Ha) as (es & Es & Hnd & Hes).
  exists a, es. split; [exact E|]. split; [intros node acc Hn; exact (ra_neighbors_spec MAX a _ node acc Ha Hn)|]. split; [exact Es|]. split; [exact Hnd|]. intros [f t]. apply (Hes (f, t)).
Qed.
Print Assumptions C43_adjacency.

(** MakeAdjacency yields an undirected graph without loops. *)
Definition make_ops (w : list (Z * Z)) : list raop := flat_map (fun e => if fst e =? snd e then [] else [Edge (fst e) (snd e); Edge (snd e) (fst e)]) w.

Lemma make_ops_spec MAX : forall w a, ra_make MAX a w = ra_ops MAX a (make_ops w).
Proof.
  induction w as [|[x y] w IH]; intros a; [reflexivity|]. cbn [ra_make make_ops flat_map fst snd]. destruct (x =? y); [apply IH|]. cbn [app ra_ops ra_op].
  destruct (ra_insert MAX a x y) as [a1|]; [|reflexivity]. cbn [obind]. destruct (ra_insert MAX a1 y x) as [a2|]; [|reflexivity]. apply IH.
Qed.

Theorem C43_make_adjacency : forall MAX maxSize w, 0 <= maxSize -> Forall (fun e => fst e < MAX /\ snd e < MAX) w ->
  exists a, ra_make MAX (ra_new MAX maxSize) w = Some a /\
    forall node, node <= MAX -> exists l, ra_neighbors a node [] = Some l /\ StronglySorted Z.lt l /\
      forall t, In t l <-> t <> node /\ (In (node, t) w \/ In (t, node) w).
Proof.
  intros MAX m w Hm Hw. rewrite Forall_forall in Hw.
  assert (He : edges_below MAX (make_ops w)).
  { apply Forall_forall. intros o Ho. apply in_flat_map in Ho. destruct Ho as (e & Hin & Ho). specialize (Hw e Hin). destruct (_ =? _); [destruct Ho|]. destruct Ho as [<-|[<-|[]]]; lia. }
  destruct (ops_inv MAX m _ Hm He) as (a & E & Ha). exists a. rewrite make_ops_spec. split; [exact E|]. intros node Hn.
  destruct (ra_neighbors_spec MAX a _ node [] Ha Hn) as (l & El & Hs & Hl). exists l. split; [exact El|]. split; [exact Hs|]. intros t. rewrite Hl. unfold edges. rewrite in_flat_map. split.
  - intros (o & Ho & Hin). apply in_flat_map in Ho. destruct Ho as ([x y] & Hxy & Ho). cbn [fst snd] in Ho. destruct (Z.eqb_spec x y) as [|Hne]; [destruct Ho|].
    destruct Ho as [<-|[<-|[]]]; destruct Hin as [Hin|[]]; injection Hin as -> ->; auto.
  - intros [Hne [H|H]].
    + exists (Edge node t). split; [|now left]. apply in_flat_map. exists (node, t). split; [exact H|]. cbn [fst snd]. destruct (Z.eqb_spec node t); [lia|now left].
    + exists (Edge node t). split; [|now left]. apply in_flat_map. exists (t, node). split; [exact H|]. cbn [fst snd]. destruct (Z.eqb_spec t node); [lia|right; now left].
Qed.
Print Assumptions C43_make_adjacency.

Definition adj_ops_ex : list raop := [Edge 4 7; Edges 2 [9; 1; 5; 1]; Edge 4 8; Edge 9 0; Edge (-3) 2; Edges 4 [3; 7]].

Example C43_example : edges_below 1000 adj_ops_ex /\
  option_map ra_limits (ra_ops 1000 (ra_new 1000 2) adj_ops_ex) = Some [2; 4; 4; 1000] /\
  obind (ra_ops 1000 (ra_new 1000 2) adj_ops_ex) (fun a => ra_neighbors a 4 [6]) = Some [6; 3; 7; 8] /\
  obind (ra_ops 1000 (ra_new 1000 2) adj_ops_ex) (fun a => ra_neighbors a 2 []) = Some [1; 5; 9] /\
  obind (ra_ops 1000 (ra_new 1000 2) adj_ops_ex) (fun a => ra_neighbors a 3 []) = Some [] /\
  obind (ra_ops 1000 (ra_new 1000 2) adj_ops_ex) ra_size = Some 8.
Proof.
  split; [repeat constructor; lia|]. vm_compute. repeat split.
Qed.

Example C43_make_example : obind (ra_make 1000 (ra_new 1000 1) [(1, 2); (3, 3); (2, 1); (5, 1)]) (fun a => ra_neighbors a 1 []) = Some [2; 5].
Proof. reflexivity. Qed.
