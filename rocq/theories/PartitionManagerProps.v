(** Properties C18, C19, C20: the ghost zones, the halo and the rims and inner
    sets computed by the PartitionManager. *)
From Verif Require Import Base RegionSpec RegionModel RegionRep RegionIterModel RegionStreaks CoordModel CoordSpec RegionOpsModel
  RegionOps CoordFacts RegionReach HaloSpec PartitionSpec PartitionModel PartitionManagerModel HaloFacts PartitionManagerSpec
  PartitionManagerFacts StripingProps.
From Coq Require Import Sorted.

Lemma setting_laws d sp I E w : setting d sp I E w -> space_laws d sp I E w.
Proof. intros []; [now apply regular_laws|now apply unstructured_laws]. Qed.

Lemma at_level_spec d (P : nat -> coord -> Prop) l k c :
  (forall e r, nth_error l e = Some r -> rvalid d r /\ forall c, inr d r c <-> P e c) -> (k < length l)%nat ->
  (at_level d l k c <-> P k c).
Proof.
  intros H Hk. unfold at_level. split.
  - intros (r & Er & Hc). now apply (H k r Er).
  - intros Hc. destruct (nth_error l k) as [r|] eqn:Er; [|apply nth_error_None in Er; lia]. exists r. split; [auto|]. now apply (H k r Er).
Qed.

(** C18 *)
Theorem C18_ghost_zones_match d sp I E w n part a b :
  setting d sp I E w -> all_defined d n part -> (forall k c, (k < n)%nat -> cells d part k c -> I c) ->
  (a < n)%nat -> (b < n)%nat ->
  exists pa ga pb gb,
    setup_node sp part w n a = Some (pa, ga) /\ setup_node sp part w n b = Some (pb, gb) /\
    (** what [a] expects from [b] is what [b] sends to [a] *)
    frag (g_outer ga) b = frag (g_inner gb) a /\
    (** nobody talks to themselves *)
    (a = b -> frag (g_outer ga) b = None) /\
    (** an exchange is registered iff there is something to exchange, and
        then comprises the cells of [b] close enough to those of [a] *)
    (a <> b -> match frag (g_outer ga) b with
      | None => forall c, grown E w (cells d part a) c -> ~ cells d part b c
      | Some v => length v = S w /\ (exists c, at_level d v w c) /\
          forall e c, (e <= w)%nat -> (at_level d v e c <-> grown E e (cells d part a) c /\ cells d part b c)
      end) /\
    (** the maps have at most one entry per node, and none beyond the group *)
    StronglySorted lt (map fst (g_outer ga)) /\ StronglySorted lt (map fst (g_inner ga)) /\
    Forall (fun j => j < n)%nat (map fst (g_outer ga)) /\ Forall (fun j => j < n)%nat (map fst (g_inner ga)).
Proof.
  intros Hs Hdef Hins Ha Hb. pose proof (setting_laws _ _ _ _ _ Hs) as L.
  destruct (setup_spec d sp I E w L n part Hdef Hins a Ha) as (pa & ga & Ea & _ & Ga).
  destruct (setup_spec d sp I E w L n part Hdef Hins b Hb) as (pb & gb & Eb & _ & Gb).
  exists pa, ga, pb, gb. split; [exact Ea|]. split; [exact Eb|].
  pose proof (gs_outer d I E w n part a ga Ga b Hb) as F1. pose proof (gs_inner d I E w n part b gb Gb a Ha) as F2.
  split; [|split; [|split; [|split; [|split; [|split]]]]].
  - destruct (Nat.eqb_spec b a) as [->|Hne].
    + rewrite Nat.eqb_refl in F2. congruence.
    + rewrite (proj2 (Nat.eqb_neq a b)) in F2 by auto. eapply frag_unique; eassumption.
  - intros ->. now rewrite Nat.eqb_refl in F1.
  - intros Hne. rewrite (proj2 (Nat.eqb_neq b a)) in F1 by auto. destruct (frag (g_outer ga) b) as [v|]; cbn [frag_spec] in F1.
    + destruct F1 as ((c & Hc) & Lv & H). split; [exact Lv|]. split.
      * exists c. apply (at_level_spec d (need d E part a b)); auto. lia.
      * intros e c' He. apply (at_level_spec d (need d E part a b)); auto. lia.
    + intros c H1 H2. apply (F1 c). split; auto.
  - apply (gs_outer_sorted d I E w n part a ga Ga).
  - apply (gs_inner_sorted d I E w n part a ga Ga).
  - apply Forall_map, Forall_forall. intros (j, v) Hin. apply (gs_outer_in d I E w n part a ga Ga j v Hin).
  - apply Forall_map, Forall_forall. intros (j, v) Hin. apply (gs_inner_in d I E w n part a ga Ga j v Hin).
Qed.
Print Assumptions C18_ghost_zones_match.

(** C19 *)
Theorem C19_halo_supplied d sp I E w n part i :
  setting d sp I E w -> exact_cover d n part I -> (i < n)%nat ->
  exists p g, setup_node sp part w n i = Some (p, g) /\
    (** the halo: everything outside which can be read within [w] steps *)
    (forall c, inr d (pm_outer_rim p) c <-> ~ cells d part i c /\ grown E w (cells d part i) c) /\
    (** it is made up of the fragments *)
    (forall c, inr d (pm_outer_rim p) c <-> exists j v, frag (g_outer g) j = Some v /\ at_level d v w c) /\
    (** each cell comes from one node, the one which owns it *)
    (forall c j v, frag (g_outer g) j = Some v -> at_level d v w c -> cells d part j c) /\
    (forall c j j' v v', frag (g_outer g) j = Some v -> frag (g_outer g) j' = Some v' ->
       at_level d v w c -> at_level d v' w c -> j = j') /\
    (** nothing is exchanged with the out-group *)
    reg_is_empty (g_out_outer g) = true /\ reg_is_empty (g_out_inner g) = true.
Proof.
  intros Hs (Hdef & Hdis & Hcov) Hi. pose proof (setting_laws _ _ _ _ _ Hs) as L.
  assert (Hins : forall k c, (k < n)%nat -> cells d part k c -> I c) by (intros k c Hk Hc; apply Hcov; eauto).
  destruct (setup_spec d sp I E w L n part Hdef Hins i Hi) as (p & g & Eg & P & G). exists p, g. split; [exact Eg|].
  destruct (ps_outer d I E w part i p P) as [Vo Ho]. split; [intros c; rewrite Ho; tauto|].
  assert (Hfind : forall j v, frag (g_outer g) j = Some v -> In (j, v) (g_outer g)).
  { intros j v H. unfold frag in H. destruct (find _ _) as [(j', v')|] eqn:Ef; [|discriminate]. cbn in H. injection H as ->.
    apply find_some in Ef. destruct Ef as [Ef1 Ef2]. cbn in Ef2. apply Nat.eqb_eq in Ef2. now subst. }
  assert (Hat : forall j v c, frag (g_outer g) j = Some v -> (at_level d v w c <-> need d E part i j w c) /\ (j < n)%nat /\ j <> i).
  { intros j v c Hf. destruct (gs_outer_in d I E w n part i g G j v (Hfind j v Hf)) as (Hj & Hne & _).
    pose proof (gs_outer d I E w n part i g G j Hj) as F. rewrite (proj2 (Nat.eqb_neq j i) Hne), Hf in F. cbn in F.
    destruct F as (_ & Lv & F). split; [|auto]. apply (at_level_spec d (need d E part i j)); auto. lia. }
  split; [|split; [|split; [|split]]].
  - intros c. rewrite Ho. split.
    + intros [Hg Hn]. destruct (proj1 (Hcov c)) as (j & Hj & Hc).
      { eapply grown_inside; eauto. }
      assert (Hne : j <> i) by (intros ->; contradiction).
      pose proof (gs_outer d I E w n part i g G j Hj) as F. rewrite (proj2 (Nat.eqb_neq j i) Hne) in F.
      destruct (frag (g_outer g) j) as [v|] eqn:Ef.
      * exists j, v. split; [exact Ef|]. apply (Hat j v c Ef). split; auto.
      * exfalso. apply (F c). split; auto.
    + intros (j & v & Hf & Hc). destruct (Hat j v c Hf) as (Hc' & Hj & Hne). apply Hc' in Hc. destruct Hc as [Hc1 Hc2]. split; [exact Hc1|].
      intros Hc3. apply Hne. eapply Hdis; eauto.
  - intros c j v Hf Hc. apply (Hat j v c Hf) in Hc. apply Hc.
  - intros c j j' v v' Hf Hf' Hc Hc'. destruct (Hat j v c Hf) as (H1 & H2 & _). destruct (Hat j' v' c Hf') as (H3 & H4 & _).
    apply H1 in Hc. apply H3 in Hc'. eapply Hdis; eauto; [apply Hc|apply Hc'].
  - destruct (gs_out_outer d I E w n part i g G) as [V H]. apply (empty_inr d _ V). intros c Hc. apply H in Hc.
    destruct Hc as ((Hg & Hn) & Hj). destruct (proj1 (Hcov c)) as (j & Hj1 & Hj2).
    { eapply grown_inside; eauto. }
    apply (Hj j Hj1); [intros ->; contradiction|auto].
  - destruct (gs_out_inner d I E w n part i g G) as [V H]. apply (empty_inr d _ V). intros c Hc. apply H in Hc.
    destruct Hc as (Hr & Hj). destruct (rim_needed d I E w n part i c Hi) as (j & Hj1 & Hj2 & Hj3 & _); auto.
    { intros c' Hc'. now apply Hcov. }
    exact (Hj j Hj1 Hj2 Hj3).
Qed.
Print Assumptions C19_halo_supplied.

(** C20 *)
Theorem C20_rims_and_inner_sets d sp I E w n part i :
  setting d sp I E w -> exact_cover d n part I -> (i < n)%nat ->
  exists p g, setup_node sp part w n i = Some (p, g) /\
    (forall c, at_level d (pm_own p) 0 c <-> cells d part i c) /\
    (forall c, at_level d (pm_own p) w c <-> grown E w (cells d part i) c) /\
    (** own region = kernel + rim *)
    (forall c, cells d part i c <-> at_level d (pm_inner p) w c \/ at_level d (pm_rims p) w c) /\
    (forall c, at_level d (pm_inner p) w c -> ~ at_level d (pm_rims p) w c) /\
    (** the inputs of an update of the next smaller set *)
    (forall t c c', (t < w)%nat -> at_level d (pm_rims p) (S t) c -> E c c' -> at_level d (pm_rims p) t c') /\
    (forall t c c', (t < w)%nat -> at_level d (pm_inner p) (S t) c -> E c c' -> at_level d (pm_inner p) t c') /\
    (** nothing more is needed than what is there *)
    (forall c, at_level d (pm_rims p) 0 c -> at_level d (pm_own p) w c) /\
    (forall c, at_level d (pm_inner p) 0 c -> at_level d (pm_own p) w c) /\
    (symmetric E -> forall c, at_level d (pm_inner p) 0 c -> cells d part i c) /\
    (** everything which is sent lies in the rim, everything in the rim is sent *)
    (forall c, at_level d (pm_rims p) w c <-> exists j v, frag (g_inner g) j = Some v /\ at_level d v w c) /\
    (** kernel cells overwritten by the ghost zone update *)
    (forall c, inr d (pm_volatile p) c <-> at_level d (pm_inner p) w c /\ at_level d (pm_rims p) 0 c).
Proof.
  intros Hs (Hdef & Hdis & Hcov) Hi. pose proof (setting_laws _ _ _ _ _ Hs) as L.
  assert (Hins : forall k c, (k < n)%nat -> cells d part k c -> I c) by (intros k c Hk Hc; apply Hcov; eauto).
  destruct (setup_spec d sp I E w L n part Hdef Hins i Hi) as (p & g & Eg & P & G). exists p, g. split; [exact Eg|].
  assert (Hown : forall e c, (e <= w)%nat -> (at_level d (pm_own p) e c <-> grown E e (cells d part i) c)).
  { intros e c He. apply (at_level_spec d (fun e => grown E e (cells d part i))); [apply (ps_own d I E w part i p P)|rewrite (ps_own_len d I E w part i p P); lia]. }
  assert (Hrim : forall e c, (e <= w)%nat -> (at_level d (pm_rims p) e c <-> grown E (w - e) (is_rim d I E w part i) c)).
  { intros e c He. apply (at_level_spec d (fun e => grown E (w - e) (is_rim d I E w part i))); [apply (ps_rim d I E w part i p P)|rewrite (ps_rim_len d I E w part i p P); lia]. }
  assert (Hin : forall e c, (e <= w)%nat -> (at_level d (pm_inner p) e c <-> grown E (w - e) (is_kernel d I E w part i) c)).
  { intros e c He. apply (at_level_spec d (fun e => grown E (w - e) (is_kernel d I E w part i))); [apply (ps_inner d I E w part i p P)|rewrite (ps_inner_len d I E w part i p P); lia]. }
  assert (Hrw : forall c, at_level d (pm_rims p) w c <-> is_rim d I E w part i c).
  { intros c. rewrite Hrim, Nat.sub_diag by lia. apply grown_0. }
  assert (Hkw : forall c, at_level d (pm_inner p) w c <-> is_kernel d I E w part i c).
  { intros c. rewrite Hin, Nat.sub_diag by lia. apply grown_0. }
  assert (Hstep : forall Q k c c', grown E k Q c -> E c c' -> grown E (S k) Q c').
  { intros Q k c c' (c0 & H0 & H1) H2. exists c0. split; auto. replace (S k) with (k + 1)%nat by lia. eapply walk_trans; eauto. apply (proj2 (walk_one E _ _) H2). }
  split; [intros c; rewrite Hown by lia; apply grown_0|]. split; [intros c; apply Hown; lia|].
  split; [|split; [|split; [|split; [|split; [|split; [|split; [|split]]]]]]].
  - intros c. rewrite Hrw, Hkw. split; [|intros [H|H]; apply H]. intros H.
    destruct (rim_or_kernel d I E w n part i p c Hi P H); auto.
  - intros c. rewrite Hrw, Hkw. intros [_ H1] [_ H2]. contradiction.
  - intros t c c' Ht H1 H2. rewrite Hrim in * by lia. replace (w - t)%nat with (S (w - S t)) by lia. eauto.
  - intros t c c' Ht H1 H2. rewrite Hin in * by lia. replace (w - t)%nat with (S (w - S t)) by lia. eauto.
  - intros c. rewrite Hrim, Hown, Nat.sub_0_r by lia. intros (c0 & H0 & H1). exists c0. split; [apply H0|auto].
  - intros c. rewrite Hin, Hown, Nat.sub_0_r by lia. intros (c0 & H0 & H1). exists c0. split; [apply H0|auto].
  - intros HE c. rewrite Hin, Nat.sub_0_r by lia. apply (kernel_stays d sp I E w L n part Hdef Hins i w c HE Hi). lia.
  - assert (Hfind : forall j v, frag (g_inner g) j = Some v -> In (j, v) (g_inner g)).
    { intros j v H. unfold frag in H. destruct (find _ _) as [(j', v')|] eqn:Ef; [|discriminate]. cbn in H. injection H as ->.
      apply find_some in Ef. destruct Ef as [Ef1 Ef2]. cbn in Ef2. apply Nat.eqb_eq in Ef2. now subst. }
    assert (Hat : forall j v c, frag (g_inner g) j = Some v -> (at_level d v w c <-> need d E part j i w c) /\ (j < n)%nat /\ j <> i).
    { intros j v c Hf. destruct (gs_inner_in d I E w n part i g G j v (Hfind j v Hf)) as (Hj & Hne & _).
      pose proof (gs_inner d I E w n part i g G j Hj) as F. rewrite (proj2 (Nat.eqb_neq j i) Hne), Hf in F. cbn in F.
      destruct F as (_ & Lv & F). split; [|auto]. apply (at_level_spec d (need d E part j i)); auto. lia. }
    intros c. rewrite Hrw. split.
    + intros Hc. destruct (rim_needed d I E w n part i c Hi) as (j & Hj & Hne & Hnd); auto.
      { intros c' Hc'. now apply Hcov. }
      pose proof (gs_inner d I E w n part i g G j Hj) as F. rewrite (proj2 (Nat.eqb_neq j i) Hne) in F.
      destruct (frag (g_inner g) j) as [v|] eqn:Ef.
      * exists j, v. split; [exact Ef|]. now apply (Hat j v c Ef).
      * exfalso. now apply (F c).
    + intros (j & v & Hf & Hc). destruct (Hat j v c Hf) as (H1 & H2 & H3). apply H1 in Hc.
      apply (need_in_rim d sp I E w L n part Hdef Hins i j w c); auto.
  - intros c. destruct (ps_vol d I E w part i p P) as [_ Hv]. rewrite Hv, Hkw, Hrim, Nat.sub_0_r by lia. reflexivity.
Qed.
Print Assumptions C20_rims_and_inner_sets.

(** ** Examples *)

Definition ex_grid : space := Regular [6; 5] [false; true].
Definition ex_part : nat -> option indices := striping_region 100 [0; 0] [6; 5] 0 [16; 8; 6].

(** A grid of 5 x 6 cells, periodic in x, striped onto three nodes; the ghost
    zones are two cells wide. *)
Example C18_C19_C20_hypotheses :
  setting 1 ex_grid (in_grid [6; 5]) (moore 1 [6; 5] [false; true]) 2 /\ exact_cover 1 3 ex_part (in_grid [6; 5]).
Proof.
  split; [constructor; repeat constructor; lia|].
  apply (C12_striping 1 [0; 0] [6; 5] 0 [16; 8; 6] 100); try reflexivity; try (repeat constructor; lia); cbn; lia.
Qed.

Example C18_C19_C20_example : exists p0 g0 p1 g1,
  setup_node ex_grid ex_part 2 3 0 = Some (p0, g0) /\ setup_node ex_grid ex_part 2 3 1 = Some (p1, g1) /\
  frag (g_outer g0) 1 = frag (g_inner g1) 0 /\ frag (g_inner g0) 1 = frag (g_outer g1) 0 /\
  (exists v, frag (g_outer g0) 1 = Some v /\ map reg_is_empty v = [true; false; false]) /\
  reg_is_empty (pm_outer_rim p0) = false /\
  map reg_is_empty (pm_inner p0) = [false; false; false] /\ map reg_is_empty (pm_inner p1) = [true; true; true] /\
  reg_is_empty (pm_volatile p0) = false.
Proof.
  do 4 eexists. split; [vm_compute; reflexivity|]. split; [vm_compute; reflexivity|].
  split; [vm_compute; reflexivity|]. split; [vm_compute; reflexivity|].
  split; [eexists; split; vm_compute; reflexivity|].
  repeat split; vm_compute; reflexivity.
Qed.

(** A directed graph: a ring of ten nodes with a shortcut from 0 to 5. *)
Definition ex_adj (x : Z) : list Z := if x =? 0 then [1; 5] else [(x + 1) mod 10].
Definition ex_radj (x : Z) : list Z := filter (fun y => existsb (Z.eqb x) (ex_adj y)) (map Z.of_nat (seq 0 10)).
Definition ex_graph : space := Unstructured (fun _ => ex_adj) (fun _ => ex_radj).
Definition ex_upart : nat -> option indices := unstructured_striping_region 0 0 [4; 2; 4].

Example C18_C19_C20_hypotheses_unstructured :
  setting 0 ex_graph (in_grid [10]) (linked ex_adj) 2 /\ exact_cover 0 3 ex_upart (in_grid [10]).
Proof.
  split.
  - constructor; [lia| |reflexivity| |right; reflexivity].
    + intros x y Hx. unfold ex_adj. destruct (Z.eqb_spec x 0); cbn [In]; lia.
    + intros _ x _ y. unfold ex_radj. rewrite filter_In, existsb_exists, in_map_iff. split.
      * intros ((k & <- & Hk) & z & Hz & Hxz). apply in_seq in Hk. apply Z.eqb_eq in Hxz. subst z. split; [lia|auto].
      * intros (Hy & Hin). split; [exists (Z.to_nat y); rewrite in_seq; lia|]. exists x. split; [auto|apply Z.eqb_refl].
  - apply (C12_unstructured_striping 0 0 [4; 2; 4]). repeat constructor; lia.
Qed.

Example C18_C19_C20_example_unstructured : exists p0 g0 p1 g1,
  setup_node ex_graph ex_upart 2 3 0 = Some (p0, g0) /\ setup_node ex_graph ex_upart 2 3 1 = Some (p1, g1) /\
  frag (g_outer g0) 1 = frag (g_inner g1) 0 /\
  (exists a b c, frag (g_outer g0) 1 = Some [a; b; c] /\ reg_is_empty a = true /\
     reg_count b [4] = Some true /\ reg_count b [5] = Some true /\ reg_count c [4] = Some true) /\
  frag (g_inner g0) 1 = None /\
  (exists a b c, pm_rims p0 = [a; b; c] /\ reg_count c [0] = Some true /\ reg_count c [1] = Some true /\
     reg_count c [2] = Some false /\ reg_count b [2] = Some true).
Proof.
  do 4 eexists. split; [vm_compute; reflexivity|]. split; [vm_compute; reflexivity|].
  split; [vm_compute; reflexivity|]. split; [do 3 eexists; split; [vm_compute; reflexivity|]; repeat split; vm_compute; reflexivity|].
  split; [vm_compute; reflexivity|]. do 3 eexists; split; [vm_compute; reflexivity|]. repeat split; vm_compute; reflexivity.
Qed.

(** ** Refutations *)

(** C60: an adjacency which has the edges leaving the given Region's nodes
    only (adjacencymanufacturer.h:28-41 asks for no more) makes the kernel too
    large if the ghost zones are wider than 1: nodes which are sent to others
    lie outside of the rim. *)
Definition path_adj (x : Z) : list Z :=
  if x =? 0 then [1] else if x =? 5 then [4] else [x - 1; x + 1].
Definition path_of (r : indices) (x : Z) : list Z :=
  match reg_count r [x] with Some true => path_adj x | _ => [] end.

Theorem C60_partial_adjacency_refuted : exists adjm radjm adj (n : Z) part w p g v c,
  (** a symmetric graph whose adjacencies are manufactured as documented *)
  (forall x y, 0 <= x < n -> In y (adj x) -> 0 <= y < n /\ In x (adj y)) /\
  (forall r x, 0 <= x < n -> reg_count r [x] = Some true ->
     (forall y, In y (adjm r x) <-> In y (adj x)) /\ (forall y, In y (radjm r x) <-> 0 <= y < n /\ In x (adj y))) /\
  exact_cover 0 2 part (in_grid [n]) /\ (1 <= w)%nat /\
  setup_node (Unstructured adjm radjm) part w 2 0 = Some (p, g) /\
  (** a cell which is sent to node 1, but isn't in the rim *)
  frag (g_inner g) 1 = Some v /\ at_level 0 v w c /\ ~ at_level 0 (pm_rims p) w c.
Proof.
  assert (Hp : forall x y, 0 <= x < 6 -> (In y (path_adj x) <-> 0 <= y < 6 /\ (y = x - 1 \/ y = x + 1))).
  { intros x y Hx. unfold path_adj. destruct (Z.eqb_spec x 0); [|destruct (Z.eqb_spec x 5)]; cbn [In]; lia. }
  exists path_of, path_of, path_adj, 6, (unstructured_striping_region 0 0 [3; 3]), 2%nat.
  do 3 eexists. exists [1]. split; [|split; [|split; [|split; [|split; [|split; [|split]]]]]].
  - intros x y Hx Hy. apply Hp in Hy; auto. split; [lia|]. apply Hp; lia.
  - intros r x Hx Hr. unfold path_of. rewrite Hr. split; [tauto|]. intros y. split.
    + intros Hy. apply Hp in Hy; auto. split; [lia|]. apply Hp; lia.
    + intros (Hy & Hin). apply Hp in Hin; auto. apply Hp; lia.
  - apply (C12_unstructured_striping 0 0 [3; 3]). repeat constructor; lia.
  - lia.
  - vm_compute; reflexivity.
  - vm_compute; reflexivity.
  - eexists. split; [vm_compute; reflexivity|]. split; reflexivity.
  - intros (r & Er & _ & Hr). vm_compute in Er. injection Er as <-. vm_compute in Hr. discriminate.
Qed.
Print Assumptions C60_partial_adjacency_refuted.

(** C61: the area's origin is ignored by [expandWithTopology]. If it isn't 0,
    a node does not see its neighbour's cells. *)
Theorem C61_area_origin_refuted : exists dim origin part p g c c',
  exact_cover 0 2 part (in_box (mkBox [origin] [dim])) /\
  setup_node (Regular [dim] [false]) part 1 2 0 = Some (p, g) /\
  (** [c'] is right beside the node's cell [c] and belongs to the area *)
  cells 0 part 0 c /\ near [1] c' c /\ cells 0 part 1 c' /\
  ~ inr 0 (pm_outer_rim p) c' /\ frag (g_outer g) 1 = None.
Proof.
  exists 10, 10, (striping_region 100 [10] [10] 0 [5; 5]). do 2 eexists. exists [14], [15].
  split; [|split; [vm_compute; reflexivity|split; [|split; [|split; [|split]]]]].
  - apply (C12_striping 0 [10] [10] 0 [5; 5] 100); try reflexivity; try (repeat constructor; lia); cbn; lia.
  - eexists. split; [vm_compute; reflexivity|]. split; reflexivity.
  - cbn. lia.
  - eexists. split; [vm_compute; reflexivity|]. split; reflexivity.
  - intros [_ H]. vm_compute in H. discriminate.
  - vm_compute. reflexivity.
Qed.
Print Assumptions C61_area_origin_refuted.
