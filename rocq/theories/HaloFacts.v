(** Growing sets along a neighbourhood; Regions of regular and unstructured
    grids grow accordingly. *)
From Verif Require Import Base RegionSpec RegionModel RegionRep RegionIterModel RegionStreaks CoordModel CoordSpec RegionOpsModel
  RegionOps CoordFacts TopologyFacts RegionExpand RegionWrap RegionAdj RegionReach HaloSpec PartitionManagerModel.

Lemma walk_trans E a : forall b c0 c1 c2, walk E a c0 c1 -> walk E b c1 c2 -> walk E (a + b) c0 c2.
Proof.
  induction a as [|a IH]; cbn; intros b c0 c1 c2 H1 H2.
  - now subst.
  - destruct H1 as (c & Hc & H1). exists c. split; eauto.
Qed.

Lemma walk_split E a : forall b c0 c2, walk E (a + b) c0 c2 -> exists c1, walk E a c0 c1 /\ walk E b c1 c2.
Proof.
  induction a as [|a IH]; cbn; intros b c0 c2 H.
  - exists c0. auto.
  - destruct H as (c & Hc & H). apply IH in H. destruct H as (c1 & H1 & H2). exists c1. split; eauto.
Qed.

Lemma walk_one E a b : walk E 1 a b <-> E a b.
Proof. cbn. split; [intros (c & H & ->); auto|intros H; exists b; auto]. Qed.

Lemma walk_rev E k : symmetric E -> forall a b, walk E k a b -> walk E k b a.
Proof.
  intros HE. induction k as [|k IH]; intros a b H; [cbn in *; auto|].
  destruct H as (c & Hc & H). apply IH in H. replace (S k) with (k + 1)%nat by lia.
  eapply walk_trans; eauto. apply (proj2 (walk_one _ _ _)). auto.
Qed.

(** [space_laws d sp I E w]: on regions within [I], the expansions by 1 and by
    [w] grow along [E], the reverse expansion by 1 against it. *)
Record space_laws (d : nat) (sp : space) (I : coord -> Prop) (E : neigh) (w : nat) : Prop := {
  sl_len : forall c, I c -> length c = S d;
  sl_refl : forall c, I c -> E c c;
  sl_closed : forall c c', I c -> E c c' -> I c';
  sl_expand1 : forall r, rvalid d r -> (forall c, inr d r c -> I c) ->
    exists r', sp_expand sp 1 r = Some r' /\ rvalid d r' /\
      forall c, length c = S d -> (inr d r' c <-> exists c0, inr d r c0 /\ E c0 c);
  sl_expandw : forall r, rvalid d r -> (forall c, inr d r c -> I c) ->
    exists r', sp_expand sp w r = Some r' /\ rvalid d r' /\
      forall c, length c = S d -> (inr d r' c <-> exists c0, inr d r c0 /\ walk E w c0 c);
  sl_rexpand : forall r, rvalid d r -> (forall c, inr d r c -> I c) ->
    exists r', sp_rexpand sp 1 r = Some r' /\ rvalid d r' /\
      forall c, length c = S d -> (inr d r' c <-> I c /\ exists c0, inr d r c0 /\ E c c0)
}.

(** ** Regular grids *)

(** The neighbourhood of radius [k], component by component. *)
Fixpoint box_step (k : Z) (t : topology) (dim c c' : coord) : Prop :=
  match t, dim, c, c' with
  | [], [], [], [] => True
  | w :: t', n :: dim', x :: cs, x' :: cs' =>
      0 <= x' < n /\ (exists x1, x - k <= x1 <= x + k /\ (if w : bool then exists q, x1 = x' + q * n else x1 = x')) /\
      box_step k t' dim' cs cs'
  | _, _, _, _ => False
  end.

Lemma box_step_spec k t : forall dim c c' d, length t = d -> length dim = d -> length c = d ->
  ((exists c1, near (diagonal d k) c1 c /\ wraps_to t dim c1 c') <-> box_step k t dim c c').
Proof.
  unfold diagonal. induction t as [|w t IH]; intros [|n dim] [|x c] c' d; cbn [length]; intros; subst; try discriminate.
  - cbn. split.
    + intros (c1 & Ha & Hb). destruct c1; destruct c'; tauto.
    + destruct c'; [|tauto]. intros _. exists []. cbn. auto.
  - cbn [repeat]. split.
    + intros (c1 & H2 & H3). destruct c1 as [|x1 c1], c' as [|x' c']; cbn in H2, H3; try tauto.
      cbn [box_step]. destruct H3 as (Hx & Hw & H3). split; [auto|]. split; [exists x1; destruct H2; auto|].
      apply (IH dim c c' (length t)); auto. exists c1. tauto.
    + destruct c' as [|x' c']; cbn [box_step]; [tauto|]. intros (Hx & (x1 & Hx1 & Hw) & H3).
      apply (IH dim c c' (length t)) in H3; auto. destruct H3 as (c1 & H3 & H4). exists (x1 :: c1). cbn. tauto.
Qed.

Lemma box_step_grid k t : forall dim c c', box_step k t dim c c' -> in_grid dim c'.
Proof.
  induction t as [|w t IH]; intros [|n dim] [|x c] [|x' c']; cbn [box_step]; try tauto; try (intros; exact I).
  intros (Hx & _ & H). apply in_grid_cons. split; eauto.
Qed.

Lemma box_step_sym k t : forall dim c c', 0 <= k -> in_grid dim c -> box_step k t dim c c' -> box_step k t dim c' c.
Proof.
  induction t as [|w t IH]; intros [|n dim] [|x c] [|x' c']; cbn [box_step]; try tauto.
  intros Hk Hg (Hx & (x1 & Hx1 & Hw) & H). apply in_grid_cons in Hg. destruct Hg as [Hg1 Hg2].
  split; [auto|]. split; [|auto]. exists (x' - (x1 - x)). split; [lia|].
  destruct w; [|lia]. destruct Hw as (q & Hq). exists (- q). lia.
Qed.

Lemma box_step_comp k t : forall dim c c', 0 <= k -> in_grid dim c ->
  (box_step (k + 1) t dim c c' <-> exists c1, box_step 1 t dim c c1 /\ box_step k t dim c1 c').
Proof.
  induction t as [|w t IH]; intros [|n dim] [|x c] c'; cbn [box_step]; intros Hk Hg;
    try (split; [tauto|intros (c1 & H1 & H2); tauto]).
  - destruct c'; cbn [box_step].
    + split; [intros _; exists []; cbn; auto|auto].
    + split; [tauto|]. intros ([|? ?] & H1 & H2); tauto.
  - apply in_grid_cons in Hg. destruct Hg as [Hg1 Hg2]. destruct c' as [|x' c'].
    { cbn [box_step]. split; [tauto|]. intros ([|? ?] & H1 & H2); tauto. }
    cbn [box_step]. split.
    + intros (Hx & (x1 & Hx1 & Hw) & H). apply IH in H; auto. destruct H as (c1 & H1 & H2).
      set (dl := Z.max (-1) (Z.min 1 (x1 - x))).
      destruct w.
      * destruct Hw as (q & Hq). exists ((x + dl) mod n :: c1). cbn [box_step].
        pose proof (Z.div_mod (x + dl) n ltac:(lia)) as Hdm. pose proof (Z.mod_pos_bound (x + dl) n ltac:(lia)) as Hb.
        split; [split; [lia|split; [|auto]]|split; [lia|split; [|auto]]].
        -- exists (x + dl). split; [lia|]. exists ((x + dl) / n). lia.
        -- exists ((x + dl) mod n + (x1 - (x + dl))). split; [lia|]. exists (q - (x + dl) / n). lia.
      * exists (x + dl :: c1). cbn [box_step]. split; [split; [lia|split; [|auto]]|split; [lia|split; [|auto]]].
        -- exists (x + dl). split; [lia|auto].
        -- exists x'. split; [lia|auto].
    + intros ([|z c1] & H1 & H2); [tauto|]. cbn [box_step] in H1, H2.
      destruct H1 as (Hz & (z1 & Hz1 & Hzw) & H1), H2 as (Hx & (x1 & Hx1 & Hxw) & H2).
      split; [auto|]. split; [|apply IH; eauto]. exists (x1 + (z1 - z)). split; [lia|].
      destruct w; [|lia]. destruct Hzw as (q1 & ?), Hxw as (q2 & ?). exists (q1 + q2). lia.
Qed.

Lemma box_step_0 t : forall dim c c', length t = length dim -> in_grid dim c -> (box_step 0 t dim c c' <-> c = c').
Proof.
  induction t as [|w t IH]; intros [|n dim] [|x c] c'; cbn [length]; intros Hl Hg; try discriminate;
    try (destruct Hg; fail).
  - destruct c'; cbn; split; congruence || tauto.
  - apply in_grid_cons in Hg. destruct Hg as [Hg1 Hg2]. destruct c' as [|x' c']; cbn [box_step]; [split; [tauto|discriminate]|].
    rewrite IH by (auto; lia). split.
    + intros (Hx & (x1 & Hx1 & Hw) & ->). f_equal. destruct w; [|lia]. destruct Hw as (q & Hq).
      apply (wrap_unique n x x' q); lia.
    + intros [= -> ->]. split; [auto|]. split; [|auto]. exists x'. split; [lia|]. destruct w; [exists 0; lia|auto].
Qed.

Lemma moore_step d dim t c c' : length dim = S d -> length t = S d -> length c = S d ->
  (moore d dim t c c' <-> in_grid dim c /\ box_step 1 t dim c c').
Proof. intros. unfold moore. now rewrite (box_step_spec 1 t dim c c' (S d)). Qed.

Lemma grid_length dim c : in_grid dim c -> length c = length dim.
Proof.
  revert c. induction dim as [|n dim IH]; intros [|x c] H; auto; try (destruct H; fail).
  apply in_grid_cons in H. cbn. f_equal. apply IH. apply H.
Qed.

Lemma moore_walk d dim t : length dim = S d -> length t = S d -> forall k c c', in_grid dim c ->
  (walk (moore d dim t) k c c' <-> box_step (Z.of_nat k) t dim c c').
Proof.
  intros Hd Ht. induction k as [|k IH]; intros c c' Hg.
  - cbn [walk Z.of_nat]. rewrite box_step_0; auto; try lia. tauto.
  - cbn [walk]. replace (Z.of_nat (S k)) with (Z.of_nat k + 1) by lia. rewrite box_step_comp by (auto; lia).
    pose proof (grid_length dim c Hg) as Hl.
    split; intros (c1 & H1 & H2); exists c1.
    + apply moore_step in H1; auto; try lia. destruct H1 as [_ H1]. split; auto.
      apply IH; auto. eapply box_step_grid; eauto.
    + split; [apply moore_step; auto; lia|]. apply IH; auto. eapply box_step_grid; eauto.
Qed.

Lemma moore_sym d dim t : length dim = S d -> length t = S d -> symmetric (moore d dim t).
Proof.
  intros Hd Ht a b H. assert (Hg : in_grid dim a) by apply H. pose proof (grid_length dim a Hg).
  apply moore_step in H; auto; try lia. destruct H as [_ H]. pose proof (box_step_grid _ _ _ _ _ H) as Hb.
  pose proof (grid_length dim b Hb). apply moore_step; auto; try lia. split; auto. apply box_step_sym; auto. lia.
Qed.

Lemma regular_laws d dim t w : length dim = S d -> length t = S d -> allpos dim ->
  (1 <= w)%nat -> Forall (fun n => Z.of_nat w <= n) dim ->
  space_laws d (Regular dim t) (in_grid dim) (moore d dim t) w.
Proof.
  intros Hd Ht Hp Hw1 Hw.
  assert (Hone : Forall (fun n => 1 <= n) dim) by (eapply Forall_impl; [|exact Hw]; cbn; intros; lia).
  assert (Hex : forall k, Forall (fun n => Z.of_nat k <= n) dim ->
     forall r, rvalid d r -> (forall c, inr d r c -> in_grid dim c) ->
     exists r', sp_expand (Regular dim t) k r = Some r' /\ rvalid d r' /\
       forall c, length c = S d -> (inr d r' c <-> exists c0, inr d r c0 /\ walk (moore d dim t) k c0 c)).
  { intros k Hk r Hv Hin. cbn [sp_expand].
    destruct (expand_topology_valid d r (Z.of_nat k) dim t Hv Hd Ht Hp ltac:(lia) Hk) as (r' & E & V & H).
    { intros c Hl Hc. apply Hin. split; auto. }
    exists r'. split; [exact E|]. split; [exact V|]. intros c Hc. unfold inr at 1. change (reg_count r' c = Some true) with (rin r' c).
    rewrite H by auto. split.
    - intros [_ (c0 & c1 & Hl & Hr & Hn & Hwr)]. exists c0. split; [split; auto|].
      apply moore_walk; auto; [apply Hin; split; auto|]. apply (box_step_spec _ t dim c0 c (S d)); auto. eauto.
    - intros (c0 & [Hl Hr] & Hwk). split; auto. apply moore_walk in Hwk; auto; [|apply Hin; split; auto].
      apply (box_step_spec _ t dim c0 c (S d)) in Hwk; auto. destruct Hwk as (c1 & H1 & H2). exists c0, c1. auto. }
  split.
  - intros c Hc. rewrite (grid_length dim c Hc). lia.
  - intros c Hc. apply (walk_one (moore d dim t)). pose proof (grid_length dim c Hc).
    apply (proj2 (walk_one _ _ _)). apply moore_step; auto; try lia. split; auto.
    apply (box_step_comp 0 t dim c c); [lia|auto|]. 
    assert (Hs : box_step 1 t dim c c).
    { clear - Hc Hd Ht Hp. revert dim c Hc Hd Hp. assert (Hl : length t = length t) by auto. revert Ht Hl. generalize (S d). 
      induction t as [|b t' IH]; intros k Ht _ [|n dim] [|x c] Hc Hd Hp; cbn [length] in *; subst; try discriminate; try (destruct Hc; fail); [exact I|].
      apply in_grid_cons in Hc. destruct Hc as [Hc1 Hc2]. inversion Hp; subst. cbn [box_step]. split; [auto|]. split.
      - exists x. split; [lia|]. destruct b; [exists 0; lia|auto].
      - eapply (IH (length t')); eauto; lia. }
    exists c. split; auto. apply box_step_0; auto. lia.
  - intros c c' Hc H. apply moore_step in H; auto; [|rewrite (grid_length dim c Hc); lia]. eapply box_step_grid; apply H.
  - intros r Hv Hin. destruct (Hex 1%nat Hone r Hv Hin) as (r' & E & V & H). exists r'. split; [exact E|]. split; [exact V|].
    intros c Hc. rewrite H by auto. split; intros (c0 & H1 & H2); exists c0; split; auto; now apply (walk_one (moore d dim t) c0 c).
  - apply Hex. exact Hw.
  - intros r Hv Hin. destruct (Hex 1%nat Hone r Hv Hin) as (r' & E & V & H). exists r'. split; [exact E|]. split; [exact V|].
    intros c Hc. rewrite H by auto. pose proof (moore_sym d dim t Hd Ht) as Hsym. split.
    + intros (c0 & H1 & H2). apply (proj1 (walk_one _ _ _)) in H2. apply Hsym in H2. split; [apply H2|]. eauto.
    + intros (_ & c0 & H1 & H2). exists c0. split; auto. apply (proj2 (walk_one _ _ _)). auto.
Qed.

(** ** Unstructured grids *)

Lemma linked_refl adj x : linked adj [x] [x].
Proof. exists x, x. auto. Qed.

Lemma linked_steps adj (P : Z -> Prop) k : forall y,
  (exists j, (j <= k)%nat /\ steps adj P j y) <-> exists x, P x /\ walk (linked adj) k [x] [y].
Proof.
  induction k as [|k IH]; intros y.
  - split.
    + intros (j & Hj & Hs). assert (j = O) by lia. subst j. inversion Hs; subst. exists y. cbn. auto.
    + intros (x & Hx & H). cbn in H. injection H as ->. exists O. split; [lia|]. now constructor.
  - split.
    + intros (j & Hj & Hs). destruct (Nat.le_gt_cases j k) as [Hk|Hk].
      * destruct (proj1 (IH y) (ex_intro _ j (conj Hk Hs))) as (x & Hx & Hw). exists x. split; auto.
        replace (S k) with (k + 1)%nat by lia. eapply walk_trans; [exact Hw|]. apply (proj2 (walk_one _ _ _)). apply linked_refl.
      * assert (j = S k) by lia. subst j. inversion Hs as [|? z ? Hz Hin]; subst.
        destruct (proj1 (IH z) (ex_intro _ k (conj (le_n _) Hz))) as (x & Hx & Hw). exists x. split; auto.
        replace (S k) with (k + 1)%nat by lia. eapply walk_trans; [exact Hw|]. apply (proj2 (walk_one _ _ _)). exists z, y. auto.
    + intros (x & Hx & H). replace (S k) with (k + 1)%nat in H by lia. apply walk_split in H.
      destruct H as (c1 & H1 & H2). apply (proj1 (walk_one _ _ _)) in H2. destruct H2 as (z & y' & -> & E & H2). injection E as <-.
      destruct (proj2 (IH z) (ex_intro _ x (conj Hx H1))) as (j & Hj & Hs).
      destruct H2 as [->|H2]; [exists j; split; auto|]. exists (S j). split; [lia|]. econstructor; eauto.
Qed.

Lemma linked_walk_ext adj adj' (I : coord -> Prop) k : 
  (forall x, I [x] -> forall y, In y (adj' x) <-> In y (adj x)) ->
  (forall c c', I c -> linked adj c c' -> I c') ->
  forall c c', I c -> (walk (linked adj') k c c' <-> walk (linked adj) k c c').
Proof.
  intros He Hc. assert (Hl : forall c c', I c -> (linked adj' c c' <-> linked adj c c')).
  { intros c c' HI. split; intros (x & y & -> & -> & H); exists x, y; (split; [auto|]); (split; [auto|]);
      (destruct H as [H|H]; [auto|right; now apply He]). }
  induction k as [|k IH]; intros c c' HI; [cbn; tauto|]. cbn [walk]. split; intros (c1 & H1 & H2); exists c1.
  - apply Hl in H1; auto. split; auto. apply IH; eauto.
  - pose proof (Hc _ _ HI H1). split; [apply Hl; auto|]. apply IH; auto.
Qed.

Lemma unstructured_laws n adjm radjm adj w : (1 <= w)%nat ->
  (forall x y, 0 <= x < n -> In y (adj x) -> 0 <= y < n) ->
  (forall r x, reg_count r [x] = Some true -> forall y, In y (adjm r x) <-> In y (adj x)) ->
  (forall r x, reg_count r [x] = Some true -> forall y, In y (radjm r x) <-> 0 <= y < n /\ In x (adj y)) ->
  (w = 1%nat \/ forall r x, 0 <= x < n -> forall y, In y (adjm r x) <-> In y (adj x)) ->
  space_laws 0 (Unstructured adjm radjm) (in_grid [n]) (linked adj) w.
Proof.
  intros Hw Hcl Hadj Hradj Hfull.
  assert (HI : forall x, in_grid [n] [x] <-> 0 <= x < n) by (intros x; unfold in_grid; cbn; lia).
  assert (Hclosed : forall c c', in_grid [n] c -> linked adj c c' -> in_grid [n] c').
  { intros c c' Hc (x & y & -> & -> & H). apply HI in Hc. apply HI. destruct H as [<-|H]; eauto. }
  assert (Hc1 : forall c : coord, length c = 1%nat -> exists x, c = [x]).
  { intros [|x [|]]; try discriminate. eauto. }
  assert (Hone : forall r, rvalid 0 r -> (forall c, inr 0 r c -> in_grid [n] c) ->
     exists r', sp_expand (Unstructured adjm radjm) 1 r = Some r' /\ rvalid 0 r' /\
      forall c, length c = 1%nat -> (inr 0 r' c <-> exists c0, inr 0 r c0 /\ linked adj c0 c)).
  { intros r Hv Hin. cbn [sp_expand]. destruct (expand_adjacency_valid (adjm r) r 1 Hv) as (r' & E & V & H).
    exists r'. split; [exact E|]. split; [exact V|]. intros c Hc. destruct (Hc1 c Hc) as [y ->].
    unfold inr at 1. change (reg_count r' [y] = Some true) with (rin r' [y]). rewrite H, linked_steps. split.
    - intros [_ (x & Hx & Hwk)]. exists [x]. split; [split; auto|]. apply (proj1 (walk_one _ _ _)) in Hwk.
      destruct Hwk as (x' & y' & [= <-] & [= <-] & Hxy). exists x, y. split; [auto|]. split; [auto|].
      destruct Hxy; [auto|right]. apply (Hadj r x); auto.
    - intros (c0 & [Hl Hr] & (x & y' & -> & [= <-] & Hxy)). split; [auto|]. exists x. split; [auto|]. apply (proj2 (walk_one _ _ _)).
      exists x, y. split; [auto|]. split; [auto|]. destruct Hxy; [auto|right]. apply (Hadj r x); auto. }
  split.
  - intros c Hc. rewrite (grid_length [n] c Hc). reflexivity.
  - intros c Hc. destruct (Hc1 c (grid_length [n] c Hc)) as [x ->]. apply linked_refl.
  - exact Hclosed.
  - exact Hone.
  - intros r Hv Hin. destruct Hfull as [->|Hfull].
    { destruct (Hone r Hv Hin) as (r' & E & V & H). exists r'. split; [exact E|]. split; [exact V|].
      intros c Hc. rewrite H by auto. split; intros (c0 & A & B); exists c0; split; auto; now apply (walk_one (linked adj) c0 c). }
    cbn [sp_expand]. destruct (expand_adjacency_valid (adjm r) r w Hv) as (r' & E & V & H).
    exists r'. split; [exact E|]. split; [exact V|]. intros c Hc. destruct (Hc1 c Hc) as [y ->].
    unfold inr at 1. change (reg_count r' [y] = Some true) with (rin r' [y]). rewrite H, linked_steps.
    assert (Hwk : forall x, rin r [x] -> (walk (linked (adjm r)) w [x] [y] <-> walk (linked adj) w [x] [y])).
    { intros x Hx. apply (linked_walk_ext adj (adjm r) (in_grid [n])); auto.
      - intros z Hz. apply Hfull. exact (proj1 (HI z) Hz).
      - apply Hin. split; auto. }
    split.
    + intros [_ (x & Hx & Hk)]. exists [x]. split; [split; auto|]. now apply Hwk.
    + intros (c0 & [Hl Hr] & Hk). destruct (Hc1 c0 Hl) as [x ->]. split; [auto|]. exists x. split; [auto|]. now apply Hwk.
  - intros r Hv Hin. cbn [sp_rexpand]. destruct (expand_adjacency_valid (radjm r) r 1 Hv) as (r' & E & V & H).
    exists r'. split; [exact E|]. split; [exact V|]. intros c Hc. destruct (Hc1 c Hc) as [y ->].
    unfold inr at 1. change (reg_count r' [y] = Some true) with (rin r' [y]). rewrite H, linked_steps. split.
    + intros [_ (x & Hx & Hwk)]. apply (proj1 (walk_one _ _ _)) in Hwk. destruct Hwk as (x' & y' & [= <-] & [= <-] & Hxy).
      destruct Hxy as [->|Hxy].
      * split; [apply Hin; split; auto|]. exists [y]. split; [split; auto|apply linked_refl].
      * apply (Hradj r x Hx) in Hxy. split; [apply HI; tauto|]. exists [x]. split; [split; auto|]. exists y, x. tauto.
    + intros (Hy & c0 & [Hl Hr] & (y' & x & [= <-] & -> & Hxy)). split; [auto|]. exists x. split; [auto|]. apply (proj2 (walk_one _ _ _)).
      exists x, y. split; [auto|]. split; [auto|]. destruct Hxy as [->|Hxy]; [auto|right]. apply (Hradj r x Hr). split; [|auto].
      exact (proj1 (HI y) Hy).
Qed.
