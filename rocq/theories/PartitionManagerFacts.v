(** The sets kept by the PartitionManager. *)
From Verif Require Import Base RegionSpec RegionModel RegionRep RegionIterModel RegionStreaks CoordModel CoordSpec RegionOpsModel
  RegionOps CoordFacts TopologyFacts RegionGeometry RegionReach HaloSpec PartitionSpec PartitionManagerModel HaloFacts.

Lemma inr_dec d r c : rvalid d r -> inr d r c \/ ~ inr d r c.
Proof.
  intros Hv. unfold inr. destruct (Nat.eq_dec (length c) (S d)) as [Hl|Hl]; [|tauto].
  destruct (count_total d r c Hv Hl) as [H|H]; [tauto|]. right. intros [_ H']. congruence.
Qed.

Lemma diff_inr d a b : rvalid d a -> rvalid d b ->
  exists r, reg_diff a b = Some r /\ rvalid d r /\ forall c, inr d r c <-> inr d a c /\ ~ inr d b c.
Proof.
  intros Ha Hb. destruct (reg_diff_valid d a b Ha Hb) as (r & E & V & H). exists r. split; [auto|]. split; [auto|].
  intros c. unfold inr. fold (rin r c). fold (rin a c). fold (rin b c). split.
  - intros [Hl Hr]. apply H in Hr; auto. tauto.
  - intros ([Hl Hr] & Hn). split; auto. apply H; auto.
Qed.

Lemma isect_inr d a b : rvalid d a -> rvalid d b ->
  exists r, reg_isect a b = Some r /\ rvalid d r /\ forall c, inr d r c <-> inr d a c /\ inr d b c.
Proof.
  intros Ha Hb. destruct (reg_isect_valid d a b Ha Hb) as (r & E & V & H). exists r. split; [auto|]. split; [auto|].
  intros c. unfold inr. fold (rin r c). fold (rin a c). fold (rin b c). split.
  - intros [Hl Hr]. apply H in Hr; auto. tauto.
  - intros ([Hl Hr] & Hn). split; auto. apply H; tauto.
Qed.

Lemma empty_inr d r : rvalid d r -> (reg_is_empty r = true <-> forall c, ~ inr d r c).
Proof.
  intros Hv. destruct (geometry_valid d r Hv) as (b & cs & _ & _ & Hin & _ & _ & He). rewrite He. split.
  - intros -> c Hc. apply (Hin c). exact Hc.
  - intros H. destruct cs as [|c cs]; auto. exfalso. apply (H c). apply Hin. now left.
Qed.

Lemma nonempty_inr d r : rvalid d r -> (reg_is_empty r = false <-> exists c, inr d r c).
Proof.
  intros Hv. destruct (geometry_valid d r Hv) as (b & cs & _ & _ & Hin & _ & _ & He). split.
  - intros H. destruct cs as [|c cs]; [rewrite (proj2 He eq_refl) in H; discriminate|]. exists c. apply Hin. now left.
  - intros (c & Hc). destruct (reg_is_empty r) eqn:E; auto. exfalso. rewrite (proj1 He eq_refl) in Hin. apply (Hin c). exact Hc.
Qed.

Lemma ext_inr d a b : rvalid d a -> rvalid d b -> (forall c, inr d a c <-> inr d b c) -> a = b.
Proof.
  intros Ha Hb H. apply (valid_ext d); auto. intros c Hc. specialize (H c). unfold inr in H. unfold rin. tauto.
Qed.

(** ** Bounding boxes *)

Lemma in_bounds_inside n : forall o dim c, length o = n -> length dim = n -> length c = n ->
  (negb (out_of_bounds (cube n) (zsub c o) dim) = true <-> inside o dim c).
Proof.
  induction n as [|n IH]; intros [|a o] [|m dim] [|x c] H1 H2 H3; try discriminate; [cbn; tauto|].
  cbn [cube repeat zsub out_of_bounds inside]. fold (cube n). specialize (IH o dim c).
  rewrite <- IH by (cbn in *; lia). clear IH. cbn [negb andb].
  destruct (out_of_bounds (cube n) (zsub c o) dim); cbn [negb]; rewrite ?orb_true_r, ?orb_false_r; lia.
Qed.

Lemma in_bounds_spec n b c : length (b_origin b) = n -> length (b_dim b) = n -> length c = n ->
  (box_in_bounds b c = true <-> in_box b c).
Proof. intros H1 H2 H3. unfold box_in_bounds, in_box. rewrite H3. now apply in_bounds_inside. Qed.

Lemma inside_zmax n : forall o1 d1 o2 d2 c, length o1 = n -> length o2 = n ->
  inside o1 d1 c -> inside o2 d2 c -> inside o1 d1 (zmax o1 o2) /\ inside o2 d2 (zmax o1 o2).
Proof.
  induction n as [|n IH]; intros [|a o1] [|m d1] [|b o2] [|k d2] [|x c] L1 L2; cbn [inside zmax length] in *; try discriminate; try tauto.
  intros (Hx1 & H1) (Hx2 & H2). destruct (IH o1 d1 o2 d2 c) as [H3 H4]; auto; try lia. repeat split; auto; lia.
Qed.

Lemma inside_len o : forall dim c, inside o dim c -> length dim = length o /\ length c = length o.
Proof. induction o as [|a o IH]; intros [|m dim] [|x c]; cbn; try tauto. intros [_ H]. apply IH in H. lia. Qed.

Lemma box_meet n a b c : length (b_origin a) = n -> length (b_origin b) = n ->
  in_box a c -> in_box b c -> box_intersects a b = true.
Proof.
  intros L1 L2 H1 H2. unfold box_intersects. cbn zeta. unfold in_box in *.
  destruct (inside_len _ _ _ H1) as [P1 P2], (inside_len _ _ _ H2) as [P3 P4].
  destruct (inside_zmax n _ _ _ _ _ L1 L2 H1 H2) as [H3 H4].
  assert (length (zmax (b_origin a) (b_origin b)) = n) by (rewrite zmax_length; lia).
  apply andb_true_intro. split; apply (in_bounds_spec n); auto; lia.
Qed.

Lemma bounding_box_valid d r : rvalid d r ->
  exists b, bounding_box r = Some b /\ length (b_origin b) = S d /\ forall c, inr d r c -> in_box b c.
Proof.
  intros Hv. destruct (geometry_valid d r Hv) as (b & cs & E & _ & _ & (H1 & H2 & H3 & _) & _). exists b.
  unfold bounding_box. rewrite E. split; [reflexivity|]. split; [exact H1|]. intros c Hc. apply H3. exact Hc.
Qed.

(** ** Expansions *)

Section PM.
Context (d : nat) (sp : space) (I : coord -> Prop) (E : neigh) (w : nat).
Context (L : space_laws d sp I E w).

Lemma walk_inside k : forall c c', I c -> walk E k c c' -> I c'.
Proof.
  induction k as [|k IH]; intros c c' Hc H; [cbn in H; now subst|].
  destruct H as (c1 & H1 & H2). eapply IH; [|exact H2]. eapply sl_closed; eauto.
Qed.

Lemma walk_more k : forall m c c', I c -> (k <= m)%nat -> walk E k c c' -> walk E m c c'.
Proof.
  intros m c c' Hc Hm H. replace m with ((m - k) + k)%nat by lia. apply walk_trans with c; auto.
  generalize (m - k)%nat. intros j. induction j as [|j IH]; [reflexivity|]. exists c. split; [|exact IH]. eapply sl_refl; eauto.
Qed.

(** A path from inside of [P] to the outside has a last cell inside. *)
Lemma walk_exit (P : coord -> Prop) (Pd : forall c, P c \/ ~ P c) k : forall c c', walk E k c c' -> P c -> ~ P c' ->
  exists j a b, (S j <= k)%nat /\ walk E j c a /\ P a /\ E a b /\ ~ P b /\ walk E (k - S j) b c'.
Proof.
  induction k as [|k IH]; intros c c' H H1 H2; [cbn in H; subst; contradiction|].
  destruct H as (c1 & Hc1 & H). destruct (Pd c1) as [Hp|Hp].
  - destruct (IH c1 c' H Hp H2) as (j & a & b & Hj & Ha & Pa & Eab & Pb & Hb).
    exists (S j), a, b. split; [lia|]. split; [exists c1; auto|]. auto.
  - exists O, c, c1. split; [lia|]. split; [reflexivity|]. split; [auto|]. split; [auto|]. split; [auto|].
    now replace (S k - 1)%nat with k by lia.
Qed.

Lemma expansions_spec k : forall r, rvalid d r -> (forall c, inr d r c -> I c) ->
  exists l, expansions sp k r = Some l /\ length l = S k /\
    forall i ri, nth_error l i = Some ri -> rvalid d ri /\ forall c, inr d ri c <-> grown E i (inr d r) c.
Proof.
  induction k as [|k IH]; intros r Hv Hin; cbn [expansions].
  - exists [r]. split; [reflexivity|]. split; [reflexivity|]. intros [|i] ri H; [|destruct i; discriminate].
    injection H as <-. split; [exact Hv|]. intros c. unfold grown. cbn. split; [eauto|]. intros (c0 & H & ->). auto.
  - destruct (sl_expand1 _ _ _ _ _ L r Hv Hin) as (r1 & E1 & V1 & H1).
    assert (H1' : forall c, inr d r1 c <-> exists c0, inr d r c0 /\ E c0 c).
    { intros c. split; intros H.
      - apply H1; [apply H|exact H].
      - destruct H as (c0 & Hc0 & He). apply H1; eauto. eapply sl_len; eauto. eapply sl_closed; eauto. }
    destruct (IH r1 V1) as (l & El & Ll & Hl).
    { intros c Hc. apply H1' in Hc. destruct Hc as (c0 & Hc0 & He). eapply sl_closed; eauto. }
    rewrite E1. cbn [obind]. rewrite El. cbn [obind]. exists (r :: l). split; [reflexivity|]. split; [cbn; lia|].
    intros [|i] ri H; cbn in H.
    + injection H as <-. split; [exact Hv|]. intros c. unfold grown. cbn. split; [eauto|]. intros (c0 & H & ->). auto.
    + destruct (Hl i ri H) as [V Hri]. split; [exact V|]. intros c. rewrite Hri. unfold grown. split.
      * intros (c1 & Hc1 & Hwk). apply H1' in Hc1. destruct Hc1 as (c0 & Hc0 & He). exists c0. split; auto. exists c1. auto.
      * intros (c0 & Hc0 & c1 & He & Hwk). exists c1. split; auto. apply H1'. eauto.
Qed.

Context (n : nat) (part : nat -> option indices).
Context (Hdef : all_defined d n part) (Hins : forall k c, (k < n)%nat -> cells d part k c -> I c).

Notation own i := (cells d part i).

Lemma fill_region_spec i : (i < n)%nat ->
  exists l, fill_region sp part w i = Some l /\ length l = S w /\
    forall e r, nth_error l e = Some r -> rvalid d r /\ forall c, inr d r c <-> grown E e (own i) c.
Proof.
  intros Hi. destruct (Hdef i Hi) as (r & Er & Hr). unfold fill_region. rewrite Er. cbn [obind].
  pose proof (reachable_valid d r Hr) as Hv.
  assert (Ho : forall c, inr d r c <-> own i c).
  { intros c. unfold cells, inr. split; [intros [? ?]; eauto|]. intros (r' & E' & Hl & Hc). rewrite Er in E'. injection E' as <-. auto. }
  destruct (expansions_spec w r Hv) as (l & El & Ll & Hl).
  { intros c Hc. apply (Hins i c Hi). now apply Ho. }
  exists l. split; [exact El|]. split; [exact Ll|]. intros e re He. destruct (Hl e re He) as [V Hre]. split; [exact V|].
  intros c. rewrite Hre. unfold grown. split; intros (c0 & H0 & Hw); exists c0; split; auto; now apply Ho.
Qed.

Lemma pm_region_spec i e : (i < n)%nat -> (e <= w)%nat ->
  exists r, pm_region sp part w i e = Some r /\ rvalid d r /\ forall c, inr d r c <-> grown E e (own i) c.
Proof.
  intros Hi He. destruct (fill_region_spec i Hi) as (l & El & Ll & Hl). unfold pm_region. rewrite El. cbn [obind].
  destruct (nth_error l e) as [r|] eqn:En; [|apply nth_error_None in En; lia]. exists r. split; [reflexivity|]. exact (Hl e r En).
Qed.

Lemma grown_0 P c : grown E 0 P c <-> P c.
Proof. unfold grown. cbn. split; [intros (c0 & H & ->); auto|eauto]. Qed.

Lemma grown_inside k i c : (i < n)%nat -> grown E k (own i) c -> I c.
Proof. intros Hi (c0 & H0 & Hw). eapply walk_inside; eauto. Qed.

Lemma grown_mono k m i c : (i < n)%nat -> (k <= m)%nat -> grown E k (own i) c -> grown E m (own i) c.
Proof. intros Hi Hm (c0 & H0 & Hw). exists c0. split; auto. apply walk_more with k; eauto. Qed.

Lemma own_dec i c : (i < n)%nat -> own i c \/ ~ own i c.
Proof.
  intros Hi. destruct (Hdef i Hi) as (r & Er & Hr). destruct (inr_dec d r c (reachable_valid d r Hr)) as [H|H].
  - left. exists r. destruct H. auto.
  - right. intros (r' & E' & Hl & Hc). rewrite Er in E'. injection E' as <-. apply H. split; auto.
Qed.

(** ** The own region *)

(** Cells outside of the node's region which read from it. *)
Definition surface (i : nat) (c : coord) : Prop := I c /\ ~ own i c /\ exists c0, own i c0 /\ E c c0.

Definition is_rim (i : nat) (c : coord) : Prop := own i c /\ grown E w (surface i) c.
Definition is_kernel (i : nat) (c : coord) : Prop := own i c /\ ~ grown E w (surface i) c.

Record pm_spec (i : nat) (p : pm) : Prop := {
  ps_own_len : length (pm_own p) = S w;
  ps_own : forall e r, nth_error (pm_own p) e = Some r -> rvalid d r /\ forall c, inr d r c <-> grown E e (own i) c;
  ps_rim_len : length (pm_rims p) = S w;
  ps_rim : forall e r, nth_error (pm_rims p) e = Some r -> rvalid d r /\ forall c, inr d r c <-> grown E (w - e) (is_rim i) c;
  ps_inner_len : length (pm_inner p) = S w;
  ps_inner : forall e r, nth_error (pm_inner p) e = Some r -> rvalid d r /\ forall c, inr d r c <-> grown E (w - e) (is_kernel i) c;
  ps_vol : rvalid d (pm_volatile p) /\ forall c, inr d (pm_volatile p) c <-> is_kernel i c /\ grown E w (is_rim i) c;
  ps_irim : pm_inner_rim p = pm_volatile p;
  ps_outer : rvalid d (pm_outer_rim p) /\ forall c, inr d (pm_outer_rim p) c <-> grown E w (own i) c /\ ~ own i c
}.

Lemma grown_ext k (P Q : coord -> Prop) c : (forall c, P c <-> Q c) -> (grown E k P c <-> grown E k Q c).
Proof. intros H. unfold grown. split; intros (c0 & H0 & Hw); exists c0; split; auto; now apply H. Qed.

Lemma nth_rev {A} (l : list A) i k : length l = S k -> (i <= k)%nat -> nth_error (rev l) i = nth_error l (k - i).
Proof.
  intros Hl Hi. destruct (nth_error l (k - i)) as [x|] eqn:Ex; [|apply nth_error_None in Ex; lia].
  apply nth_error_split in Ex. destruct Ex as (l1 & l2 & -> & E1). rewrite rev_app_distr. cbn [rev].
  rewrite app_length in Hl. cbn in Hl.
  rewrite <- app_assoc. cbn [app]. rewrite nth_error_app2; rewrite rev_length; [|lia].
  replace (i - length l2)%nat with O by lia. reflexivity.
Qed.

Lemma fill_own_spec i : (i < n)%nat -> exists p, fill_own_region sp part w i = Some p /\ pm_spec i p.
Proof.
  intros Hi. unfold fill_own_region. destruct (fill_region_spec i Hi) as (regs & Er & Lr & Hr). rewrite Er. cbn [obind].
  destruct (nth_error regs 0) as [own0|] eqn:E0; [|apply nth_error_None in E0; lia].
  destruct (nth_error regs w) as [ex|] eqn:Ew; [|apply nth_error_None in Ew; lia].
  cbn [obind]. destruct (Hr _ _ E0) as [V0 H0]. destruct (Hr _ _ Ew) as [Vw Hw].
  assert (Ho : forall c, inr d own0 c <-> own i c) by (intros c; rewrite H0; apply grown_0).
  assert (Hin0 : forall c, inr d own0 c -> I c) by (intros c Hc; apply (Hins i c Hi); now apply Ho).
  destruct (sl_rexpand _ _ _ _ _ L own0 V0 Hin0) as (own1 & E1 & V1 & H1). rewrite E1. cbn [obind].
  destruct (diff_inr d own1 own0 V1 V0) as (surf & Es & Vs & Hs). rewrite Es. cbn [obind].
  assert (Hsurf : forall c, inr d surf c <-> surface i c).
  { intros c. rewrite Hs, Ho. unfold surface. split.
    - intros [Ha Hb]. apply H1 in Ha; [|apply Ha]. destruct Ha as (Hi' & c0 & Hc0 & He). split; auto. split; auto.
      exists c0. split; auto. now apply Ho.
    - intros (Hi' & Hn & c0 & Hc0 & He). split; auto. apply H1; [eapply sl_len; eauto|]. split; auto. exists c0. split; auto. now apply Ho. }
  assert (Hsin : forall c, inr d surf c -> I c) by (intros c Hc; apply Hsurf in Hc; apply Hc).
  destruct (sl_expandw _ _ _ _ _ L surf Vs Hsin) as (thick & Et & Vt & Ht). rewrite Et. cbn [obind].
  assert (Hthick : forall c, inr d thick c <-> grown E w (surface i) c).
  { intros c. split.
    - intros Hc. apply Ht in Hc; [|apply Hc]. destruct Hc as (c0 & Hc0 & Hwk). exists c0. split; auto. now apply Hsurf.
    - intros (c0 & Hc0 & Hwk). apply Hsurf in Hc0. apply Ht; [|eauto]. eapply sl_len; eauto. eapply walk_inside; eauto. }
  destruct (diff_inr d own0 thick V0 Vt) as (kern & Ek & Vk & Hk). rewrite Ek. cbn [obind].
  destruct (diff_inr d ex own0 Vw V0) as (outer & Eo & Vo & Hout). rewrite Eo. cbn [obind].
  destruct (diff_inr d own0 kern V0 Vk) as (rim & Erim & Vrim & Hrim). rewrite Erim. cbn [obind].
  assert (HK : forall c, inr d kern c <-> is_kernel i c).
  { intros c. rewrite Hk, Ho, Hthick. reflexivity. }
  assert (HR : forall c, inr d rim c <-> is_rim i c).
  { intros c. rewrite Hrim, HK, Ho. unfold is_kernel, is_rim. split; [|tauto]. intros [Ha Hb]. split; auto.
    destruct (inr_dec d thick c Vt) as [Hd|Hd]; [now apply Hthick|]. exfalso. apply Hb. split; auto. intros Hc. apply Hd. now apply Hthick. }
  destruct (expansions_spec w rim Vrim) as (rims & Erims & Lrims & Hrims).
  { intros c Hc. apply HR in Hc. apply (Hins i c Hi). apply Hc. }
  destruct (expansions_spec w kern Vk) as (inner & Einner & Linner & Hinner).
  { intros c Hc. apply HK in Hc. apply (Hins i c Hi). apply Hc. }
  rewrite Erims. cbn [obind]. rewrite Einner. cbn [obind].
  rewrite (nth_rev rims 0 w Lrims) by lia. rewrite Nat.sub_0_r.
  destruct (nth_error rims w) as [rim0|] eqn:Erim0; [|apply nth_error_None in Erim0; lia]. cbn [obind].
  destruct (Hrims _ _ Erim0) as [Vrim0 Hrim0].
  destruct (isect_inr d kern rim0 Vk Vrim0) as (vol & Ev & Vv & Hv). rewrite Ev. cbn [obind].
  eexists. split; [reflexivity|]. split; cbn [pm_own pm_rims pm_inner pm_volatile pm_inner_rim pm_outer_rim].
  - exact Lr.
  - exact Hr.
  - now rewrite rev_length.
  - intros e r He. assert (Hew : (e <= w)%nat) by (assert (nth_error (rev rims) e <> None) as Hx by congruence; apply nth_error_Some in Hx; rewrite rev_length in Hx; lia).
    rewrite (nth_rev rims e w) in He by auto. destruct (Hrims _ _ He) as [V H]. split; [exact V|]. intros c. rewrite H.
    apply grown_ext. exact HR.
  - now rewrite rev_length.
  - intros e r He. assert (Hew : (e <= w)%nat) by (assert (nth_error (rev inner) e <> None) as Hx by congruence; apply nth_error_Some in Hx; rewrite rev_length in Hx; lia).
    rewrite (nth_rev inner e w) in He by auto. destruct (Hinner _ _ He) as [V H]. split; [exact V|]. intros c. rewrite H.
    apply grown_ext. exact HK.
  - split; [exact Vv|]. intros c. rewrite Hv, HK, Hrim0. rewrite (grown_ext w _ _ c HR). reflexivity.
  - reflexivity.
  - split; [exact Vo|]. intros c. rewrite Hout, Hw, Ho. reflexivity.
Qed.

(** ** Ghost zone fragments *)

(** A vector of fragments describing [P 0], ..., [P w], absent if all are
    empty. *)
Definition frag_spec (P : nat -> coord -> Prop) (o : option (list indices)) : Prop :=
  match o with
  | None => forall c, ~ P w c
  | Some v => (exists c, P w c) /\ length v = S w /\
      forall e r, nth_error v e = Some r -> rvalid d r /\ forall c, inr d r c <-> P e c
  end.

Lemma frag_unique P o1 o2 : frag_spec P o1 -> frag_spec P o2 -> o1 = o2.
Proof.
  clear Hins. destruct o1 as [v1|], o2 as [v2|]; cbn; auto.
  - intros (_ & L1 & H1) (_ & L2 & H2). f_equal. apply nth_ext with [] []; [lia|]. intros k Hk.
    destruct (nth_error v1 k) as [r1|] eqn:E1; [|apply nth_error_None in E1; lia].
    destruct (nth_error v2 k) as [r2|] eqn:E2; [|apply nth_error_None in E2; lia].
    rewrite (nth_error_nth v1 k [] E1), (nth_error_nth v2 k [] E2).
    destruct (H1 _ _ E1) as [V1 I1], (H2 _ _ E2) as [V2 I2]. apply (ext_inr d); auto. intros c. now rewrite I1, I2.
  - intros ((c & Hc) & _) H. now apply H in Hc.
  - intros H ((c & Hc) & _). now apply H in Hc.
Qed.

Lemma mapo_spec {A B} (f : A -> option B) (l : list A) :
  (forall a, In a l -> exists b, f a = Some b) ->
  exists m, mapo f l = Some m /\ length m = length l /\
    forall i a, nth_error l i = Some a -> exists b, f a = Some b /\ nth_error m i = Some b.
Proof.
  induction l as [|a l IH]; intros H; cbn [mapo].
  - exists []. split; [auto|]. split; [auto|]. intros [|i] a Ha; discriminate.
  - destruct (H a (or_introl eq_refl)) as (b & Eb). destruct IH as (m & Em & Lm & Hm); [intros; apply H; now right|].
    rewrite Eb. cbn [obind]. rewrite Em. cbn [obind]. exists (b :: m). split; [auto|]. split; [cbn; lia|].
    intros [|i] a' Ha; cbn in *; [injection Ha as <-; eauto|]. apply Hm. exact Ha.
Qed.

(** What [i] needs of [j]'s region. *)
Definition need (i j : nat) (e : nat) (c : coord) : Prop := grown E e (own i) c /\ own j c.

Lemma isect_vec (l : list indices) (P : nat -> coord -> Prop) (Q : coord -> Prop) (f : indices -> option indices) :
  length l = S w ->
  (forall e r, nth_error l e = Some r -> rvalid d r /\ forall c, inr d r c <-> P e c) ->
  (forall r, rvalid d r -> exists r', f r = Some r' /\ rvalid d r' /\ forall c, inr d r' c <-> inr d r c /\ Q c) ->
  (forall e c, (e <= w)%nat -> P e c -> P w c) ->
  exists v, mapo f l = Some v /\ frag_spec (fun e c => P e c /\ Q c) (if forallb reg_is_empty v then None else Some v).
Proof.
  intros Ll Hl Hf Hmono. destruct (mapo_spec f l) as (v & Ev & Lv & Hv).
  { intros r Hr. apply In_nth_error in Hr. destruct Hr as (e & He). destruct (Hl e r He) as [V _]. destruct (Hf r V) as (r' & E' & _). eauto. }
  exists v. split; [exact Ev|].
  assert (Hspec : forall e r, nth_error v e = Some r -> rvalid d r /\ forall c, inr d r c <-> P e c /\ Q c).
  { intros e r' He. assert (Hel : (e < length l)%nat) by (rewrite <- Lv; apply nth_error_Some; congruence).
    destruct (nth_error l e) as [r|] eqn:Er; [|apply nth_error_None in Er; lia].
    destruct (Hv _ _ Er) as (b & Eb & Hb). rewrite He in Hb. injection Hb as <-.
    destruct (Hl _ _ Er) as [V H]. destruct (Hf r V) as (r'' & E'' & V'' & H''). rewrite Eb in E''. injection E'' as <-.
    split; [exact V''|]. intros c. rewrite H'', H. reflexivity. }
  destruct (forallb reg_is_empty v) eqn:Eb; cbn [frag_spec].
  - intros c Hc. rewrite forallb_forall in Eb. destruct (nth_error v w) as [r|] eqn:Ew; [|apply nth_error_None in Ew; lia].
    destruct (Hspec _ _ Ew) as [V H]. assert (He : reg_is_empty r = true) by (apply Eb; eapply nth_error_In; eauto).
    apply (empty_inr d r V) with c in He. apply He. now apply H.
  - split; [|split; [lia|exact Hspec]].
    assert (exists e r, nth_error v e = Some r /\ reg_is_empty r = false) as (e & r & He & Hr).
    { clear - Eb. induction v as [|r v IH]; [discriminate|]. cbn in Eb. destruct (reg_is_empty r) eqn:Er.
      - destruct (IH Eb) as (e & r' & H1 & H2). exists (S e), r'. auto.
      - exists O, r. auto. }
    destruct (Hspec _ _ He) as [V H]. apply (nonempty_inr d r V) in Hr. destruct Hr as (c & Hc). exists c. apply H in Hc.
    assert (Hev : (e < length v)%nat) by (apply nth_error_Some; congruence).
    destruct Hc as [Hc1 Hc2]. split; [|exact Hc2]. apply Hmono with e; auto. lia.
Qed.

Lemma pm_intersect_spec i j : (i < n)%nat -> (j < n)%nat ->
  exists o1 o2, pm_intersect sp part w i j = Some (o1, o2) /\
    frag_spec (need i j) o1 /\ frag_spec (need j i) o2.
Proof.
  intros Hi Hj. unfold pm_intersect. destruct (fill_region_spec i Hi) as (li & Ei & Li & Hli).
  destruct (fill_region_spec j Hj) as (lj & Ej & Lj & Hlj). rewrite Ei, Ej. cbn [obind].
  destruct (nth_error li 0) as [ri|] eqn:Eri; [|apply nth_error_None in Eri; lia].
  destruct (nth_error lj 0) as [rj|] eqn:Erj; [|apply nth_error_None in Erj; lia]. cbn [obind].
  destruct (Hli _ _ Eri) as [Vi Hri], (Hlj _ _ Erj) as [Vj Hrj].
  destruct (isect_vec li (fun e => grown E e (own i)) (own j) (fun r => reg_isect r rj) Li Hli) as (v1 & E1 & F1).
  { intros r V. destruct (isect_inr d r rj V Vj) as (r' & Er' & V' & H'). exists r'. split; [auto|]. split; [auto|].
    intros c. rewrite H', Hrj, grown_0. reflexivity. }
  { intros e c He Hc. apply (grown_mono e w); auto. }
  destruct (isect_vec lj (fun e => grown E e (own j)) (own i) (fun r => reg_isect ri r) Lj Hlj) as (v2 & E2 & F2).
  { intros r V. destruct (isect_inr d ri r Vi V) as (r' & Er' & V' & H'). exists r'. split; [auto|]. split; [auto|].
    intros c. rewrite H', Hri, grown_0. tauto. }
  { intros e c He Hc. apply (grown_mono e w); auto. }
  rewrite E1. cbn [obind]. rewrite E2. cbn [obind]. do 2 eexists. split; [reflexivity|]. split; [exact F1|exact F2].
Qed.

Lemma boxes_spec e : (e <= w)%nat -> exists bs, gather_boxes sp part w n e = Some bs /\ length bs = n /\
  forall i, (i < n)%nat -> exists b : box, nth_error bs i = Some b /\ length (b_origin b) = S d /\
    forall c, grown E e (own i) c -> in_box b c.
Proof.
  intros He. unfold gather_boxes.
  destruct (mapo_spec (fun i => obind (pm_region sp part w i e) bounding_box) (seq 0 n)) as (bs & Eb & Lb & Hb).
  { intros i Hi. apply in_seq in Hi. destruct (pm_region_spec i e ltac:(lia) He) as (r & Er & Vr & _). rewrite Er. cbn [obind].
    destruct (bounding_box_valid d r Vr) as (b & E1 & _). eauto. }
  exists bs. split; [exact Eb|]. rewrite seq_length in Lb. split; [exact Lb|]. intros i Hi.
  assert (Es : nth_error (seq 0 n) i = Some i).
  { rewrite (nth_error_nth' _ O) by (rewrite seq_length; lia). rewrite seq_nth by lia. reflexivity. }
  destruct (Hb i i Es) as (b & E1 & E2). exists b. split; [exact E2|].
  destruct (pm_region_spec i e Hi He) as (r & Er & Vr & Hr). rewrite Er in E1. cbn [obind] in E1.
  destruct (bounding_box_valid d r Vr) as (b' & E3 & Lo & H3). rewrite E1 in E3. injection E3 as <-.
  split; [exact Lo|]. intros c Hc. apply H3. now apply Hr.
Qed.

Lemma exchange_spec i j bs ebs : (i < n)%nat -> (j < n)%nat ->
  gather_boxes sp part w n 0 = Some bs -> gather_boxes sp part w n w = Some ebs ->
  exists o1 o2, pm_exchange sp part w i bs ebs j = Some (o1, o2) /\
    if Nat.eqb j i then o1 = None /\ o2 = None else frag_spec (need i j) o1 /\ frag_spec (need j i) o2.
Proof.
  intros Hi Hj Ebs Eebs. unfold pm_exchange. destruct (Nat.eqb_spec j i) as [->|Hne]; [do 2 eexists; eauto|].
  destruct (boxes_spec 0 ltac:(lia)) as (bs' & E1 & Lb & Hb). rewrite Ebs in E1. injection E1 as <-.
  destruct (boxes_spec w ltac:(lia)) as (ebs' & E1 & Leb & Heb). rewrite Eebs in E1. injection E1 as <-.
  destruct (pm_region_spec i 0 Hi ltac:(lia)) as (r0 & Er0 & V0 & H0).
  destruct (pm_region_spec i w Hi ltac:(lia)) as (rw & Erw & Vw & Hw).
  destruct (pm_region_spec j 0 Hj ltac:(lia)) as (s0 & Es0 & W0 & G0).
  destruct (pm_region_spec j w Hj ltac:(lia)) as (sw & Esw & Ww & Gw).
  rewrite Er0, Erw, Es0, Esw. cbn [obind].
  destruct (bounding_box_valid d r0 V0) as (b0 & Eb0 & Lb0 & Hb0). destruct (bounding_box_valid d rw Vw) as (bw & Ebw & Lbw & Hbw).
  rewrite Eb0, Ebw. cbn [obind]. destruct (Hb j Hj) as (b & Eb & Lbb & Hbb). destruct (Heb j Hj) as (eb & Eeb & Lebb & Hebb).
  rewrite Eb, Eeb. cbn [obind].
  destruct (isect_inr d rw s0 Vw W0) as (x & Ex & Vx & Hx). destruct (isect_inr d sw r0 Ww V0) as (y & Ey & Vy & Hy).
  rewrite Ex, Ey. cbn [obind].
  assert (Hnx : forall c, inr d x c <-> need i j w c).
  { intros c. rewrite Hx, Hw, G0, grown_0. reflexivity. }
  assert (Hny : forall c, inr d y c <-> need j i w c).
  { intros c. rewrite Hy, Gw, H0, grown_0. reflexivity. }
  destruct (box_intersects b bw || box_intersects eb b0) eqn:Eboxes.
  - destruct (negb (reg_is_empty x) || negb (reg_is_empty y)) eqn:Ene.
    + destruct (pm_intersect_spec i j Hi Hj) as (o1 & o2 & E1 & F1 & F2). exists o1, o2. auto.
    + do 2 eexists. split; [reflexivity|]. apply orb_false_iff in Ene. destruct Ene as [N1 N2].
      apply negb_false_iff in N1, N2. rewrite (empty_inr d x Vx) in N1. rewrite (empty_inr d y Vy) in N2.
      split; cbn; intros c Hc; [apply (N1 c)|apply (N2 c)]; [now apply Hnx|now apply Hny].
  - do 2 eexists. split; [reflexivity|]. apply orb_false_iff in Eboxes. destruct Eboxes as [N1 N2].
    split; cbn; intros c [Hc1 Hc2].
    + rewrite (box_meet (S d) b bw c) in N1; [discriminate|auto|auto|apply Hbb; now apply grown_0|apply Hbw; now apply Hw].
    + rewrite (box_meet (S d) eb b0 c) in N2; [discriminate|auto|auto|apply Hebb; auto|apply Hb0; apply H0; now apply grown_0].
Qed.

Lemma entries_find (l : list (nat * option (list indices))) : forall a, map fst l = seq a (length l) ->
  forall j o, nth_error l j = Some (a + j, o)%nat -> frag (entries l) (a + j) = o.
Proof.
  assert (Hskip : forall (l : list (nat * option (list indices))) a k, map fst l = seq a (length l) -> (k < a)%nat ->
     find (fun x => Nat.eqb (fst x) k) (entries l) = None).
  { induction l0 as [|(i, o) l0 IH]; intros a k Hs Hk; cbn; auto. cbn in Hs. injection Hs as -> Hs.
    assert (IH' : find (fun x => Nat.eqb (fst x) k) (entries l0) = None) by (apply (IH (S a)); auto).
    destruct o; cbn; auto. rewrite (proj2 (Nat.eqb_neq a k)) by lia. exact IH'. }
  induction l as [|(i, o') l IH]; intros a Hs j o Hj; [destruct j; discriminate|].
  cbn in Hs. injection Hs as -> Hs. unfold frag. cbn [entries flat_map]. fold (entries l). destruct j as [|j]; cbn in Hj.
  - injection Hj as _ <-. rewrite Nat.add_0_r. destruct o' as [v|]; cbn.
    + rewrite Nat.eqb_refl. reflexivity.
    + rewrite (Hskip l (S a) a Hs) by lia. reflexivity.
  - replace (a + S j)%nat with (S a + j)%nat in * by lia.
    destruct o' as [v|]; cbn [app find fst]; [rewrite (proj2 (Nat.eqb_neq a (S a + j))) by lia|]; apply (IH (S a) Hs j o Hj).
Qed.

Lemma entries_In l i v : In (i, v) (entries l) <-> In (i, Some v) l.
Proof.
  unfold entries. rewrite in_flat_map. split.
  - intros ((k, o) & Hin & H). destruct o as [u|]; [|destruct H]. destruct H as [H|[]]. injection H as <- <-. exact Hin.
  - intros H. exists (i, Some v). split; auto. now left.
Qed.

(** The maps are sorted by node. *)
Lemma entries_sorted (l : list (nat * option (list indices))) : forall a, map fst l = seq a (length l) ->
  Sorted.StronglySorted lt (map fst (entries l)) /\ Forall (fun i => a <= i)%nat (map fst (entries l)).
Proof.
  induction l as [|(i, o) l IH]; intros a Hs; cbn; [split; constructor|]. cbn in Hs. injection Hs as -> Hs.
  destruct (IH (S a) Hs) as [H1 H2].
  assert (H3 : Forall (fun i => a <= i)%nat (map fst (entries l))) by (eapply Forall_impl; [|exact H2]; cbn; intros; lia).
  destruct o; cbn; [|auto]. split; constructor; auto.
Qed.

Record ghosts_spec (i : nat) (g : ghosts) : Prop := {
  gs_outer : forall j, (j < n)%nat -> if Nat.eqb j i then frag (g_outer g) j = None else frag_spec (need i j) (frag (g_outer g) j);
  gs_inner : forall j, (j < n)%nat -> if Nat.eqb j i then frag (g_inner g) j = None else frag_spec (need j i) (frag (g_inner g) j);
  gs_outer_in : forall j v, In (j, v) (g_outer g) -> (j < n)%nat /\ j <> i /\ frag (g_outer g) j = Some v;
  gs_inner_in : forall j v, In (j, v) (g_inner g) -> (j < n)%nat /\ j <> i /\ frag (g_inner g) j = Some v;
  gs_outer_sorted : Sorted.StronglySorted lt (map fst (g_outer g));
  gs_inner_sorted : Sorted.StronglySorted lt (map fst (g_inner g));
  gs_out_outer : rvalid d (g_out_outer g) /\ forall c, inr d (g_out_outer g) c <->
     (grown E w (own i) c /\ ~ own i c) /\ forall j, (j < n)%nat -> j <> i -> ~ own j c;
  gs_out_inner : rvalid d (g_out_inner g) /\ forall c, inr d (g_out_inner g) c <->
     is_rim i c /\ forall j, (j < n)%nat -> j <> i -> ~ grown E w (own j) c
}.

Lemma subtract_backs_spec (m : list (nat * list indices)) : forall r, rvalid d r ->
  (forall j v, In (j, v) m -> exists b, last_region v = Some b /\ rvalid d b) ->
  exists r', subtract_backs r m = Some r' /\ rvalid d r' /\
    forall c, inr d r' c <-> inr d r c /\ forall j v b, In (j, v) m -> last_region v = Some b -> ~ inr d b c.
Proof.
  induction m as [|(j, v) m IH]; intros r Hv Hm; cbn [subtract_backs].
  - exists r. split; [auto|]. split; [auto|]. intros c. split; [|tauto]. intros H. split; [exact H|]. intros ? ? ? [].
  - destruct (Hm j v (or_introl eq_refl)) as (b & Eb & Vb). rewrite Eb. cbn [obind].
    destruct (diff_inr d r b Hv Vb) as (r1 & E1 & V1 & H1). rewrite E1. cbn [obind].
    destruct (IH r1 V1) as (r' & E' & V' & H'); [intros; apply (Hm j0 v0); now right|].
    exists r'. split; [exact E'|]. split; [exact V'|]. intros c. rewrite H', H1. split.
    + intros ((Ha & Hb) & Hc). split; [exact Ha|]. intros j' v' b' [Hin|Hin] Hl.
      * injection Hin as <- <-. rewrite Eb in Hl. injection Hl as <-. exact Hb.
      * eapply Hc; eauto.
    + intros (Ha & Hb). split; [split; auto|].
      * apply (Hb j v b); auto. now left.
      * intros j' v' b' Hin Hl. apply (Hb j' v' b'); auto. now right.
Qed.

Lemma frag_last P v : frag_spec P (Some v) -> exists b, last_region v = Some b /\ rvalid d b /\ forall c, inr d b c <-> P w c.
Proof.
  intros (_ & Lv & Hv). unfold last_region. rewrite (nth_rev v 0 w Lv) by lia. rewrite Nat.sub_0_r.
  destruct (nth_error v w) as [b|] eqn:Eb; [|apply nth_error_None in Eb; lia]. exists b. split; [reflexivity|]. apply Hv. exact Eb.
Qed.

Lemma setup_spec i : (i < n)%nat -> exists p g, setup_node sp part w n i = Some (p, g) /\ pm_spec i p /\ ghosts_spec i g.
Proof.
  intros Hi. unfold setup_node. destruct (fill_own_spec i Hi) as (p & Ep & Hp). rewrite Ep. cbn [obind].
  destruct (boxes_spec 0 ltac:(lia)) as (bs & Ebs & Lbs & _). destruct (boxes_spec w ltac:(lia)) as (ebs & Eebs & Lebs & _).
  rewrite Ebs, Eebs. cbn [obind]. unfold reset_ghost_zones. rewrite Lbs.
  destruct (mapo_spec (fun j => option_map (fun x => (j, x)) (pm_exchange sp part w i bs ebs j)) (seq 0 n)) as (l & El & Ll & Hl).
  { intros j Hj. apply in_seq in Hj. destruct (exchange_spec i j bs ebs Hi ltac:(lia) Ebs Eebs) as (o1 & o2 & E1 & _). rewrite E1. cbn. eauto. }
  rewrite El. cbn [obind]. rewrite seq_length in Ll.
  assert (Hnth : forall j, (j < n)%nat -> exists o1 o2, nth_error l j = Some (j, (o1, o2)) /\
     if Nat.eqb j i then o1 = None /\ o2 = None else frag_spec (need i j) o1 /\ frag_spec (need j i) o2).
  { intros j Hj. assert (Es : nth_error (seq 0 n) j = Some j).
    { rewrite (nth_error_nth' _ O) by (rewrite seq_length; lia). rewrite seq_nth by lia. reflexivity. }
    destruct (Hl j j Es) as (x & Ex & Hx). destruct (exchange_spec i j bs ebs Hi Hj Ebs Eebs) as (o1 & o2 & E1 & F).
    rewrite E1 in Ex. cbn in Ex. injection Ex as <-. exists o1, o2. auto. }
  assert (Hfst : forall f : (option (list indices) * option (list indices)) -> option (list indices),
     map fst (map (fun '(j, x) => (j, f x)) l) = seq 0 (length (map (fun '(j, x) => (j, f x)) l))).
  { intros f. rewrite map_length, Ll, map_map. apply nth_ext with O O; [rewrite map_length, seq_length; lia|].
    rewrite map_length. intros k Hk. rewrite seq_nth by lia. destruct (Hnth k ltac:(lia)) as (o1 & o2 & E1 & _).
    assert (E2 : nth_error (map (fun x : nat * (option (list indices) * option (list indices)) => fst (let '(j, y) := x in (j, f y))) l) k = Some k).
    { rewrite nth_error_map, E1. reflexivity. }
    rewrite (nth_error_nth _ _ O E2). reflexivity. }
  assert (Efst1 : map (fun '(j, (o, _)) => (j, o)) l = map (fun '(j, x) => (j, fst x)) l).
  { apply map_ext. intros (j, (o1, o2)). reflexivity. }
  assert (Efst2 : map (fun '(j, (_, o)) => (j, o)) l = map (fun '(j, x) => (j, snd x)) l).
  { apply map_ext. intros (j, (o1, o2)). reflexivity. }
  rewrite Efst1, Efst2. clear Efst1 Efst2.
  set (lo := map (fun '(j, x) => (j, fst x)) l). set (li := map (fun '(j, x) => (j, snd x)) l).
  assert (Hlo : forall j, (j < n)%nat -> exists o, nth_error lo j = Some (j, o) /\ frag (entries lo) j = o /\
     if Nat.eqb j i then o = None else frag_spec (need i j) o).
  { intros j Hj. destruct (Hnth j Hj) as (o1 & o2 & E1 & F). exists o1.
    assert (E2 : nth_error lo j = Some (j, o1)) by (unfold lo; rewrite nth_error_map, E1; reflexivity).
    split; [exact E2|]. split; [exact (entries_find lo 0 (Hfst fst) j o1 E2)|]. destruct (Nat.eqb j i); tauto. }
  assert (Hli : forall j, (j < n)%nat -> exists o, nth_error li j = Some (j, o) /\ frag (entries li) j = o /\
     if Nat.eqb j i then o = None else frag_spec (need j i) o).
  { intros j Hj. destruct (Hnth j Hj) as (o1 & o2 & E1 & F). exists o2.
    assert (E2 : nth_error li j = Some (j, o2)) by (unfold li; rewrite nth_error_map, E1; reflexivity).
    split; [exact E2|]. split; [exact (entries_find li 0 (Hfst snd) j o2 E2)|]. destruct (Nat.eqb j i); tauto. }
  assert (Llo : length lo = n) by (unfold lo; rewrite map_length; lia).
  assert (Lli : length li = n) by (unfold li; rewrite map_length; lia).
  assert (Hlo_in : forall j v, In (j, v) (entries lo) -> (j < n)%nat /\ j <> i /\ frag (entries lo) j = Some v).
  { intros j v Hin. apply entries_In in Hin. apply In_nth_error in Hin. destruct Hin as (k & Hk).
    assert (k < n)%nat by (rewrite <- Llo; apply nth_error_Some; congruence).
    destruct (Hlo k ltac:(auto)) as (o & E1 & E2 & F). rewrite Hk in E1. injection E1 as -> <-.
    split; [auto|]. split; [|auto]. intros ->. rewrite Nat.eqb_refl in F. discriminate. }
  assert (Hli_in : forall j v, In (j, v) (entries li) -> (j < n)%nat /\ j <> i /\ frag (entries li) j = Some v).
  { intros j v Hin. apply entries_In in Hin. apply In_nth_error in Hin. destruct Hin as (k & Hk).
    assert (k < n)%nat by (rewrite <- Lli; apply nth_error_Some; congruence).
    destruct (Hli k ltac:(auto)) as (o & E1 & E2 & F). rewrite Hk in E1. injection E1 as -> <-.
    split; [auto|]. split; [|auto]. intros ->. rewrite Nat.eqb_refl in F. discriminate. }
  destruct (nth_error (pm_rims p) w) as [rim|] eqn:Erim; [|apply nth_error_None in Erim; rewrite (ps_rim_len i p Hp) in Erim; lia].
  cbn [obind]. destruct (ps_rim i p Hp _ _ Erim) as [Vrim Hrim].
  destruct (ps_outer i p Hp) as [Vout Hout].
  destruct (subtract_backs_spec (entries lo) (pm_outer_rim p) Vout) as (oo & Eoo & Voo & Hoo).
  { intros j v Hin. destruct (Hlo_in j v Hin) as (Hj & Hne & Hf). destruct (Hlo j Hj) as (o & _ & E2 & F).
    rewrite (proj2 (Nat.eqb_neq j i) Hne) in F. rewrite Hf in E2. subst o. destruct (frag_last _ _ F) as (b & Eb & Vb & _). eauto. }
  destruct (subtract_backs_spec (entries li) rim Vrim) as (oi & Eoi & Voi & Hoi).
  { intros j v Hin. destruct (Hli_in j v Hin) as (Hj & Hne & Hf). destruct (Hli j Hj) as (o & _ & E2 & F).
    rewrite (proj2 (Nat.eqb_neq j i) Hne) in F. rewrite Hf in E2. subst o. destruct (frag_last _ _ F) as (b & Eb & Vb & _). eauto. }
  rewrite Eoo. cbn [obind]. rewrite Eoi. cbn [obind]. do 2 eexists. split; [reflexivity|]. split; [exact Hp|].
  split; cbn [g_outer g_inner g_out_outer g_out_inner].
  - intros j Hj. destruct (Hlo j Hj) as (o & _ & E2 & F). rewrite E2. exact F.
  - intros j Hj. destruct (Hli j Hj) as (o & _ & E2 & F). rewrite E2. exact F.
  - exact Hlo_in.
  - exact Hli_in.
  - apply (proj1 (entries_sorted lo 0 (Hfst fst))).
  - apply (proj1 (entries_sorted li 0 (Hfst snd))).
  - split; [exact Voo|]. intros c. rewrite Hoo, Hout. split.
    + intros (Ha & Hb). split; [exact Ha|]. intros j Hj Hne Hc. destruct (Hlo j Hj) as (o & E1 & E2 & F).
      rewrite (proj2 (Nat.eqb_neq j i) Hne) in F. destruct o as [v|].
      * destruct (frag_last _ _ F) as (b & Eb & Vb & Hbb). apply (Hb j v b); auto.
        -- apply entries_In. eapply nth_error_In; eauto.
        -- apply Hbb. split; tauto.
      * apply (F c). split; tauto.
    + intros (Ha & Hb). split; [exact Ha|]. intros j v b Hin Hl0 Hc. destruct (Hlo_in j v Hin) as (Hj & Hne & Hf).
      destruct (Hlo j Hj) as (o & E1 & E2 & F). rewrite (proj2 (Nat.eqb_neq j i) Hne) in F. rewrite Hf in E2. subst o.
      destruct (frag_last _ _ F) as (b' & Eb & Vb & Hbb). rewrite Hl0 in Eb. injection Eb as <-. apply Hbb in Hc. apply (Hb j Hj Hne). apply Hc.
  - split; [exact Voi|]. intros c. rewrite Hoi, Hrim, Nat.sub_diag, grown_0. split.
    + intros (Ha & Hb). split; [exact Ha|]. intros j Hj Hne Hc. destruct (Hli j Hj) as (o & E1 & E2 & F).
      rewrite (proj2 (Nat.eqb_neq j i) Hne) in F. destruct o as [v|].
      * destruct (frag_last _ _ F) as (b & Eb & Vb & Hbb). apply (Hb j v b); auto.
        -- apply entries_In. eapply nth_error_In; eauto.
        -- apply Hbb. split; [exact Hc|apply Ha].
      * apply (F c). split; [exact Hc|apply Ha].
    + intros (Ha & Hb). split; [exact Ha|]. intros j v b Hin Hl0 Hc. destruct (Hli_in j v Hin) as (Hj & Hne & Hf).
      destruct (Hli j Hj) as (o & E1 & E2 & F). rewrite (proj2 (Nat.eqb_neq j i) Hne) in F. rewrite Hf in E2. subst o.
      destruct (frag_last _ _ F) as (b' & Eb & Vb & Hbb). rewrite Hl0 in Eb. injection Eb as <-. apply Hbb in Hc. apply (Hb j Hj Hne). apply Hc.
Qed.

(** ** Consequences *)

Lemma rim_or_kernel i p c : (i < n)%nat -> pm_spec i p -> own i c -> is_rim i c \/ is_kernel i c.
Proof.
  clear Hins. intros Hi Hp Ho. destruct (nth_error (pm_inner p) w) as [k|] eqn:Ek; [|apply nth_error_None in Ek; rewrite (ps_inner_len i p Hp) in Ek; lia].
  destruct (nth_error (pm_rims p) w) as [r|] eqn:Er; [|apply nth_error_None in Er; rewrite (ps_rim_len i p Hp) in Er; lia].
  destruct (ps_inner i p Hp _ _ Ek) as [Vk Hk]. rewrite Nat.sub_diag in Hk.
  destruct (inr_dec d k c Vk) as [H|H]; [right; apply (grown_0 (is_kernel i)); now apply Hk|].
  left. destruct (ps_rim i p Hp _ _ Er) as [Vr Hr]. rewrite Nat.sub_diag in Hr.
  destruct (inr_dec d r c Vr) as [H'|H']; [apply (grown_0 (is_rim i)); now apply Hr|].
  exfalso. assert (Hn : ~ grown E w (surface i) c).
  { intros Hg. apply H'. apply Hr. apply grown_0. split; auto. }
  apply H. apply Hk. apply grown_0. split; auto.
Qed.

(** Growing twice. *)
Lemma grown_grown a b P c : grown E a (grown E b P) c <-> grown E (b + a) P c.
Proof.
  unfold grown. split.
  - intros (c1 & (c0 & H0 & H1) & H2). exists c0. split; auto. eapply walk_trans; eauto.
  - intros (c0 & H0 & H1). apply walk_split in H1. destruct H1 as (c1 & H1 & H2). exists c1. split; eauto.
Qed.

(** With symmetric neighbourhoods, the kernel is so far from the border that
    growing it does not leave the own region. *)
Lemma kernel_stays i k c : symmetric E -> (i < n)%nat -> (k <= w)%nat -> grown E k (is_kernel i) c -> own i c.
Proof.
  intros HE Hi Hk (c0 & [Ho Hn] & Hwk). destruct (own_dec i c Hi) as [|Hc]; auto. exfalso. apply Hn.
  destruct (walk_exit (own i) (fun x => own_dec i x Hi) k c0 c Hwk Ho Hc) as (j & a & b & Hj & H1 & Ha & Hab & Hb & _).
  exists b. split.
  - split; [eapply sl_closed; eauto|]. split; auto. exists a. split; auto.
  - apply walk_more with (S j); [eapply sl_closed; eauto|lia|]. exists a. split; [apply HE; auto|]. apply walk_rev; auto.
Qed.

(** What other nodes need lies in the rim. *)
Lemma need_in_rim i j e c : (i < n)%nat -> (j < n)%nat -> i <> j -> disjoint d n part -> (e <= w)%nat ->
  need j i e c -> is_rim i c.
Proof.
  intros Hi Hj Hne Hdis He [(c0 & Hc0 & Hwk) Ho]. split; auto.
  assert (Hn0 : ~ own i c0) by (intros H; apply Hne; eapply Hdis; eauto).
  destruct (walk_exit (fun x => ~ own i x) ltac:(intros x; destruct (own_dec i x Hi); tauto) e c0 c Hwk Hn0 ltac:(tauto))
    as (k & a & b & Hk & H1 & Ha & Hab & Hb & H2).
  assert (Hb' : own i b) by (destruct (own_dec i b Hi); tauto).
  assert (HIa : I a) by (eapply walk_inside; [|exact H1]; eauto).
  exists a. split; [split; [auto|split; [auto|exists b; auto]]|].
  apply walk_more with (S (e - S k)); [auto|lia|]. exists b. auto.
Qed.

(** Every rim cell is needed by another node, if all cells have an owner. *)
Lemma rim_needed i c : (i < n)%nat -> (forall c, I c -> exists j, (j < n)%nat /\ own j c) -> is_rim i c ->
  exists j, (j < n)%nat /\ j <> i /\ need j i w c.
Proof.
  intros Hi Hcov [Ho (c0 & (HI & Hn & _) & Hwk)]. destruct (Hcov c0 HI) as (j & Hj & Hj'). exists j. split; auto.
  split; [intros ->; contradiction|]. split; auto. exists c0. auto.
Qed.

End PM.
