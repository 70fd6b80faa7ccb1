(** Theorems on stencils (properties C45, C81, C82). *)
From Verif Require Import Base RegionSpec RegionStreaks StencilModel StencilSpec StencilFacts.
From Coq Require Import ZifyBool ZifyNat.

Lemma some_inj {A} (a b : A) : Some a = Some b -> a = b.
Proof. congruence. Qed.

(** VOLUME is the number of coordinates of the shape, for every dimension and
    radius. *)
Theorem C45_volume : forall s, counts (fun c => length c = st_dim s /\ in_shape (st_shape s) (Z.of_nat (st_rad s)) c) (st_volume s).
Proof.
  intros [[| |] d r]; unfold counts, st_volume; cbn [st_shape st_dim st_rad].
  - exists (moore_ball d (Z.of_nat r)). split; [apply moore_ball_nodup|]. split; [apply moore_ball_in; lia|apply moore_ball_length].
  - exists (vn_ball d (Z.of_nat r)). split; [apply vn_ball_nodup|]. split; [intros c; apply vn_ball_in; lia|apply vn_ball_length].
  - exists (cross_list d (Z.of_nat r)). split; [apply cross_list_nodup|]. split; [apply cross_list_in; lia|apply cross_list_length].
Qed.
Print Assumptions C45_volume.

Example C45_volume_example : st_volume (mkStencil VonNeumann 3 4) = 129 /\ st_volume (mkStencil Moore 3 2) = 125 /\ st_volume (mkStencil Cross 3 4) = 25.
Proof. repeat split. Qed.

(** ** The tables *)

Definition in_stencilb (s : stencil) (c : fixed) : bool :=
  match st_shape s with
  | Moore => chebyshev (fc_list c) <=? Z.of_nat (st_rad s)
  | VonNeumann => manhattan (fc_list c) <=? Z.of_nat (st_rad s)
  | Cross => (chebyshev (fc_list c) =? manhattan (fc_list c)) && (manhattan (fc_list c) <=? Z.of_nat (st_rad s))
  end && match st_dim s with
         | O => (fc_x c =? 0) && (fc_y c =? 0) && (fc_z c =? 0)
         | 1%nat => (fc_y c =? 0) && (fc_z c =? 0)
         | 2%nat => fc_z c =? 0
         | _ => true
         end.

Lemma in_stencilb_ok s c : in_stencilb s c = true <-> in_stencil s c.
Proof.
  destruct s as [sh d r], c as [x y z]. unfold in_stencilb, in_stencil. cbn [st_shape st_dim st_rad fc_list fc_x fc_y fc_z]. rewrite andb_true_iff.
  assert (H1 : forall a b : Prop, (a <-> b) -> forall u v : Prop, (u <-> v) -> (a /\ u) <-> (b /\ v)) by tauto. apply H1.
  - destruct sh; unfold in_shape; lia.
  - destruct d as [|[|[|d]]]; cbn [skipn Nat.sub repeat].
    + split; [intros H; assert (x = 0 /\ y = 0 /\ z = 0) as (-> & -> & ->) by lia; reflexivity|intros H; injection H as -> -> ->; reflexivity].
    + split; [intros H; assert (y = 0 /\ z = 0) as (-> & ->) by lia; reflexivity|intros H; injection H as -> ->; reflexivity].
    + split; [intros H; assert (z = 0) as -> by lia; reflexivity|intros H; injection H as ->; reflexivity].
    + destruct d; cbn; tauto.
Qed.

Lemma in_stencil_bounds s c : in_stencil s c ->
  Z.abs (fc_x c) <= Z.of_nat (st_rad s) /\ Z.abs (fc_y c) <= Z.of_nat (st_rad s) /\ Z.abs (fc_z c) <= Z.of_nat (st_rad s).
Proof.
  intros [H _]. pose proof (cheb_le_manh (fc_list c)) as Hc. destruct s as [sh d r]. cbn [st_rad st_shape] in *.
  assert (H' : chebyshev (fc_list c) <= Z.of_nat r) by (destruct sh; unfold in_shape in H; lia). destruct c as [x y z]. cbn in *. lia.
Qed.

Definition all_fixed (r : Z) : list fixed :=
  flat_map (fun z => flat_map (fun y => map (fun x => FC x y z) (zrange (- r) (r + 1))) (zrange (- r) (r + 1))) (zrange (- r) (r + 1)).

Lemma all_fixed_in r c : Z.abs (fc_x c) <= r /\ Z.abs (fc_y c) <= r /\ Z.abs (fc_z c) <= r -> In c (all_fixed r).
Proof.
  intros H. destruct c as [x y z]. cbn [fc_x fc_y fc_z] in H. unfold all_fixed. apply in_flat_map. exists z. rewrite zrange_in. split; [lia|].
  apply in_flat_map. exists y. rewrite zrange_in. split; [lia|]. apply in_map_iff. exists x. rewrite zrange_in. split; [reflexivity|lia].
Qed.

Definition hits (s : stencil) (c : fixed) (i : Z) : bool :=
  match st_coord s i, st_offset s c with
  | Some c', Some i' => (fc_x c' =? fc_x c) && (fc_y c' =? fc_y c) && (fc_z c' =? fc_z c) && (i' =? i)
  | _, _ => false
  end.

Lemma hits_ok s c i : hits s c i = true -> st_coord s i = Some c /\ st_offset s c = Some i.
Proof.
  unfold hits. destruct (st_coord s i) as [[x y z]|]; [|discriminate]. destruct (st_offset s c); [|discriminate]. destruct c. cbn. intros H.
  split; f_equal; [f_equal; lia|lia].
Qed.

Definition table_check (s : stencil) : bool :=
  forallb (fun i => match st_coord s i with Some c => in_stencilb s c && hits s c i | None => false end) (zrange 0 (st_volume s)) &&
  forallb (fun c => negb (in_stencilb s c) || existsb (hits s c) (zrange 0 (st_volume s))) (all_fixed (Z.of_nat (st_rad s))) &&
  forallb (fun e => (0 <=? fst e) && (fst e <? st_volume s)) (st_table s).

Definition table_right (s : stencil) : Prop :=
  (forall i, 0 <= i < st_volume s <-> st_coord s i <> None) /\
  (forall i c, st_coord s i = Some c -> in_stencil s c /\ st_offset s c = Some i) /\
  (forall c, in_stencil s c -> exists i, st_coord s i = Some c /\ st_offset s c = Some i).

Lemma st_coord_in s i c : st_coord s i = Some c -> In (i, c) (st_table s).
Proof.
  unfold st_coord. destruct (find _ _) as [[j c']|] eqn:E; [|discriminate]. intros H. injection H as <-. apply find_some in E. cbn in *.
  destruct E as [E1 E2]. replace i with j by lia. exact E1.
Qed.

Lemma table_check_ok s : table_check s = true -> table_right s.
Proof.
  unfold table_check. rewrite !andb_true_iff, !forallb_forall. intros [[H1 H2] H3].
  assert (Hr : forall i c, st_coord s i = Some c -> 0 <= i < st_volume s).
  { intros i c E. apply st_coord_in in E. specialize (H3 _ E). cbn in H3. lia. }
  split; [|split].
  - intros i. split.
    + intros Hi E. specialize (H1 i). rewrite zrange_in, E in H1. specialize (H1 Hi). discriminate.
    + intros E. destruct (st_coord s i) as [c|] eqn:Ec; [|congruence]. exact (Hr i c Ec).
  - intros i c E. specialize (H1 i). rewrite zrange_in, E in H1. specialize (H1 (Hr i c E)). apply andb_true_iff in H1. destruct H1 as [Ha Hb].
    split; [now apply in_stencilb_ok|]. exact (proj2 (hits_ok s c i Hb)).
  - intros c Hc. specialize (H2 c (all_fixed_in _ _ (in_stencil_bounds s c Hc))). apply in_stencilb_ok in Hc. rewrite Hc in H2. cbn [negb orb] in H2.
    apply existsb_exists in H2. destruct H2 as (i & _ & Hi). exists i. exact (hits_ok s c i Hi).
Qed.

(** Each predefined stencil, with one exception (C81), enumerates exactly its
    coordinates with the indices below VOLUME, and OffsetHelper is the inverse
    of Coords. *)
Theorem C45_tables : forall s, st_table s <> [] -> s <> mkStencil VonNeumann 2 2 ->
  (forall i, 0 <= i < st_volume s <-> st_coord s i <> None) /\
  (forall i c, st_coord s i = Some c -> in_stencil s c /\ st_offset s c = Some i) /\
  (forall c, in_stencil s c -> exists i, st_coord s i = Some c /\ st_offset s c = Some i).
Proof.
  intros [sh d r] Ht Hn. apply table_check_ok. unfold st_table in Ht. cbn [st_shape st_dim st_rad] in Ht.
  destruct sh; destruct d as [|[|[|[|d]]]]; destruct r as [|[|[|r]]]; try (now destruct Ht); try reflexivity.
Qed.
Print Assumptions C45_tables.

Example C45_tables_example : st_coord (mkStencil Moore 3 1) 25 = Some (FC 0 1 1) /\ st_offset (mkStencil Moore 3 1) (FC 0 1 1) = Some 25 /\
  st_table (mkStencil Moore 3 1) <> [].
Proof. repeat split. discriminate. Qed.

(** OffsetHelper numbers the coordinates consecutively, row by row and plane
    by plane, also for stencils without a table. *)
Theorem C45_offsets : forall s, (1 <= st_dim s <= 3)%nat ->
  st_shape s = Moore \/ (st_shape s = VonNeumann /\ (st_dim s = 1%nat \/ (st_dim s = 2%nat /\ (st_rad s <= 8)%nat) \/ (st_rad s <= 1)%nat)) ->
  (forall c, in_stencil s c -> exists i, st_offset s c = Some i /\ 0 <= i < st_volume s) /\
  (forall a b i j, in_stencil s a -> in_stencil s b -> fixed_lt a b -> st_offset s a = Some i -> st_offset s b = Some j -> i < j).
Proof.
  intros [sh d r] Hd Hs. cbn [st_shape st_dim st_rad] in Hd, Hs.
  assert (Hb : forall c, in_stencil (mkStencil sh d r) c ->
    Z.abs (fc_x c) <= Z.of_nat r /\ Z.abs (fc_y c) <= Z.of_nat r /\ Z.abs (fc_z c) <= Z.of_nat r /\
    ((d <= 2)%nat -> fc_z c = 0) /\ ((d <= 1)%nat -> fc_y c = 0) /\ (sh = VonNeumann -> Z.abs (fc_x c) + Z.abs (fc_y c) + Z.abs (fc_z c) <= Z.of_nat r)).
  { intros c Hc. pose proof (in_stencil_bounds _ _ Hc) as Hb. cbn [st_rad] in Hb. destruct Hc as [Hi Hz]. destruct c as [x y z]. cbn [fc_x fc_y fc_z fc_list st_dim st_shape st_rad] in *.
    repeat split; try lia.
    - intros Hd'. destruct d as [|[|[|d]]]; try lia; cbn in Hz; congruence.
    - intros Hd'. destruct d as [|[|d]]; try lia; cbn in Hz; congruence.
    - intros ->. unfold in_shape in Hi. cbn in Hi. lia. }
  destruct Hs as [-> |[-> Hs]]; unfold st_offset, st_volume; cbn [st_shape st_dim st_rad].
  - assert (E : moore_volume d r = 2 * (Z.of_nat r * sum_to (fun i => moore_volume i r) (d - 1)) + 1).
    { unfold moore_volume. destruct d as [|[|[|[|d]]]]; try lia; cbn [Nat.sub sum_to power]; ring. }
    set (n := Z.of_nat r) in *. cbn [power].
    assert (E' : d = 1%nat \/ d = 2%nat \/ d = 3%nat) by lia. clear Hd. split.
    + intros c Hc. specialize (Hb c Hc). eexists. split; [reflexivity|]. rewrite E. destruct c as [x y z]. cbn [fc_x fc_y fc_z] in *.
      destruct Hb as (Hx & Hy & Hz & Hz0 & Hy0 & _). clear Hc E. unfold moore_volume.
      destruct E' as [-> |[-> | ->]]; cbn [Nat.sub sum_to power]; fold n.
      * rewrite Hz0, Hy0 by lia. lia.
      * rewrite Hz0 by lia. nia.
      * assert (-n <= x <= n) by lia. assert (-n <= y <= n) by lia. assert (-n <= z <= n) by lia.
        assert (- n * (2 * n + 1) <= y * (2 * n + 1) <= n * (2 * n + 1)) by nia.
        assert (- n * ((2 * n + 1) * (2 * n + 1)) <= z * ((2 * n + 1) * (2 * n + 1)) <= n * ((2 * n + 1) * (2 * n + 1))) by nia. nia.
    + intros a b i j Ha Hb' Hlt Ei Ej. apply some_inj in Ei, Ej. subst i j. pose proof (Hb a Ha) as Ba. pose proof (Hb b Hb') as Bb. clear Ha Hb' Hb E E'.
      destruct a as [x y z], b as [x' y' z']. unfold fixed_lt in Hlt. cbn [fc_x fc_y fc_z] in *. apply Z.add_lt_mono_r.
      destruct Ba as (? & ? & ? & _), Bb as (? & ? & ? & _). assert (0 <= n) by lia.
      destruct Hlt as [Hlt|[-> [Hlt|[-> Hlt]]]]; [|assert ((2 * n + 1) * y + (2 * n + 1) <= (2 * n + 1) * y') by nia; lia|lia].
      assert (z * ((2 * n + 1) * (2 * n + 1)) + (2 * n + 1) * (2 * n + 1) <= z' * ((2 * n + 1) * (2 * n + 1))) by nia.
      assert (- n * (2 * n + 1) <= y' * (2 * n + 1)) by nia. assert (y * (2 * n + 1) <= n * (2 * n + 1)) by nia. nia.
  - destruct (Nat.le_gt_cases r 1) as [Hr1|Hr1].
    { (* radius 0 or 1 *)
      assert (C : forall s, forallb (fun c => negb (in_stencilb s c) ||
          (match st_offset s c with Some i => (0 <=? i) && (i <? st_volume s) | None => false end &&
           forallb (fun c' => negb (in_stencilb s c') || negb ((fc_z c <? fc_z c') || ((fc_z c =? fc_z c') && ((fc_y c <? fc_y c') || ((fc_y c =? fc_y c') && (fc_x c <? fc_x c')))))
              || match st_offset s c, st_offset s c' with Some i, Some j => i <? j | _, _ => false end) (all_fixed (Z.of_nat (st_rad s))))) (all_fixed (Z.of_nat (st_rad s))) = true ->
        (forall c, in_stencil s c -> exists i, st_offset s c = Some i /\ 0 <= i < st_volume s) /\
        (forall a b i j, in_stencil s a -> in_stencil s b -> fixed_lt a b -> st_offset s a = Some i -> st_offset s b = Some j -> i < j)).
      { intros s. rewrite forallb_forall. intros H. split.
        - intros c Hc. specialize (H c (all_fixed_in _ _ (in_stencil_bounds s c Hc))). apply in_stencilb_ok in Hc. rewrite Hc in H. cbn [negb orb] in H.
          apply andb_true_iff in H. destruct H as [H _]. destruct (st_offset s c) as [i|]; [|discriminate]. exists i. split; [reflexivity|lia].
        - intros a b i j Ha Hb' Hlt Ei Ej. specialize (H a (all_fixed_in _ _ (in_stencil_bounds s a Ha))). apply in_stencilb_ok in Ha. rewrite Ha in H. cbn [negb orb] in H.
          apply andb_true_iff in H. destruct H as [_ H]. rewrite forallb_forall in H. specialize (H b (all_fixed_in _ _ (in_stencil_bounds s b Hb'))).
          apply in_stencilb_ok in Hb'. rewrite Hb', Ei, Ej in H. cbn [negb orb] in H. unfold fixed_lt in Hlt. lia. }
      change (?A /\ ?B) with (A /\ B). apply (C (mkStencil VonNeumann d r)). clear C Hb.
      destruct d as [|[|[|[|d]]]]; try lia; destruct r as [|[|r]]; try lia; vm_compute; reflexivity. }
    assert (Hd' : (d <= 2)%nat) by lia. assert (H8 : d = 1%nat \/ (d = 2%nat /\ (r <= 8)%nat)) by lia. clear Hs.
    assert (Ed : forall c, in_stencil (mkStencil VonNeumann d r) c ->
      vn_delta 2 r (fc_y c) = Some (row_delta (Z.of_nat r) (fc_y c)) /\ vn_delta 3 r (fc_z c) = Some 0).
    { intros c Hc. specialize (Hb c Hc). split; [|replace (fc_z c) with 0 by lia; apply vn_delta_3_0]. apply vn_delta_2; lia. }
    assert (Ev : (vn_volume d r - 1) / 2 = if (d =? 1)%nat then Z.of_nat r else Z.of_nat r * Z.of_nat r + Z.of_nat r).
    { destruct H8 as [-> |[-> _]]; cbn [Nat.eqb].
      - rewrite vn_volume_1. replace (2 * Z.of_nat r + 1 - 1) with (Z.of_nat r * 2) by lia. apply Z.div_mul. lia.
      - rewrite vn_volume_2. replace (2 * (Z.of_nat r * Z.of_nat r) + 2 * Z.of_nat r + 1 - 1) with ((Z.of_nat r * Z.of_nat r + Z.of_nat r) * 2) by ring. apply Z.div_mul. lia. }
    rewrite Ev. split.
    + intros c Hc. destruct (Ed c Hc) as [-> ->]. eexists. split; [reflexivity|]. specialize (Hb c Hc). destruct H8 as [-> |[-> _]]; cbn [Nat.eqb].
      * rewrite vn_volume_1. replace (fc_y c) with 0 by lia. unfold row_delta. lia.
      * rewrite vn_volume_2. pose proof (row_delta_bounds (Z.of_nat r) (fc_y c)) as Hrow. destruct Hb as (_ & _ & _ & _ & _ & Hv). specialize (Hv eq_refl). lia.
    + intros a b i j Ha Hb' Hlt. destruct (Ed a Ha) as [-> ->], (Ed b Hb') as [-> ->]. intros Ei Ej. apply some_inj in Ei, Ej. subst i j.
      pose proof (Hb a Ha) as Ba. pose proof (Hb b Hb') as Bb. unfold fixed_lt in Hlt. destruct a as [x y z], b as [x' y' z']. cbn [fc_x fc_y fc_z] in *.
      destruct Ba as (_ & _ & _ & Bz & _ & Ba), Bb as (_ & _ & _ & Bz' & _ & Bb). specialize (Bz Hd'). specialize (Bz' Hd'). specialize (Ba eq_refl). specialize (Bb eq_refl). clear Ev Ed Hb H8. apply Z.add_lt_mono_r.
      destruct (Z.eq_dec y y') as [->|Hy]; [lia|]. pose proof (row_delta_later (Z.of_nat r) y y'). lia.
Qed.
Print Assumptions C45_offsets.

Example C45_offsets_example : st_offset (mkStencil VonNeumann 2 3) (FC 1 (-1) 0) = Some 7 /\ in_stencil (mkStencil VonNeumann 2 3) (FC 1 (-1) 0) /\
  st_offset (mkStencil Moore 3 2) (FC 2 2 2) = Some 124.
Proof. split; [reflexivity|]. split; [|reflexivity]. apply in_stencilb_ok. reflexivity. Qed.

(** ** C81: the table of the exception *)

(** VonNeumann<2, 2> has no coordinate for index 8, which is less than
    VOLUME, and one for index 13, which is not; OffsetHelper disagrees with the
    table. *)
Theorem C81_von_neumann_table_refuted : exists s i j c, st_table s <> [] /\
  0 <= i < st_volume s /\ st_coord s i = None /\
  st_coord s j = Some c /\ in_stencil s c /\ ~ j < st_volume s /\ st_offset s c <> Some j.
Proof.
  exists (mkStencil VonNeumann 2 2), 8, 13, (FC 0 2 0). split; [discriminate|]. split; [now vm_compute|]. split; [reflexivity|]. split; [reflexivity|].
  split; [apply in_stencilb_ok; reflexivity|]. split; [now vm_compute|now vm_compute].
Qed.
Print Assumptions C81_von_neumann_table_refuted.

(** ** C82: OffsetHelper in three dimensions *)

(** For von Neumann stencils of radius 2 in three dimensions, OffsetHelper
    yields indices which are out of bounds, and equal ones for different
    coordinates. *)
Theorem C82_von_neumann_offset_refuted : exists s a b c i, st_dim s = 3%nat /\ in_stencil s a /\ in_stencil s b /\ in_stencil s c /\
  st_offset s a = Some i /\ ~ i < st_volume s /\ b <> c /\ st_offset s b = st_offset s c.
Proof.
  exists (mkStencil VonNeumann 3 2), (FC 0 1 1), (FC 0 (-1) 1), (FC 1 1 0), 25.
  split; [reflexivity|]. do 3 (split; [apply in_stencilb_ok; reflexivity|]). split; [reflexivity|]. split; [now vm_compute|]. split; [discriminate|]. now vm_compute.
Qed.
Print Assumptions C82_von_neumann_offset_refuted.
