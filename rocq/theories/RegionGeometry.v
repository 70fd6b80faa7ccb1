(** Facts on the geometry cache. *)
From Verif Require Import Base ListFacts RegionSpec RegionModel RegionRep RegionIterModel RegionStreaks
  CoordModel CoordSpec RegionOpsModel RegionOps CoordFacts RegionHistory RegionHist RegionReach RegionExpand RegionObjModel.
From Coq Require Import Sorted.

Definition cle (a b : coord) : Prop := Forall2 Z.le a b.

Lemma cle_refl a : cle a a.
Proof. induction a; constructor; auto; lia. Qed.

Lemma cle_trans a : forall b c, cle a b -> cle b c -> cle a c.
Proof.
  induction a as [|x a IH]; intros b c H1 H2; inversion H1; subst; inversion H2; subst; constructor; [lia|].
  eapply IH; eauto.
Qed.

Lemma zmin_le a : forall b, length a = length b -> cle (zmin a b) a /\ cle (zmin a b) b.
Proof.
  induction a as [|x a IH]; intros [|y b] H; try discriminate; cbn; [split; constructor|].
  destruct (IH b) as [H1 H2]; [cbn in H; lia|]. split; constructor; auto; lia.
Qed.

Lemma zmax_le a : forall b, length a = length b -> cle a (zmax a b) /\ cle b (zmax a b).
Proof.
  induction a as [|x a IH]; intros [|y b] H; try discriminate; cbn; [split; constructor|].
  destruct (IH b) as [H1 H2]; [cbn in H; lia|]. split; constructor; auto; lia.
Qed.

Lemma zmin_glb a : forall b o, cle o a -> cle o b -> cle o (zmin a b).
Proof.
  induction a as [|x a IH]; intros b o H1 H2; inversion H1; subst; inversion H2; subst; cbn; constructor; try (apply IH; auto); lia.
Qed.

Lemma zmax_lub a : forall b o, cle a o -> cle b o -> cle (zmax a b) o.
Proof.
  induction a as [|x a IH]; intros b o H1 H2; inversion H1; subst; inversion H2; subst; cbn; constructor; try (apply IH; auto); lia.
Qed.

Lemma zmin_length a : forall b, length a = length b -> length (zmin a b) = length a.
Proof. induction a; intros [|y b] H; try discriminate; cbn; auto. Qed.
Lemma zmax_length a : forall b, length a = length b -> length (zmax a b) = length a.
Proof. induction a; intros [|y b] H; try discriminate; cbn; auto. Qed.

Lemma cle_snoc a b x y : cle a b -> x <= y -> cle (a ++ [x]) (b ++ [y]).
Proof. intros H Hx. apply Forall2_app; auto. Qed.

(** Containment in the box spanned by [mn] and [mx]. *)
Lemma span_box n : forall mn mx c, length mn = n -> length mx = n -> length c = n ->
  (inside mn (zadd (zsub mx mn) (diagonal n 1)) c <-> cle mn c /\ cle c mx).
Proof.
  induction n as [|n IH]; intros [|a mn] [|b mx] [|x c] H1 H2 H3; try discriminate.
  - cbn. split; [split; constructor|auto].
  - unfold diagonal. cbn [zsub zadd repeat inside]. fold (diagonal n 1). rewrite IH by (cbn in *; lia). split.
    + intros [Hx [Ha Hb]]. split; constructor; auto; lia.
    + intros [Ha Hb]. inversion Ha; inversion Hb; subst. repeat split; auto; lia.
Qed.

Lemma inside_bounds n : forall o dim c, length o = n -> length dim = n -> length c = n ->
  (inside o dim c <-> cle o c /\ cle c (zsub (zadd o dim) (diagonal n 1))).
Proof.
  induction n as [|n IH]; intros [|a o] [|b dim] [|x c] H1 H2 H3; try discriminate.
  - cbn. split; [split; constructor|auto].
  - unfold diagonal. cbn [zsub zadd repeat inside]. fold (diagonal n 1). rewrite IH by (cbn in *; lia). split.
    + intros [Hx [Ha Hb]]. split; constructor; auto; lia.
    + intros [Ha Hb]. inversion Ha; inversion Hb; subst. repeat split; auto; lia.
Qed.

Definition s_right (s : streak) : coord := s_pre s ++ [s_e s - 1].

Lemma geometry_fold d l : forall mn mx n,
  Forall (fun s => length (s_pre s) = d /\ s_x s < s_e s) l -> length mn = S d -> length mx = S d ->
  exists mn' mx', fold_left (fun '(mn, mx, n) s =>
      (zmin mn (s_origin s), zmax mx (s_pre s ++ [s_e s - 1]), n + (s_e s - s_x s))) l (mn, mx, n)
    = (mn', mx', n + Z.of_nat (length (flat_map streak_coords l))) /\
    length mn' = S d /\ length mx' = S d /\ cle mn' mn /\ cle mx mx' /\
    (forall s, In s l -> cle mn' (s_origin s) /\ cle (s_right s) mx') /\
    (forall o, cle o mn -> (forall s, In s l -> cle o (s_origin s)) -> cle o mn') /\
    (forall o, cle mx o -> (forall s, In s l -> cle (s_right s) o) -> cle mx' o).
Proof.
  induction l as [|s l IH]; intros mn mx n Hf H1 H2; cbn [fold_left].
  - exists mn, mx. cbn. rewrite Z.add_0_r. split; auto. split; auto. split; auto. split; [apply cle_refl|].
    split; [apply cle_refl|]. split; [tauto|]. auto.
  - apply Forall_cons_iff' in Hf. destruct Hf as [[Hs Hne] Hf].
    assert (Lo : length mn = length (s_origin s)) by (unfold s_origin; rewrite app_length; cbn; lia).
    assert (Lr : length mx = length (s_right s)) by (unfold s_right; rewrite app_length; cbn; lia).
    destruct (IH (zmin mn (s_origin s)) (zmax mx (s_right s)) (n + (s_e s - s_x s)) Hf) as (mn' & mx' & E & L1 & L2 & Hm & HM & Hall & Hg & HG).
    { rewrite zmin_length; auto. } { rewrite zmax_length; auto. }
    exists mn', mx'.
    destruct (zmin_le _ _ Lo) as [Z1 Z2]. destruct (zmax_le _ _ Lr) as [Z3 Z4].
    split.
    { etransitivity; [exact E|]. f_equal. cbn [flat_map]. rewrite app_length. unfold streak_coords at 2. rewrite map_length, zrange_length. lia. }
    split; auto. split; auto. split; [eapply cle_trans; eauto|]. split; [eapply cle_trans; eauto|].
    split.
    { intros s' [<-|Hs']; [|auto]. split; eapply cle_trans; eauto. }
    split.
    + intros o Ho Hall'. apply Hg; [apply zmin_glb; auto; apply Hall'; now left|]. intros; apply Hall'; now right.
    + intros o Ho Hall'. apply HG; [apply zmax_lub; auto; apply Hall'; now left|]. intros; apply Hall'; now right.
Qed.

(** [b] is the smallest box which contains all coordinates of [P]. *)
Definition smallest_box (n : nat) (P : coord -> Prop) (b : box) : Prop :=
  length (b_origin b) = n /\ length (b_dim b) = n /\
  (forall c, P c -> in_box b c) /\
  (forall b', length (b_origin b') = n -> length (b_dim b') = n -> (forall c, P c -> in_box b' c) ->
     forall c, in_box b c -> in_box b' c).

Lemma geometry_valid d r : rvalid d r ->
  exists b cs, determine_geometry r = Some (b, Z.of_nat (length cs)) /\
    StronglySorted coord_lt cs /\ (forall c, In c cs <-> length c = S d /\ rin r c) /\
    smallest_box (S d) (fun c => length c = S d /\ rin r c) b /\
    (cs = [] -> b = null_box (S d)) /\ (reg_is_empty r = true <-> cs = []).
Proof.
  intros Hv. unfold determine_geometry. rewrite (valid_length d r Hv).
  destruct (streaks_valid d r Hv) as (l & Hok & Hin & El & _ & Hlast).
  assert (Hcs : forall c, In c (flat_map streak_coords l) <-> length c = S d /\ rin r c).
  { intros c. rewrite in_flat_map. split.
    - intros (s & Hs & Hc). apply streak_coords_in in Hc. assert (length c = S d).
      { destruct Hc as (x & -> & _). destruct Hok as [_ Hf]. rewrite Forall_forall in Hf. apply Hf in Hs.
        rewrite app_length. cbn. lia. }
      split; auto. apply Hin; auto. exists s. auto.
    - intros [Hl Hr]. apply Hin in Hr; auto. destruct Hr as (s & Hs & Hc). exists s. split; auto. now apply streak_coords_in. }
  assert (Hemp : reg_is_empty r = true <-> flat_map streak_coords l = []).
  { rewrite (in_streaks_empty d r l Hv Hlast). split; [intros ->; auto|]. destruct l as [|s l]; auto.
    cbn [flat_map]. intros H. exfalso. apply app_eq_nil in H. destruct H as [H _].
    destruct Hok as [_ Hf]. apply Forall_cons_iff' in Hf. destruct Hf as [[_ Hne] _].
    unfold streak_coords in H. rewrite zrange_cons in H by auto. discriminate. }
  destruct (reg_is_empty r) eqn:E.
  - exists (null_box (S d)), (flat_map streak_coords l). rewrite (proj1 Hemp eq_refl) in *. split; auto.
    split; [constructor|]. split; [exact Hcs|]. split.
    { split; [apply repeat_length|]. split; [apply repeat_length|]. split.
      - intros c Hc. apply Hcs in Hc. destruct Hc.
      - intros b' _ _ _ c Hc. exfalso. unfold in_box, null_box in Hc. cbn in Hc. destruct c; [tauto|]. lia. }
    split; [auto|]. split; auto.
  - rewrite El. cbn [obind]. destruct l as [|s0 l'] eqn:El'.
    { exfalso. assert (false = true) by (apply Hemp; reflexivity). discriminate. }
    rewrite <- El' in *.
    assert (Hs0 : length (s_origin s0) = S d /\ s_x s0 < s_e s0).
    { destruct Hok as [_ Hf]. rewrite El' in Hf. apply Forall_cons_iff' in Hf. destruct Hf as [[Hl Hne] _].
      unfold s_origin. rewrite app_length. cbn. lia. }
    destruct (geometry_fold d l (s_origin s0) (s_origin s0) 0 (proj2 Hok) (proj1 Hs0) (proj1 Hs0))
      as (mn & mx & Ef & L1 & L2 & Hm & HM & Hall & Hg & HG).
    exists (mkBox mn (zadd (zsub mx mn) (diagonal (S d) 1))), (flat_map streak_coords l). split.
    { match goal with |- (match ?F with pair _ _ => _ end) = _ =>
        replace F with (mn, mx, Z.of_nat (length (flat_map streak_coords l))) by (symmetry; exact Ef) end.
      reflexivity. }
    split; [now apply (coords_sorted d)|]. split; [exact Hcs|]. split; [|split; [|tauto]].
    + split; auto. split.
      { cbn [b_dim]. assert (forall a b, length a = length b -> length (zsub a b) = length a) as Hz.
        { clear. induction a; intros [|y b] H; try discriminate; cbn; auto. }
        rewrite zadd_length; rewrite Hz; try lia; unfold diagonal; rewrite ?repeat_length; lia. }
      assert (Hspan : forall c, length c = S d -> (in_box (mkBox mn (zadd (zsub mx mn) (diagonal (S d) 1))) c <-> cle mn c /\ cle c mx)).
      { intros c Hc. unfold in_box. cbn [b_origin b_dim]. now apply span_box. }
      split.
      * intros c [Hl Hr]. apply Hspan; auto. apply Hin in Hr; auto. destruct Hr as (s & Hs & (x & -> & Hx)).
        destruct (Hall s Hs) as [H1 H2]. split.
        -- eapply cle_trans; [exact H1|]. apply cle_snoc; [apply cle_refl|lia].
        -- eapply cle_trans; [|exact H2]. apply cle_snoc; [apply cle_refl|lia].
      * intros b' Ho Hd Hb' c Hc. assert (Hlc : length c = S d).
        { unfold in_box in Hc. apply inside_length in Hc. cbn in Hc. lia. }
        apply Hspan in Hc; auto. destruct Hc as [Hc1 Hc2]. unfold in_box.
        apply (inside_bounds (S d)); auto.
        assert (Hend : forall c', length c' = S d -> rin r c' ->
          cle (b_origin b') c' /\ cle c' (zsub (zadd (b_origin b') (b_dim b')) (diagonal (S d) 1))).
        { intros c' Hl' Hr'. apply (inside_bounds (S d)); auto. now apply Hb'. }
        assert (Hends : forall s, In s l -> length (s_pre s) = d /\ rin r (s_origin s) /\ rin r (s_right s)).
        { intros s Hs. destruct Hok as [_ Hf]. rewrite Forall_forall in Hf. destruct (Hf s Hs) as [Hl Hne]. split; auto.
          unfold s_origin, s_right. split; (apply Hin; [rewrite app_length; cbn; lia|]); exists s; (split; [auto|]);
            apply in_streak_snoc; split; auto; lia. }
        assert (Hin0 : In s0 l) by (rewrite El'; now left).
        split.
        -- eapply cle_trans; [|exact Hc1]. apply Hg.
           ++ apply Hend; [apply Hs0|]. now apply Hends.
           ++ intros s Hs. destruct (Hends s Hs) as (Hl & Hr1 & _). apply Hend; auto. unfold s_origin. rewrite app_length. cbn. lia.
        -- eapply cle_trans; [exact Hc2|]. apply HG.
           ++ apply Hend; [apply Hs0|]. now apply Hends.
           ++ intros s Hs. destruct (Hends s Hs) as (Hl & _ & Hr2). apply Hend; auto. unfold s_right. rewrite app_length. cbn. lia.
    + intros Hnil. exfalso. assert (false = true) by (now apply Hemp). discriminate.
Qed.

(** ** Objects *)

Definition rg_ok (d : nat) (r : region) : Prop :=
  rvalid d (rg_idx r) /\
  (rg_tainted r = false -> determine_geometry (rg_idx r) = Some (rg_box r, rg_size r)).

Lemma rg_new_ok d : rg_ok d (rg_new (S d)).
Proof.
  split; [apply rvalid_empty|]. intros _. cbn [rg_idx rg_new rg_box rg_size]. unfold determine_geometry.
  assert (reg_is_empty (reg_empty (S d)) = true) as ->.
  { unfold reg_is_empty, reg_empty. rewrite (@app_removelast_last _ (repeat [] (S d)) []); [|discriminate].
    rewrite last_last. assert (last (repeat (@nil (Z * Z)) (S d)) [] = []) as ->; auto.
    clear. induction d; auto. }
  now rewrite (valid_length d _ (rvalid_empty d)).
Qed.

Lemma rg_built_ok d i : rvalid d i -> rg_ok d (rg_built i).
Proof.
  intros Hv. split; auto. cbn. intros H. unfold determine_geometry. destruct (reg_is_empty i); [reflexivity|discriminate].
Qed.

Lemma rg_insert_idx r s : rg_idx (rg_insert r s) = reg_insert (rg_idx r) s.
Proof. unfold rg_insert, reg_insert. now destruct (s_e s <=? s_x s). Qed.

Lemma rg_remove_idx r s : rg_idx (rg_remove r s) = reg_remove (rg_idx r) s.
Proof. unfold rg_remove, reg_remove. now destruct (_ || _). Qed.

Lemma rg_insert_ok d r s : rg_ok d r -> length (s_pre s) = d -> rg_ok d (rg_insert r s).
Proof.
  intros [Hv Hc] Hs. split; [rewrite rg_insert_idx; now apply insert_valid|].
  unfold rg_insert. destruct (s_e s <=? s_x s); auto. discriminate.
Qed.

Lemma rg_remove_ok d r s : rg_ok d r -> length (s_pre s) = d -> rg_ok d (rg_remove r s).
Proof.
  intros [Hv Hc] Hs. split; [rewrite rg_remove_idx; now apply remove_valid|].
  unfold rg_remove. destruct (_ || _); auto. discriminate.
Qed.

Lemma rg_insert_all_idx l : forall r, rg_idx (rg_insert_all r l) = insert_all (rg_idx r) l.
Proof. induction l as [|s l IH]; intros r; cbn; auto. unfold rg_insert_all in IH. rewrite IH. now rewrite rg_insert_idx. Qed.

Lemma rg_insert_all_ok d l : forall r, rg_ok d r -> dims_ok d l -> rg_ok d (rg_insert_all r l).
Proof.
  induction l as [|s l IH]; intros r Hr Hl; cbn; auto. apply Forall_cons_iff' in Hl. destruct Hl.
  apply IH; auto. now apply rg_insert_ok.
Qed.

Lemma streaks_dims d r l : rvalid d r -> reg_streaks r = Some l -> dims_ok d l.
Proof.
  intros Hv E. destruct (streaks_valid d r Hv) as (l' & Hok & _ & E' & _). rewrite E in E'. injection E' as <-.
  now apply ok_dims.
Qed.

(** The object-level operations act on the index part like those without
    cache and preserve consistency. *)
Lemma rg_union_ok d a b : rg_ok d a -> rg_ok d b ->
  exists r, rg_union a b = Some r /\ rg_ok d r /\ reg_union (rg_idx a) (rg_idx b) = Some (rg_idx r).
Proof.
  intros Ha Hb. destruct (reg_union_valid d _ _ (proj1 Ha) (proj1 Hb)) as (u & Eu & Vu & _).
  unfold rg_union, reg_union in *.
  destruct (reg_is_empty (rg_idx b)); [exists a; auto|]. destruct (reg_is_empty (rg_idx a)); [exists b; auto|].
  destruct (reg_streaks (rg_idx a)) as [la|] eqn:Ea; [|discriminate].
  destruct (reg_streaks (rg_idx b)) as [lb|] eqn:Eb; [|discriminate]. cbn [obind] in *.
  destruct (is_appendable (rg_idx a) (rg_idx b)) as [[]|]; cbn [obind] in *; [| |discriminate].
  - eexists. split; [reflexivity|]. split; [|now rewrite rg_insert_all_idx].
    apply rg_insert_all_ok; auto. eapply streaks_dims; [apply Hb|exact Eb].
  - destruct (is_appendable (rg_idx b) (rg_idx a)) as [[]|]; cbn [obind] in *; [| |discriminate].
    + eexists. split; [reflexivity|]. split; [|now rewrite rg_insert_all_idx].
      apply rg_insert_all_ok; auto. eapply streaks_dims; [apply Ha|exact Ea].
    + rewrite Eu. cbn [obind]. eexists. split; [reflexivity|]. split; [now apply rg_built_ok|reflexivity].
Qed.

Lemma rg_union_assign_ok d a b : rg_ok d a -> rg_ok d b ->
  exists r, rg_union_assign a b = Some r /\ rg_ok d r /\ reg_union_assign (rg_idx a) (rg_idx b) = Some (rg_idx r).
Proof.
  intros Ha Hb. destruct (rg_union_ok d a b Ha Hb) as (r & E & Hr & E').
  destruct (reg_union_assign_valid d _ _ (proj1 Ha) (proj1 Hb)) as (u & Eu & Vu & _).
  unfold rg_union_assign, reg_union_assign in *.
  destruct (reg_is_empty (rg_idx b)); [exists a; auto|]. destruct (reg_is_empty (rg_idx a)); [exists b; auto|].
  destruct (reg_streaks (rg_idx a)) as [la|] eqn:Ea; [|discriminate].
  destruct (reg_streaks (rg_idx b)) as [lb|] eqn:Eb; [|discriminate]. cbn [obind] in *.
  destruct (is_appendable (rg_idx a) (rg_idx b)) as [[]|]; cbn [obind] in *; [| |discriminate].
  - eexists. split; [reflexivity|]. split; [|now rewrite rg_insert_all_idx].
    apply rg_insert_all_ok; auto. eapply streaks_dims; [apply Hb|exact Eb].
  - destruct (is_appendable (rg_idx b) (rg_idx a)) as [[]|]; cbn [obind] in *; [| |discriminate].
    + eexists. split; [reflexivity|]. split; [|now rewrite rg_insert_all_idx].
      apply rg_insert_all_ok; auto. eapply streaks_dims; [apply Ha|exact Ea].
    + exists r. auto.
Qed.

Lemma rg_isect_ok d a b : rg_ok d a -> rg_ok d b ->
  exists r, rg_isect a b = Some r /\ rg_ok d r /\ reg_isect (rg_idx a) (rg_idx b) = Some (rg_idx r).
Proof.
  intros Ha Hb. destruct (reg_isect_valid d _ _ (proj1 Ha) (proj1 Hb)) as (u & Eu & Vu & _).
  unfold rg_isect. rewrite Eu. cbn. eexists. split; [reflexivity|]. split; [now apply rg_built_ok|reflexivity].
Qed.

Lemma rg_diff_ok d a b : rg_ok d a -> rg_ok d b ->
  exists r, rg_diff a b = Some r /\ rg_ok d r /\ reg_diff (rg_idx a) (rg_idx b) = Some (rg_idx r).
Proof.
  intros Ha Hb. destruct (reg_diff_valid d _ _ (proj1 Ha) (proj1 Hb)) as (u & Eu & Vu & _).
  unfold rg_diff. destruct (reg_is_empty (rg_idx a)) eqn:E1.
  - rewrite (valid_length d _ (proj1 Ha)). eexists. split; [reflexivity|]. split; [apply rg_new_ok|].
    unfold reg_diff. rewrite E1. now rewrite (valid_length d _ (proj1 Ha)).
  - destruct (reg_is_empty (rg_idx b)) eqn:E2.
    + exists a. split; auto. split; auto. unfold reg_diff. now rewrite E1, E2.
    + rewrite Eu. cbn. eexists. split; [reflexivity|]. split; [now apply rg_built_ok|reflexivity].
Qed.

Lemma rg_rop_ok d r op fuel : rg_ok d r -> rop_ok (S d) op -> (rop_fuel op <= fuel)%nat ->
  exists r', rg_rop fuel r op = Some r' /\ rg_ok d r' /\ run_rop fuel (rg_idx r) op = Some (rg_idx r').
Proof.
  intros Hr Hop Hf. destruct (run_rop_valid d (rg_idx r) op fuel (proj1 Hr) Hop Hf) as (i & Ei & Vi & _).
  destruct op as [c|s|b|c|s|b]; cbn [rg_rop run_rop] in *.
  - eexists. split; [reflexivity|]. split; [|now rewrite rg_insert_idx]. apply rg_insert_ok; auto.
    cbn in Hop. destruct (coord_split c d Hop) as (p & x & -> & Hp). rewrite coord_streak_snoc. auto.
  - eexists. split; [reflexivity|]. split; [|now rewrite rg_insert_idx]. apply rg_insert_ok; auto.
  - unfold rg_insert_box. rewrite Ei. cbn. eexists. split; [reflexivity|]. split; [now apply rg_built_ok|reflexivity].
  - eexists. split; [reflexivity|]. split; [|now rewrite rg_remove_idx]. apply rg_remove_ok; auto.
    cbn in Hop. destruct (coord_split c d Hop) as (p & x & -> & Hp). rewrite coord_streak_snoc. auto.
  - eexists. split; [reflexivity|]. split; [|now rewrite rg_remove_idx]. apply rg_remove_ok; auto.
  - unfold rg_remove_box, reg_remove_box in *.
    destruct Hop as (Ho & Hd & Hrr). destruct (regular_streakable (S d) b Ho Hd Hrr) as [Hs Hff].
    rewrite (box_streaks_spec b d fuel) in * by (auto; cbn in Hf; lia). cbn [obind] in *.
    rewrite (valid_length d _ (proj1 Hr)) in *.
    destruct (rg_diff_ok d r (rg_insert_all (rg_new (S d))
      (map (fun c => mkStreak (removelast c) (last c 0) (last (b_origin b) 0 + last (b_dim b) 0)) (box_list (origins_box b)))) Hr)
      as (r' & E' & Hr' & E'').
    { apply rg_insert_all_ok; [apply rg_new_ok|]. now apply box_streaks_dims. }
    exists r'. split; [exact E'|]. split; auto. rewrite rg_insert_all_idx in E''. exact E''.
Qed.

Lemma rg_refresh_ok d r : rg_ok d r ->
  exists r', rg_refresh r = Some r' /\ rg_ok d r' /\ rg_idx r' = rg_idx r /\ rg_tainted r' = false /\
    determine_geometry (rg_idx r) = Some (rg_box r', rg_size r').
Proof.
  intros [Hv Hc]. unfold rg_refresh. destruct (rg_tainted r) eqn:E.
  - destruct (geometry_valid d _ Hv) as (b & cs & Eg & _). rewrite Eg. cbn [obind]. eexists. split; [reflexivity|].
    split; [|auto]. split; auto.
  - exists r. split; auto. split; [split; auto|]. auto.
Qed.

Lemma rg_expand_ok d r radii : rg_ok d r -> length radii = S d -> Forall (fun k => 0 <= k) radii ->
  exists r', rg_expand r radii = Some r' /\ rg_ok d r' /\ reg_expand_radii (rg_idx r) radii = Some (rg_idx r').
Proof.
  intros Hr Hl Hp. destruct (expand_valid d _ radii (proj1 Hr) Hl Hp) as (u & Eu & Vu & _).
  unfold rg_expand. rewrite Eu. cbn. eexists. split; [reflexivity|]. split; [now apply rg_built_ok|reflexivity].
Qed.
