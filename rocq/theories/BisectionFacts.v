(** Facts on RecursiveBisectionPartition. *)
From Verif Require Import Base ListFacts RegionSpec RegionModel RegionRep RegionIterModel RegionFlat
  CoordModel CoordSpec RegionOpsModel RegionOps CoordFacts RegionHistory RegionHist RegionReach PartitionSpec PartitionModel
  PartitionFacts StripingFacts CheckerFacts.

(** The rounding is sane: the cut is within the box. *)
Definition sane_rounding (rnd : Z -> Z -> Z -> Z) : Prop :=
  forall num den n, 0 <= num <= den -> 0 < den -> 0 <= n -> 0 <= rnd num den n <= n.

Lemma round_exact_sane : sane_rounding round_exact.
Proof.
  intros num den n Hn Hd Hx. unfold round_exact. split.
  - apply Z.div_pos; nia.
  - enough ((2 * num * n + den) / (2 * den) < n + 1) by lia. apply Z.div_lt_upper_bound; nia.
Qed.

(** ** Splitting a box *)

Lemma set_nth_length i v : forall l, length (set_nth i v l) = length l.
Proof. induction i as [|i IH]; intros [|x l]; cbn; auto. Qed.

Lemma longest_dim_bound l : forall i best bv, (best < i)%nat -> (longest_dim i best bv l < i + length l)%nat.
Proof.
  induction l as [|x l IH]; intros i best bv H; cbn [longest_dim length]; [lia|].
  destruct (bv <? x); (eapply Nat.lt_le_trans; [apply IH; lia|lia]).
Qed.

Lemma split_axis_bound dimw dim : dim <> [] -> (split_axis dimw dim < length dim)%nat.
Proof. intros H. unfold split_axis. destruct dim; [congruence|]. cbn [length]. lia. Qed.

Lemma split_inside i off : forall org dim c, length org = length dim -> (i < length dim)%nat -> 0 <= off <= nth i dim 0 ->
  (inside org dim c <-> inside org (set_nth i off dim) c \/
     inside (set_nth i (nth i org 0 + off) org) (set_nth i (nth i dim 0 - off) dim) c) /\
  ~ (inside org (set_nth i off dim) c /\
     inside (set_nth i (nth i org 0 + off) org) (set_nth i (nth i dim 0 - off) dim) c).
Proof.
  induction i as [|i IH]; intros [|o org] [|n dim] [|x c] Hl Hi Ho; cbn [length] in *; try lia; cbn [nth set_nth inside] in *.
  - tauto.
  - split; [|lia]. split; [|intros [[? ?]|[? ?]]; split; auto; lia]. intros [Hx Hc].
    destruct (Z_lt_le_dec x (o + off)); [left|right]; split; auto; lia.
  - tauto.
  - destruct (IH org dim c) as [H1 H2]; auto; try lia. rewrite H1. tauto.
Qed.

Lemma set_nth_nonneg i v : forall l, Forall (fun n => 0 <= n) l -> 0 <= v -> Forall (fun n => 0 <= n) (set_nth i v l).
Proof.
  induction i as [|i IH]; intros [|x l] H Hv; cbn; auto; apply Forall_cons_iff' in H; destruct H; constructor; auto.
Qed.

Lemma nth_nonneg i l : Forall (fun n => 0 <= n) l -> 0 <= nth i l 0.
Proof. intros H. revert i. induction H; intros [|i]; cbn; auto; lia. Qed.

(** Componentwise at most. *)
Definition dims_le (a b : coord) : Prop := Forall2 Z.le a b.

Lemma dims_le_refl a : dims_le a a.
Proof. induction a; constructor; auto. lia. Qed.

Lemma dims_le_trans a b c : dims_le a b -> dims_le b c -> dims_le a c.
Proof.
  intros H. revert c. induction H; intros c Hc; inversion Hc; subst; constructor; [lia|auto]. now apply IHForall2.
Qed.

Lemma set_nth_le i v : forall l, v <= nth i l 0 -> dims_le (set_nth i v l) l.
Proof.
  induction i as [|i IH]; intros [|x l] H; cbn in *; try constructor; auto; try apply dims_le_refl; try lia.
  apply IH. auto.
Qed.

(** ** The cut *)

Definition increasing (offs : list Z) : Prop :=
  forall i j a b, (i < j)%nat -> nth_error offs i = Some a -> nth_error offs j = Some b -> a < b.

Lemma increasing_offsets w o : Forall (fun x => 0 < x) w -> increasing (start_offsets o w).
Proof.
  intros Hw i j a b Hij Hi Hj. assert (Hlj : (j < length (start_offsets o w))%nat) by (apply nth_error_Some; congruence).
  rewrite offsets_length in Hlj. rewrite offsets_nth in Hi, Hj by lia. injection Hi as <-. injection Hj as <-.
  assert (Hw' : Forall (fun x => 0 <= x) w) by (eapply Forall_impl; [|exact Hw]; cbn; intros; lia).
  destruct (nth_error w i) as [x|] eqn:Ex; [|apply nth_error_None in Ex; lia].
  pose proof (zsum_firstn_S w i x Ex). pose proof (zsum_firstn_mono w Hw' (S i) j Hij).
  assert (0 < x) by (rewrite Forall_forall in Hw; apply Hw; eapply nth_error_In; eauto). lia.
Qed.

Lemma count_while_spec {A} (f : A -> bool) l : let m := count_while f l in
  (m <= length l)%nat /\ (forall i x, (i < m)%nat -> nth_error l i = Some x -> f x = true) /\
  (forall x, nth_error l m = Some x -> f x = false).
Proof.
  induction l as [|y l IH]; cbn [count_while].
  - repeat split; auto; intros; [lia|discriminate].
  - destruct (f y) eqn:E.
    + destruct IH as (H1 & H2 & H3). cbn [length]. split; [lia|]. split.
      * intros [|i] x Hi Hx; cbn in Hx; [congruence|]. apply (H2 i x); auto. lia.
      * intros x Hx. apply H3. exact Hx.
    + cbn [length]. split; [lia|]. split; [intros; lia|]. cbn. intros x [= <-]. auto.
Qed.

Lemma lower_bound_spec offs lo hi x : (lo <= hi)%nat -> (hi < length offs)%nat ->
  let m := lower_bound_z offs lo hi x in
  (lo <= m <= hi)%nat /\ (forall i y, (lo <= i < m)%nat -> nth_error offs i = Some y -> y < x) /\
  (forall y, (m < hi)%nat -> nth_error offs m = Some y -> x <= y).
Proof.
  intros H1 H2. unfold lower_bound_z. set (l := firstn (hi - lo) (skipn lo offs)).
  assert (Hlen : length l = (hi - lo)%nat) by (unfold l; rewrite firstn_length, skipn_length; lia).
  assert (Hnth : forall i, (i < hi - lo)%nat -> nth_error l i = nth_error offs (lo + i)).
  { intros i Hi. unfold l. clear -Hi. revert i Hi. generalize (hi - lo)%nat. revert lo. induction offs as [|y offs IH]; intros [|lo] k i Hi.
    - rewrite firstn_nil. now destruct i.
    - cbn [skipn]. rewrite firstn_nil. now destruct i.
    - cbn [skipn Nat.add]. revert i Hi. generalize (y :: offs). clear. induction k as [|k IHk]; intros l [|i] Hi; try lia; destruct l; cbn; auto.
      apply IHk. lia.
    - cbn [skipn Nat.add nth_error]. apply IH. auto. }
  destruct (count_while_spec (fun y => y <? x) l) as (C1 & C2 & C3). set (m := count_while _ l) in *. cbn zeta.
  rewrite Hlen in C1. split; [lia|]. split.
  - intros i y Hi Hy. specialize (C2 (i - lo)%nat y). rewrite Hnth in C2 by lia. replace (lo + (i - lo))%nat with i in C2 by lia.
    specialize (C2 ltac:(lia) Hy). lia.
  - intros y Hm Hy. specialize (C3 y). rewrite Hnth in C3 by lia. specialize (C3 Hy). lia.
Qed.

(** With increasing offsets the range of nodes is cut into two non-empty
    parts. *)
Lemma approx_middle_spec offs lo hi : increasing offs -> (lo + 2 <= hi)%nat -> (hi < length offs)%nat ->
  exists m, approx_middle offs lo hi = Some m /\ (lo < m < hi)%nat.
Proof.
  intros Hinc Hlh Hhi. unfold approx_middle.
  destruct (nth_error offs lo) as [a|] eqn:Ea; [|apply nth_error_None in Ea; lia].
  destruct (nth_error offs hi) as [b|] eqn:Eb; [|apply nth_error_None in Eb; lia].
  cbn [obind]. set (half := (a + b) / 2).
  destruct (nth_error offs (S lo)) as [a1|] eqn:Ea1; [|apply nth_error_None in Ea1; lia].
  assert (a < a1) by (apply (Hinc lo (S lo)); auto).
  assert (a1 < b) by (apply (Hinc (S lo) hi); auto; lia).
  assert (Hh : 2 * half <= a + b <= 2 * half + 1) by (unfold half; lia). clearbody half.
  destruct (lower_bound_spec offs lo hi half ltac:(lia) Hhi) as (H1 & H2 & H3).
  set (m := lower_bound_z offs lo hi half) in *. cbn zeta in *.
  assert (Hlm : (lo < m)%nat).
  { destruct (Nat.eq_dec lo m) as [<-|]; [|lia]. specialize (H3 a ltac:(lia) Ea). lia. }
  destruct (nth_error offs m) as [v|] eqn:Ev; [|apply nth_error_None in Ev; lia]. cbn [obind].
  destruct (Z.eqb_spec v half) as [E|E].
  - exists m. split; auto. split; auto. destruct (Nat.eq_dec m hi) as [->|]; [|lia]. assert (v = b) by congruence. lia.
  - destruct m as [|p]; [lia|]. destruct (nth_error offs p) as [u|] eqn:Eu; [|apply nth_error_None in Eu; lia]. cbn [obind].
    eexists. split; [reflexivity|]. destruct (Z.ltb_spec (half - u) (v - half)) as [L|L].
    + split; [|lia]. destruct (Nat.eq_dec p lo) as [->|]; [|lia]. exfalso.
      assert (u = a) by congruence. subst u.
      destruct (Nat.eq_dec (S lo) hi) as [|Hne]; [lia|]. assert (v < b) by (apply (Hinc (S lo) hi); auto; lia). lia.
    + split; [lia|]. destruct (Nat.eq_dec (S p) hi) as [E1|]; [|lia]. exfalso. rewrite E1 in *.
      assert (v = b) by congruence. subst v. assert (a < u) by (apply (Hinc lo p); auto; lia). lia.
Qed.

(** ** The search *)

Section Search.
Variable rnd : Z -> Z -> Z -> Z.
Hypothesis Hrnd : sane_rounding rnd.
Variable dimw : coord.
Variable offs : list Z.
Hypothesis Hinc : increasing offs.

Definition good_box (d : nat) (b : box) : Prop :=
  length (b_origin b) = S d /\ length (b_dim b) = S d /\ Forall (fun n => 0 <= n) (b_dim b).

Lemma search_spec d : forall fuel lo hi b, (lo < hi)%nat -> (hi < length offs)%nat -> (hi - lo <= S fuel)%nat -> good_box d b ->
  (forall k, (lo <= k < hi)%nat -> exists bk, search_cuboid rnd fuel dimw offs lo hi k b = Some bk /\ good_box d bk /\
      dims_le (b_dim bk) (b_dim b)) /\
  (forall k k' bk bk' c, (lo <= k < hi)%nat -> (lo <= k' < hi)%nat ->
      search_cuboid rnd fuel dimw offs lo hi k b = Some bk -> search_cuboid rnd fuel dimw offs lo hi k' b = Some bk' ->
      in_box bk c -> in_box bk' c -> k = k') /\
  (forall c, in_box b c <-> exists k bk, (lo <= k < hi)%nat /\ search_cuboid rnd fuel dimw offs lo hi k b = Some bk /\ in_box bk c).
Proof.
  induction fuel as [|fuel IH]; intros lo hi b Hlh Hhi Hf Hb.
  - assert (E : (hi - lo =? 1)%nat = true) by lia. cbn [search_cuboid]. rewrite E. split; [|split].
    + intros k Hk. exists b. split; auto. split; auto. apply dims_le_refl.
    + intros k k' bk bk' c Hk Hk' _ _ _ _. lia.
    + intros c. split; [intros H; exists lo, b; repeat split; auto; lia|]. intros (k & bk & _ & [= <-] & H). exact H.
  - cbn [search_cuboid]. destruct (Nat.eqb_spec (hi - lo) 1) as [E|E].
    + split; [|split].
      * intros k Hk. exists b. split; auto. split; auto. apply dims_le_refl.
      * intros k k' bk bk' c Hk Hk' _ _ _ _. lia.
      * intros c. split; [intros H; exists lo, b; repeat split; auto; lia|]. intros (k & bk & _ & [= <-] & H). exact H.
    + destruct (approx_middle_spec offs lo hi Hinc ltac:(lia) Hhi) as (m & Hm & Hlm). rewrite Hm. cbn [obind].
      destruct (nth_error offs lo) as [vl|] eqn:El; [|apply nth_error_None in El; lia].
      destruct (nth_error offs m) as [vm|] eqn:Em; [|apply nth_error_None in Em; lia].
      destruct (nth_error offs hi) as [vh|] eqn:Eh; [|apply nth_error_None in Eh; lia]. cbn [obind].
      assert (vl < vm) by (apply (Hinc lo m); auto; lia). assert (vm < vh) by (apply (Hinc m hi); auto; lia).
      assert (E0 : vh - vl =? 0 = false) by lia. rewrite E0.
      destruct (split_box rnd dimw b (vm - vl) (vh - vl)) as [b0 b1] eqn:Es. unfold split_box in Es.
      set (ax := split_axis dimw (b_dim b)) in *. set (off := rnd _ _ _) in *. injection Es as <- <-.
      destruct Hb as (Ho & Hd & Hp).
      assert (Hax : (ax < length (b_dim b))%nat) by (apply split_axis_bound; destruct (b_dim b); discriminate).
      assert (Hoff : 0 <= off <= nth ax (b_dim b) 0) by (apply Hrnd; try lia; now apply nth_nonneg).
      match goal with |- context [search_cuboid rnd fuel dimw offs lo m _ ?x] => set (b0 := x) in * end.
      match goal with |- context [search_cuboid rnd fuel dimw offs m hi _ ?x] => set (b1 := x) in * end.
      assert (Hb0 : good_box d b0).
      { unfold good_box, b0. cbn [b_origin b_dim]. rewrite set_nth_length. repeat split; auto. apply set_nth_nonneg; auto. lia. }
      assert (Hb1 : good_box d b1).
      { unfold good_box, b1. cbn [b_origin b_dim]. rewrite !set_nth_length. repeat split; auto. apply set_nth_nonneg; auto. lia. }
      assert (HL0 : dims_le (b_dim b0) (b_dim b)) by (unfold b0; cbn [b_dim]; apply set_nth_le; lia).
      assert (HL1 : dims_le (b_dim b1) (b_dim b)) by (unfold b1; cbn [b_dim]; apply set_nth_le; lia).
      assert (Hin : forall c, (in_box b c <-> in_box b0 c \/ in_box b1 c) /\ ~ (in_box b0 c /\ in_box b1 c)).
      { intros c. unfold in_box, b0, b1. cbn [b_origin b_dim]. apply split_inside; auto. lia. }
      clearbody b0 b1.
      destruct (IH lo m b0 ltac:(lia) ltac:(lia) ltac:(lia) Hb0) as (A1 & A2 & A3).
      destruct (IH m hi b1 ltac:(lia) ltac:(lia) ltac:(lia) Hb1) as (B1 & B2 & B3).
      assert (Hcase : forall k, (lo <= k < hi)%nat -> exists vn, nth_error offs k = Some vn /\ (vn <? vm) = (k <? m)%nat).
      { intros k Hk. destruct (nth_error offs k) as [vn|] eqn:Ek; [|apply nth_error_None in Ek; lia]. exists vn. split; auto.
        destruct (Nat.ltb_spec k m).
        - assert (vn < vm) by (apply (Hinc k m); auto). lia.
        - destruct (Nat.eq_dec k m) as [->|]; [assert (vn = vm) by congruence; lia|].
          assert (vm < vn) by (apply (Hinc m k); auto; lia). lia. }
      assert (Heval : forall k, (lo <= k < hi)%nat ->
         obind (nth_error offs k) (fun vn => if vn <? vm then search_cuboid rnd fuel dimw offs lo m k b0 else search_cuboid rnd fuel dimw offs m hi k b1) =
         if (k <? m)%nat then search_cuboid rnd fuel dimw offs lo m k b0 else search_cuboid rnd fuel dimw offs m hi k b1).
      { intros k Hk. destruct (Hcase k Hk) as (vn & Ek & Ec). rewrite Ek. cbn [obind]. now rewrite Ec. }
      split; [|split].
      * intros k Hk. rewrite Heval by auto. destruct (Nat.ltb_spec k m).
        -- destruct (A1 k ltac:(lia)) as (bk & J1 & J2 & J3). exists bk. split; auto. split; auto. eapply dims_le_trans; eauto.
        -- destruct (B1 k ltac:(lia)) as (bk & J1 & J2 & J3). exists bk. split; auto. split; auto. eapply dims_le_trans; eauto.
      * intros k k' bk bk' c Hk Hk'. rewrite !Heval by auto. intros E1 E2 I1 I2.
        destruct (Nat.ltb_spec k m), (Nat.ltb_spec k' m).
        -- apply (A2 k k' bk bk' c); auto; lia.
        -- exfalso. apply (proj2 (Hin c)). split; [apply A3|apply B3].
           ++ exists k, bk. repeat split; auto; lia.
           ++ exists k', bk'. repeat split; auto; lia.
        -- exfalso. apply (proj2 (Hin c)). split; [apply A3|apply B3].
           ++ exists k', bk'. repeat split; auto; lia.
           ++ exists k, bk. repeat split; auto; lia.
        -- apply (B2 k k' bk bk' c); auto; lia.
      * intros c. rewrite (proj1 (Hin c)), A3, B3. split.
        -- intros [(k & bk & Hk & E1 & J1)|(k & bk & Hk & E1 & J1)]; exists k, bk; (split; [lia|]); rewrite Heval by lia;
             destruct (Nat.ltb_spec k m); try lia; auto.
        -- intros (k & bk & Hk & E1 & J1). rewrite Heval in E1 by auto. destruct (Nat.ltb_spec k m); [left|right]; exists k, bk; repeat split; auto; lia.
Qed.
End Search.
