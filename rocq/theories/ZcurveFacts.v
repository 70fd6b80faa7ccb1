(** The Z-curve cuts its squares properly. *)
From Verif Require Import Base ListFacts RegionSpec RegionModel RegionRep RegionIterModel
  CoordModel CoordSpec RegionOpsModel RegionOps CoordFacts RegionHistory RegionHist RegionReach PartitionSpec PartitionModel
  PartitionFacts StripingFacts CheckerFacts BisectionFacts SfcModel SfcFacts.

Definition good_z (D : nat) (sq : square) : Prop :=
  length (sq_org sq) = D /\ length (sq_dim sq) = D /\ Forall (fun n => 0 <= n) (sq_dim sq).

(** ** Trivial dimensions *)

Lemma prod_ge_sum dim : allpos dim -> csum dim - Z.of_nat (length dim) + 1 <= prod dim /\ 0 <= csum dim - Z.of_nat (length dim).
Proof.
  induction 1 as [|n dim Hn Hd [IH1 IH2]]; cbn [prod csum length]; [lia|].
  pose proof (prod_pos dim Hd). nia.
Qed.

Lemma all_ones dim : allpos dim -> prod dim = 1 -> Forall (fun n => n = 1) dim.
Proof.
  induction 1 as [|n dim Hn Hd IH]; cbn [prod]; intros H; [constructor|]. pose proof (prod_pos dim Hd). constructor; [nia|apply IH; nia].
Qed.

(** Either the first extent or all others are 1. *)
Lemma triv_cases n ms : allpos (n :: ms) -> prod (n :: ms) = csum (n :: ms) - Z.of_nat (length (n :: ms)) + 1 ->
  prod ms = csum ms - Z.of_nat (length ms) + 1 /\ (n = 1 \/ Forall (fun k => k = 1) ms).
Proof.
  intros Hp E. apply Forall_cons_iff' in Hp. destruct Hp as [Hn Hms]. destruct (prod_ge_sum ms Hms) as [H1 H2].
  cbn [prod csum length] in E. pose proof (prod_pos ms Hms).
  assert (E1 : prod ms = csum ms - Z.of_nat (length ms) + 1) by nia. split; auto.
  destruct (Z.eq_dec n 1) as [->|]; [now left|]. right. apply all_ones; auto. nia.
Qed.

Lemma inside_ones org : forall dim c, length org = length dim -> Forall (fun k => k = 1) dim -> (inside org dim c <-> c = org).
Proof.
  induction org as [|o org IH]; intros [|n dim] [|x c] Hl Hd; try discriminate; cbn [inside].
  - tauto.
  - split; [tauto|discriminate].
  - split; [tauto|discriminate].
  - apply Forall_cons_iff' in Hd. destruct Hd as [-> Hd]. rewrite IH by (auto; cbn in Hl; lia). split.
    + intros [H ->]. f_equal. lia.
    + intros [= -> ->]. split; auto. lia.
Qed.

Lemma prod_ones dim : Forall (fun k => k = 1) dim -> prod dim = 1.
Proof. induction 1; cbn [prod]; lia. Qed.

Lemma trivial_allpos dim : Forall (fun n => 0 <= n) dim -> 0 < prod dim -> allpos dim.
Proof.
  induction 1 as [|n dim Hn Hd IH]; cbn [prod]; intros H; [constructor|].
  assert (0 <= prod dim) by (clear -Hd; induction Hd; cbn [prod]; nia). constructor; [nia|]. apply IH. nia.
Qed.

Lemma z_line : forall dim org, dim <> [] -> length org = length dim -> allpos dim ->
  prod dim = csum dim - Z.of_nat (length dim) + 1 ->
  prod dim = nth (z_axis dim) dim 0 /\ (z_axis dim < length dim)%nat /\
  forall c, inside org dim c <-> exists k, 0 <= k < nth (z_axis dim) dim 0 /\ c = add_axis (z_axis dim) k org.
Proof.
  induction dim as [|n ms IH]; intros org Hne Hl Hp E; [congruence|].
  destruct org as [|o org]; [discriminate|]. cbn [length] in Hl.
  destruct (triv_cases n ms Hp E) as [E1 Hc]. apply Forall_cons_iff' in Hp. destruct Hp as [Hn Hms].
  destruct ms as [|m ms].
  - destruct org; [|discriminate]. cbn [z_axis prod nth length]. split; [lia|]. split; [lia|].
    intros [|x [|]]; cbn [inside].
    + split; [tauto|]. intros (k & _ & E'). discriminate.
    + unfold add_axis. cbn. split.
      * intros [H _]. exists (x - o). split; [lia|]. f_equal. lia.
      * intros (k & Hk & [= ->]). lia.
    + split; [tauto|]. intros (k & _ & E'). discriminate.
  - assert (Eax : z_axis (n :: m :: ms) = if 1 <? n then O else S (z_axis (m :: ms))) by reflexivity. rewrite Eax.
    destruct (Z.ltb_spec 1 n) as [L|L].
    + destruct Hc as [->|Hones]; [lia|]. cbn [nth length]. rewrite (prod_ones (m :: ms)) in *; auto. split; [change (n * prod (m :: ms) = n); rewrite (prod_ones (m :: ms)); auto; lia|].
      split; [lia|]. intros [|x c].
      * split; [intros []|]. intros (k & _ & E'). unfold add_axis in E'. discriminate.
      * change (inside (o :: org) (n :: m :: ms) (x :: c)) with (o <= x < o + n /\ inside org (m :: ms) c).
        rewrite inside_ones by (auto; lia). unfold add_axis. cbn [nth set_nth]. split.
        -- intros [H ->]. exists (x - o). split; [lia|]. f_equal. lia.
        -- intros (k & Hk & [= -> ->]). split; auto. lia.
    + assert (n = 1) by lia. subst n. destruct (IH org ltac:(discriminate) ltac:(lia) Hms E1) as (P1 & P2 & P3).
      cbn [nth]. split; [change (1 * prod (m :: ms) = nth (z_axis (m :: ms)) (m :: ms) 0); lia|]. split; [cbn [length] in *; lia|].
      intros [|x c].
      * split; [intros []|]. intros (k & _ & E'). unfold add_axis in E'. discriminate.
      * change (inside (o :: org) (1 :: m :: ms) (x :: c)) with (o <= x < o + 1 /\ inside org (m :: ms) c).
        rewrite P3. unfold add_axis. cbn [nth set_nth]. split.
        -- intros [H (k & Hk & ->)]. exists k. split; auto. f_equal. lia.
        -- intros (k & Hk & [= -> ->]). split; [lia|]. exists k. split; auto.
Qed.

(** ** Quadrants *)

Lemma z_quad_dim_length i dim : length (z_quad_dim i dim) = length dim.
Proof. induction dim; cbn; auto. Qed.

Lemma z_quad_org_length i dim : length (z_quad_org i dim) = length dim.
Proof. induction dim; cbn; auto. Qed.

Lemma z_quad_nonneg i dim : Forall (fun n => 0 <= n) dim -> Forall (fun n => 0 <= n) (z_quad_dim i dim).
Proof. induction 1; cbn; constructor; auto. destruct (Nat.testbit _ _); lia. Qed.

Lemma z_quad_le i dim : allpos dim -> 0 <= prod (z_quad_dim i dim) <= prod dim.
Proof.
  induction 1 as [|n dim Hn Hd IH]; cbn [z_quad_dim prod]; [lia|].
  assert (0 <= (if Nat.testbit i (length dim) then n - n / 2 else n / 2) <= n) by (destruct (Nat.testbit _ _); lia). nia.
Qed.

Lemma z_quad_less i dim : allpos dim -> Exists (fun n => 2 <= n) dim -> prod (z_quad_dim i dim) < prod dim.
Proof.
  induction 1 as [|n dim Hn Hd IH]; intros He; cbn [z_quad_dim prod]; [inversion He|].
  pose proof (z_quad_le i dim Hd). pose proof (prod_pos dim Hd).
  set (m := if Nat.testbit i (length dim) then n - n / 2 else n / 2).
  assert (Hm : 0 <= m <= n /\ (2 <= n -> m < n)) by (unfold m; destruct (Nat.testbit _ _); lia). clearbody m.
  inversion He as [? ? H2|? ? H2]; subst; [nia|]. specialize (IH H2). nia.
Qed.

Lemma nontriv_exists dim : allpos dim -> prod dim <> csum dim - Z.of_nat (length dim) + 1 -> Exists (fun n => 2 <= n) dim.
Proof.
  induction 1 as [|n dim Hn Hd IH]; cbn [prod csum length]; intros H; [lia|].
  destruct (Z_le_dec 2 n); [now left|]. right. apply IH. assert (n = 1) by lia. subst. lia.
Qed.

(** Bits of quadrant numbers. *)
Lemma testbit_low k i d : (d < k)%nat -> Nat.testbit (2 ^ k + i) d = Nat.testbit i d.
Proof.
  intros H. rewrite !Nat.testbit_eqb by lia.
  assert (E : (2 ^ k = 2 ^ (k - d - 1) * 2 * 2 ^ d)%nat).
  { replace (2 ^ (k - d - 1) * 2)%nat with (2 ^ S (k - d - 1))%nat by (rewrite Nat.pow_succ_r'; lia).
    rewrite <- Nat.pow_add_r. f_equal. lia. }
  rewrite E, Nat.add_comm, Nat.div_add by (apply Nat.pow_nonzero; lia). rewrite Nat.mod_add by lia. reflexivity.
Qed.

Lemma testbit_top_clear k i : (i < 2 ^ k)%nat -> Nat.testbit i k = false.
Proof.
  intros H. rewrite Nat.testbit_eqb by lia. rewrite Nat.div_small by auto. reflexivity.
Qed.

Lemma testbit_top_set k i : (i < 2 ^ k)%nat -> Nat.testbit (2 ^ k + i) k = true.
Proof.
  intros H. rewrite Nat.testbit_eqb by lia. replace (2 ^ k + i)%nat with (i + 1 * 2 ^ k)%nat by lia.
  rewrite Nat.div_add by (apply Nat.pow_nonzero; lia). rewrite Nat.div_small by auto. reflexivity.
Qed.

Lemma z_quad_dim_low k i dim : (length dim <= k)%nat -> z_quad_dim (2 ^ k + i) dim = z_quad_dim i dim.
Proof.
  induction dim as [|n dim IH]; intros H; auto. cbn [length] in H. cbn [z_quad_dim]. rewrite testbit_low by lia. rewrite IH by lia. reflexivity.
Qed.

Lemma z_quad_org_low k i dim : (length dim <= k)%nat -> z_quad_org (2 ^ k + i) dim = z_quad_org i dim.
Proof.
  induction dim as [|n dim IH]; intros H; auto. cbn [length] in H. cbn [z_quad_org]. rewrite testbit_low by lia. rewrite IH by lia. reflexivity.
Qed.

Lemma zsum_map_mul {A} (f : A -> Z) m l : zsum (map (fun i => m * f i) l) = m * zsum (map f l).
Proof. induction l; cbn [map zsum]; lia. Qed.

Lemma z_quad_sum dim : ksum (fun i => prod (z_quad_dim i dim)) (2 ^ length dim) = prod dim.
Proof.
  induction dim as [|n dim IH]; [reflexivity|]. cbn [length prod]. unfold ksum in *. rewrite Nat.pow_succ_r'.
  replace (2 * 2 ^ length dim)%nat with (2 ^ length dim + 2 ^ length dim)%nat by lia.
  rewrite seq_app, map_app, zsum_app. cbn [Nat.add].
  assert (E1 : map (fun i => prod (z_quad_dim i (n :: dim))) (seq 0 (2 ^ length dim)) =
               map (fun i => n / 2 * prod (z_quad_dim i dim)) (seq 0 (2 ^ length dim))).
  { apply map_ext_in. intros i Hi. apply in_seq in Hi. cbn [z_quad_dim prod]. rewrite testbit_top_clear by lia. reflexivity. }
  assert (E2 : map (fun i => prod (z_quad_dim i (n :: dim))) (seq (2 ^ length dim) (2 ^ length dim)) =
               map (fun i => (n - n / 2) * prod (z_quad_dim i dim)) (seq 0 (2 ^ length dim))).
  { replace (seq (2 ^ length dim) (2 ^ length dim)) with (map (fun i => 2 ^ length dim + i)%nat (seq 0 (2 ^ length dim))).
    - rewrite map_map. apply map_ext_in. intros i Hi. apply in_seq in Hi. cbn [z_quad_dim prod].
      rewrite testbit_top_set by lia. now rewrite z_quad_dim_low.
    - clear. generalize (2 ^ length dim)%nat. intros n. assert (H : forall m s, map (fun i => n + i)%nat (seq s m) = seq (n + s) m).
      { induction m as [|m IH]; intros s; cbn; auto. rewrite IH. f_equal. f_equal. lia. }
      rewrite H. now rewrite Nat.add_0_r. }
  rewrite E1, E2, !zsum_map_mul, IH. lia.
Qed.

(** The quadrant of a coordinate. *)
Fixpoint z_find (org dim c : coord) : nat :=
  match org, dim, c with
  | o :: org', n :: ms, x :: c' => ((if (o + n / 2 <=? x)%Z then 2 ^ length ms else 0) + z_find org' ms c')%nat
  | _, _, _ => O
  end.

Lemma z_find_bound : forall dim org c, (z_find org dim c < 2 ^ length dim)%nat.
Proof.
  induction dim as [|n dim IH]; intros [|o org] [|x c]; cbn [z_find length]; try (rewrite ?Nat.pow_succ_r'; pose proof (Nat.pow_nonzero 2 (length dim)); lia).
  - cbn. lia.
  - cbn. lia.
  - cbn. lia.
  - cbn. lia.
  - rewrite Nat.pow_succ_r'. specialize (IH org c). destruct (_ <=? _); lia.
Qed.

Lemma z_find_in : forall dim org c, length org = length dim -> inside org dim c ->
  inside (zadd (z_quad_org (z_find org dim c) dim) org) (z_quad_dim (z_find org dim c) dim) c.
Proof.
  induction dim as [|n dim IH]; intros [|o org] [|x c] Hl Hin; cbn in Hl; try lia; try (cbn in Hin; tauto); auto.
  destruct Hin as [Hx Hin]. cbn [z_find]. pose proof (z_find_bound dim org c). cbn [z_quad_org z_quad_dim zadd inside].
  destruct (Z.leb_spec (o + n / 2) x) as [L|L].
  - rewrite testbit_top_set by auto. rewrite z_quad_org_low, z_quad_dim_low by auto. split; [lia|]. apply IH; auto.
  - cbn [Nat.add]. rewrite testbit_top_clear by auto. split; [lia|]. apply IH; auto.
Qed.

Lemma z_quad_sub i : forall dim org c, Forall (fun n => 0 <= n) dim -> length org = length dim ->
  inside (zadd (z_quad_org i dim) org) (z_quad_dim i dim) c -> inside org dim c.
Proof.
  induction dim as [|n dim IH]; intros [|o org] [|x c] Hp Hl Hin; cbn in Hl; try lia; try (cbn in Hin; tauto); auto.
  apply Forall_cons_iff' in Hp. destruct Hp as [Hn Hp]. cbn [z_quad_org z_quad_dim zadd inside] in *. destruct Hin as [Hx Hin].
  split; [destruct (Nat.testbit _ _); lia|]. apply IH; auto.
Qed.

Lemma z_quad_unique i j : forall dim org c, length org = length dim ->
  inside (zadd (z_quad_org i dim) org) (z_quad_dim i dim) c -> inside (zadd (z_quad_org j dim) org) (z_quad_dim j dim) c ->
  forall d, (d < length dim)%nat -> Nat.testbit i d = Nat.testbit j d.
Proof.
  induction dim as [|n dim IH]; intros [|o org] [|x c] Hl H1 H2 d Hd; cbn in Hl, Hd; try lia; try (cbn in H1; tauto).
  cbn [z_quad_org z_quad_dim zadd inside] in *. destruct H1 as [X1 H1], H2 as [X2 H2].
  destruct (Nat.eq_dec d (length dim)) as [->|].
  - destruct (Nat.testbit i (length dim)), (Nat.testbit j (length dim)); auto; lia.
  - apply (IH org c); auto. lia.
Qed.

Lemma bits_eq n i j : (i < 2 ^ n)%nat -> (j < 2 ^ n)%nat -> (forall d, (d < n)%nat -> Nat.testbit i d = Nat.testbit j d) -> i = j.
Proof.
  intros Hi Hj H. apply Nat.bits_inj. intros d. destruct (Nat.lt_ge_cases d n) as [L|L]; auto.
  assert (Hp : (2 ^ n <= 2 ^ d)%nat) by (apply Nat.pow_le_mono_r; lia).
  rewrite !testbit_top_clear by lia. reflexivity.
Qed.

(** ** Accumulated sizes *)

Lemma accumulate_nth sizes : forall o i, (i < length sizes)%nat -> nth_error (accumulate o sizes) i = Some (o + zsum (firstn i sizes)).
Proof.
  induction sizes as [|s ss IH]; intros o [|i] Hi; cbn in *; try lia; [f_equal; lia|].
  rewrite IH by lia. f_equal. lia.
Qed.

Lemma accumulate_length sizes : forall o, length (accumulate o sizes) = length sizes.
Proof. induction sizes; intros; cbn; auto. Qed.

Lemma firstn_map {A B} (f : A -> B) n : forall l, firstn n (map f l) = map f (firstn n l).
Proof. induction n as [|n IH]; intros [|x l]; cbn; auto. now rewrite IH. Qed.

Lemma firstn_seq k : forall s n, (k <= n)%nat -> firstn k (seq s n) = seq s k.
Proof. induction k as [|k IH]; intros s n H; auto. destruct n; [lia|]. cbn [seq firstn]. rewrite IH by lia. reflexivity. Qed.

Lemma accu_ksum f n i : (i < n)%nat -> nth_error (accumulate 0 (map f (seq 0 n))) i = Some (ksum f i).
Proof.
  intros H. rewrite accumulate_nth by (rewrite map_length, seq_length; auto). f_equal. unfold ksum.
  rewrite firstn_map, firstn_seq by lia. lia.
Qed.

Lemma z_pick_spec (f : nat -> Z) n i pos : (forall k, (k < n)%nat -> 0 <= f k) -> (i < n)%nat ->
  ksum f i <= pos < ksum f (S i) -> z_pick (accumulate 0 (map f (seq 0 n))) pos = i.
Proof.
  intros Hf Hi Hp. unfold z_pick. set (l := accumulate _ _).
  destruct (count_while_spec (fun a => (a <=? pos)%Z) l) as (C1 & C2 & C3). set (m := count_while _ l) in *.
  assert (Hl : length l = n) by (unfold l; rewrite accumulate_length, map_length, seq_length; auto). rewrite Hl in C1.
  assert (Hn : forall k, (k < n)%nat -> nth_error l k = Some (ksum f k)) by (intros; now apply accu_ksum).
  assert (H1 : (i < m)%nat).
  { destruct (Nat.lt_ge_cases i m); auto. specialize (C3 (ksum f m) (Hn m ltac:(lia))).
    assert (ksum f m <= ksum f i) by (apply ksum_mono; [intros; apply Hf; lia|lia]). lia. }
  assert (H2 : (m <= S i)%nat).
  { destruct (Nat.lt_ge_cases (S i) m); [|lia]. specialize (C2 (S i) (ksum f (S i)) H (Hn (S i) ltac:(lia))). cbn beta in C2. lia. }
  lia.
Qed.

(** ** The curve *)

Theorem zcurve_ok D : (0 < D)%nat -> curve_ok D (zcurve D) (good_z D).
Proof.
  intros HD.
  assert (Hnt : forall sq, good_z D sq -> has_trivial (sq_dim sq) = false ->
     allpos (sq_dim sq) /\ Exists (fun n => 2 <= n) (sq_dim sq)).
  { intros sq (H1 & H2 & H3) Ht. unfold has_trivial in Ht. apply orb_false_elim in Ht. destruct Ht as [T1 T2].
    assert (allpos (sq_dim sq)).
    { apply trivial_allpos; auto. assert (0 <= prod (sq_dim sq)) by (clear -H3; induction H3; cbn [prod]; nia). lia. }
    split; auto. apply nontriv_exists; auto. lia. }
  constructor.
  - intros sq (H1 & H2 & _). auto.
  - intros sq (_ & _ & H). auto.
  - cbn. pose proof (Nat.pow_nonzero 2 D). lia.
  - intros sq (H1 & H2 & H3) Hv Ht. cbn [cv_axis zcurve]. unfold vol in *.
    pose proof (trivial_allpos _ H3 Hv) as Hp. unfold has_trivial in Ht. apply orb_prop in Ht.
    destruct (z_line (sq_dim sq) (sq_org sq)) as (P1 & P2 & P3); auto; try lia.
    + destruct (sq_dim sq); [cbn in H2; lia|discriminate].
    + split; auto. split; [lia|]. exact P3.
  - intros sq i (H1 & H2 & H3) Ht Hi. unfold good_z. cbn [cv_sub zcurve sq_org sq_dim].
    rewrite z_quad_dim_length. split; [|split; auto; now apply z_quad_nonneg].
    rewrite zadd_comm. clear -H1 H2. assert (Hl : length (z_quad_org i (sq_dim sq)) = D) by now rewrite z_quad_org_length.
    revert H1 Hl. generalize (sq_org sq), (z_quad_org i (sq_dim sq)). clear.
    intros a. revert D. induction a as [|x a IH]; intros D [|y b] <- Hl; cbn in *; try lia; auto.
  - intros sq i Hg Ht Hi. destruct (Hnt sq Hg Ht). unfold vol. cbn [cv_sub zcurve sq_dim]. now apply z_quad_less.
  - intros sq Hg Ht. unfold vol. cbn [cv_sub cv_nq zcurve sq_dim]. destruct Hg as (_ & <- & _). apply z_quad_sum.
  - intros sq Hg Ht. destruct (Hnt sq Hg Ht) as [Hp _]. unfold vol. cbn [cv_sub cv_nq zcurve sq_dim]. destruct Hg as (_ & <- & _).
    apply prod_pos. clear -Hp.
    assert (H : forall k, (length (sq_dim sq) <= k)%nat -> allpos (z_quad_dim (2 ^ k - 1) (sq_dim sq))); [|apply H; lia].
    intros k Hk. induction Hp as [|n dim Hn Hd IH]; cbn [z_quad_dim length] in *; constructor; [|apply IH; lia].
    assert (E : Nat.testbit (2 ^ k - 1) (length dim) = true).
    { rewrite Nat.sub_1_r, <- Nat.ones_equiv. apply Nat.ones_spec_low. lia. }
    rewrite E. lia.
  - intros sq i Hg Ht Hi. unfold vol. cbn [cv_accu cv_sub cv_nq zcurve sq_dim] in *. now apply accu_ksum.
  - intros sq i pos Hg Ht Hi Hp. unfold vol in *. cbn [cv_pick cv_accu cv_sub cv_nq zcurve sq_dim] in *.
    apply z_pick_spec; auto. intros k Hk. apply z_quad_le. apply Hnt; auto.
  - intros sq c Hg Ht. unfold in_sq. cbn [cv_sub cv_nq zcurve sq_dim sq_org]. destruct Hg as (H1 & H2 & H3). split.
    + intros Hc. exists (z_find (sq_org sq) (sq_dim sq) c). split; [rewrite <- H2; apply z_find_bound|]. apply z_find_in; auto. lia.
    + intros (i & Hi & Hc). apply z_quad_sub with i; auto. lia.
  - intros sq i j c Hg Ht Hi Hj H1 H2. unfold in_sq in *. cbn [cv_sub cv_nq zcurve sq_dim sq_org] in *. destruct Hg as (L1 & L2 & L3).
    apply (bits_eq D); auto. rewrite <- L2. apply (z_quad_unique i j (sq_dim sq) (sq_org sq) c); auto. lia.
Qed.
