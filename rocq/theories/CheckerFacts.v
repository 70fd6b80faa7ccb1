(** Facts on CheckerboardingPartition. *)
From Verif Require Import Base ListFacts RegionSpec RegionModel RegionRep RegionIterModel RegionStreaks
  CoordModel CoordSpec RegionOpsModel RegionOps CoordFacts RegionHistory RegionHist RegionReach PartitionSpec PartitionModel
  PartitionFacts StripingFacts.

(** ** Regions made of a single box *)

Lemma box_cells d fuel b (get : nat -> option indices) k :
  get k = reg_insert_box fuel (reg_empty (S d)) b ->
  length (b_origin b) = S d -> length (b_dim b) = S d -> rows_regular b ->
  prod (removelast (b_dim b)) <= Z.of_nat fuel ->
  (exists r, get k = Some r /\ reachable d r) /\ (forall c, cells d get k c <-> in_box b c).
Proof.
  intros Hg Ho Hd Hr Hf. destruct (regular_streakable (S d) b Ho Hd Hr) as [Hs Hff].
  destruct (insert_box_valid d (reg_empty (S d)) b fuel (rvalid_empty d) Ho Hd Hs) as (r & H1 & H2 & H3); [lia|].
  split.
  - exists r. split; [congruence|]. eapply reach_rop with (op := InsBox b) (fuel := fuel); [constructor|..].
    + cbn. auto.
    + cbn. lia.
    + exact H1.
  - intros c. unfold cells. rewrite Hg, H1. split.
    + intros (r' & [= <-] & Hl & Hc). apply H3 in Hc; auto. destruct Hc as [Hc|Hc]; auto. exfalso. eapply rin_empty; eauto.
    + intros Hc. assert (Hl : length c = S d) by (apply inside_length in Hc; cbn in Hc; lia).
      exists r. split; auto. split; auto. apply H3; auto.
Qed.

(** ** The node grid *)

Lemma primes_ge2 limit : forall fuel i primes, 3 <= i -> Forall (fun p => 2 <= p) primes ->
  Forall (fun p => 2 <= p) (prime_factors_loop fuel limit i primes).
Proof.
  induction fuel as [|fuel IH]; intros i primes Hi Hp; cbn [prime_factors_loop]; auto.
  destruct (i <=? limit); auto. apply IH; [lia|]. destruct (existsb _ _); auto. apply Forall_app. split; auto.
  constructor; auto. lia.
Qed.

Lemma divide_out_spec p : 2 <= p -> forall fuel n, 1 <= n -> n <= Z.of_nat fuel ->
  exists n' k, divide_out fuel n p = Some (n', k) /\ 1 <= n' <= n /\ n = n' * p ^ Z.of_nat k.
Proof.
  intros Hp. induction fuel as [|fuel IH]; intros n Hn Hf; [lia|]. cbn [divide_out].
  destruct (Z.eqb_spec (n mod p) 0) as [E|E].
  - assert (En : n = p * (n / p)) by (apply Z.div_exact; lia).
    assert (H1 : 1 <= n / p) by nia. assert (H2 : n / p < n) by nia.
    destruct (IH (n / p) H1 ltac:(lia)) as (n' & k & Hd & Hn' & Ek). rewrite Hd. cbn [obind].
    exists n', (S k). split; auto. split; [lia|]. rewrite Nat2Z.inj_succ, Z.pow_succ_r by lia.
    rewrite En, Ek at 1. ring.
  - exists n, O. split; auto. split; [lia|]. cbn. lia.
Qed.

Fixpoint prodf (fs : list (Z * nat)) : Z := match fs with [] => 1 | (p, k) :: fs' => p ^ Z.of_nat k * prodf fs' end.

Lemma factor_loop_spec primes : Forall (fun p => 2 <= p) primes -> forall n, 1 <= n ->
  exists n' fs, factor_loop n primes = Some (n', fs) /\ 1 <= n' /\ n = n' * prodf fs /\ Forall (fun pk => 1 <= fst pk) fs.
Proof.
  induction 1 as [|p primes Hp Hps IH]; intros n Hn; cbn [factor_loop].
  - exists n, []. repeat split; auto. cbn. lia.
  - destruct (divide_out_spec p Hp (Z.to_nat n) n Hn ltac:(lia)) as (n1 & k & Hd & Hn1 & E1). rewrite Hd. cbn [obind].
    destruct (IH n1 ltac:(lia)) as (n2 & fs & Hf & Hn2 & E2 & Hfs). rewrite Hf. cbn [obind].
    exists n2. eexists. split; [reflexivity|]. split; auto. destruct (Nat.eqb_spec k 0) as [->|Hk].
    + split; auto. rewrite E1, E2 at 1. cbn. ring.
    + split; [rewrite E1, E2 at 1; cbn [prodf]; ring|]. constructor; auto. cbn. lia.
Qed.

Lemma list_min_in l : l <> [] -> In (list_min l) l.
Proof.
  destruct l as [|x l]; [congruence|]. intros _. unfold list_min. cbn [hd].
  assert (H : forall m, fold_right Z.min m l = m \/ In (fold_right Z.min m l) l).
  { clear. intros m. induction l as [|y l IH]; cbn [fold_right]; auto. 
    destruct (Z.min_spec y (fold_right Z.min m l)) as [[_ ->]|[_ ->]]; [right; now left|]. destruct IH; auto. right. now right. }
  cbn [fold_right]. destruct (Z.min_spec x (fold_right Z.min x l)) as [[_ ->]|[_ ->]]; [now left|].
  destruct (H x) as [->|]; [now left|now right].
Qed.

Lemma mul_first_min_spec m p l : In m l -> 1 <= p -> allpos l ->
  prod (mul_first_min m l p) = prod l * p /\ allpos (mul_first_min m l p) /\ length (mul_first_min m l p) = length l.
Proof.
  intros Hin Hp Hl. induction l as [|x l IH]; [destruct Hin|]. apply Forall_cons_iff' in Hl. destruct Hl as [Hx Hl].
  cbn [mul_first_min]. destruct (Z.eqb_spec x m) as [->|Hne].
  - cbn [prod length]. split; [ring|]. split; auto. constructor; auto. nia.
  - destruct Hin as [->|Hin]; [congruence|]. destruct (IH Hin Hl) as (H1 & H2 & H3). cbn [prod length]. rewrite H1, H3.
    split; [ring|]. split; auto. now constructor.
Qed.

Lemma mul_min_spec p l : l <> [] -> 1 <= p -> allpos l ->
  prod (mul_min l p) = prod l * p /\ allpos (mul_min l p) /\ length (mul_min l p) = length l.
Proof. intros. apply mul_first_min_spec; auto. now apply list_min_in. Qed.

Lemma mul_min_times_spec p k : forall l, l <> [] -> 1 <= p -> allpos l ->
  prod (mul_min_times k l p) = prod l * p ^ Z.of_nat k /\ allpos (mul_min_times k l p) /\ length (mul_min_times k l p) = length l.
Proof.
  induction k as [|k IH]; intros l Hl Hp Ha; cbn [mul_min_times].
  - change (Z.of_nat 0) with 0. rewrite Z.pow_0_r, Z.mul_1_r. auto.
  - destruct (mul_min_spec p l Hl Hp Ha) as (H1 & H2 & H3).
    assert (Hne : mul_min l p <> []) by (destruct l; [congruence|]; destruct (mul_min (z :: l) p); discriminate).
    destruct (IH _ Hne Hp H2) as (H4 & H5 & H6). rewrite H4, H1, H6, H3.
    split; auto. rewrite Nat2Z.inj_succ, Z.pow_succ_r by lia. ring.
Qed.

Lemma factors_spec fs : Forall (fun pk => 1 <= fst pk) fs -> forall l, l <> [] -> allpos l ->
  let r := fold_left (fun l '(p, k) => mul_min_times k l p) fs l in
  prod r = prod l * prodf fs /\ allpos r /\ length r = length l.
Proof.
  induction 1 as [|[p k] fs Hp Hfs IH]; intros l Hl Ha r; subst r; cbn [fold_left prodf].
  - split; [ring|]. auto.
  - destruct (mul_min_times_spec p k l Hl Hp Ha) as (H1 & H2 & H3).
    assert (Hne : mul_min_times k l p <> []) by (destruct l; [congruence|]; destruct (mul_min_times k (z :: l) p); discriminate).
    destruct (IH _ Hne H2) as (H4 & H5 & H6). rewrite H4, H1, H6, H3. split; [ring|]. auto.
Qed.

Lemma insert_sorted_spec x l : allpos (x :: l) -> Sorted.LocallySorted Z.le l ->
  prod (insert_sorted x l) = x * prod l /\ allpos (insert_sorted x l) /\ length (insert_sorted x l) = S (length l) /\
  Sorted.LocallySorted Z.le (insert_sorted x l) /\ (forall y, y <= x -> Forall (Z.le y) l -> Forall (Z.le y) (insert_sorted x l)).
Proof.
  intros Ha Hs. induction l as [|z l IH]; cbn [insert_sorted].
  - repeat split; auto; constructor.
  - destruct (Z.leb_spec x z) as [L|L].
    + repeat split; auto. constructor; auto.
    + apply Forall_cons_iff' in Ha. destruct Ha as [Hx Ha]. apply Forall_cons_iff' in Ha. destruct Ha as [Hz Ha].
      assert (Hsl : Sorted.LocallySorted Z.le l) by (inversion Hs; auto; constructor).
      assert (Hxl : allpos (x :: l)) by (constructor; auto).
      destruct (IH Hxl Hsl) as (H1 & H2 & H3 & H4 & H5). cbn [prod length]. rewrite H1, H3.
      split; [ring|]. split; [constructor; auto|]. split; auto. split.
      * destruct l as [|u l]; cbn [insert_sorted] in *; [constructor; [constructor|lia]|].
        destruct (x <=? u); constructor; auto; [lia|]. inversion Hs; auto.
      * intros y Hy Hf. apply Forall_cons_iff' in Hf. destruct Hf. constructor; auto.
Qed.

Lemma sort_spec l : allpos l ->
  prod (sort_z l) = prod l /\ allpos (sort_z l) /\ length (sort_z l) = length l /\ Sorted.LocallySorted Z.le (sort_z l).
Proof.
  induction 1 as [|x l Hx Hl IH]; cbn [sort_z fold_right].
  - repeat split; constructor.
  - destruct IH as (H1 & H2 & H3 & H4). fold (sort_z l).
    destruct (insert_sorted_spec x (sort_z l) ltac:(constructor; auto) H4) as (E1 & E2 & E3 & E4 & _).
    cbn [prod length]. repeat split; auto; congruence.
Qed.

Lemma prod_rev l : prod (rev l) = prod l.
Proof. induction l as [|x l IH]; cbn [rev]; auto. rewrite prod_app1. cbn [prod]. lia. Qed.

Lemma node_grid_spec dim limit n : (1 <= dim)%nat -> 1 <= n ->
  exists grid, node_grid_dim dim limit n = Some grid /\ length grid = dim /\ allpos grid /\ prod grid = n /\
    Sorted.LocallySorted Z.le (rev grid).
Proof.
  intros Hdim Hn. unfold node_grid_dim.
  assert (Hp : Forall (fun p => 2 <= p) (rev (prime_factors limit))).
  { apply Forall_rev. apply primes_ge2; [lia|]. constructor; auto. lia. }
  destruct (factor_loop_spec _ Hp n Hn) as (n' & fs & Hf & Hn' & En & Hfs). rewrite Hf. cbn [obind].
  set (factors := if n' =? 1 then fs else (n', 1%nat) :: fs).
  assert (HF : Forall (fun pk => 1 <= fst pk) factors /\ prodf factors = n).
  { unfold factors. destruct (Z.eqb_spec n' 1) as [->|Hne].
    - split; auto. lia.
    - split; [constructor; auto|]. cbn [prodf]. change (Z.of_nat 1) with 1. rewrite Z.pow_1_r. lia. }
  destruct HF as [HF EF].
  assert (Hr : prod (repeat 1 dim) = 1 /\ allpos (repeat 1 dim)).
  { clear. induction dim as [|d [IH1 IH2]]; cbn [repeat prod]; split; try constructor; auto; lia. }
  destruct (factors_spec factors HF (repeat 1 dim)) as (H1 & H2 & H3); [destruct dim; [lia|discriminate]|apply Hr|].
  set (r := fold_left _ _ _) in *. destruct (sort_spec r H2) as (S1 & S2 & S3 & S4).
  exists (rev (sort_z r)). split; auto. split; [rewrite rev_length, S3, H3; apply repeat_length|].
  split; [apply Forall_rev, S2|]. rewrite prod_rev, rev_involutive. split; auto. rewrite S1, H1, EF. destruct Hr as [-> _]. lia.
Qed.

Lemma logical_coord_spec grid k : (2 <= length grid <= 3)%nat -> allpos grid -> 0 <= k < prod grid ->
  logical_coord grid k = Some (from_index grid k).
Proof.
  intros Hl Hp Hk. destruct grid as [|a [|b [|c [|]]]]; cbn [length] in Hl; try lia; cbn [logical_coord from_index prod] in *.
  - apply Forall_cons_iff' in Hp. destruct Hp as [Ha Hp]. apply Forall_cons_iff' in Hp. destruct Hp as [Hb _].
    rewrite !Z.mul_1_r, Z.div_1_r in *. rewrite Z.mod_small by lia. reflexivity.
  - apply Forall_cons_iff' in Hp. destruct Hp as [Ha Hp]. apply Forall_cons_iff' in Hp. destruct Hp as [Hb Hp].
    apply Forall_cons_iff' in Hp. destruct Hp as [Hc _]. rewrite !Z.mul_1_r, Z.div_1_r in *.
    rewrite (Z.mul_comm b c). f_equal. f_equal. f_equal. f_equal.
    rewrite Z.rem_mul_r by lia. rewrite (Z.mul_comm c), Z.mod_add by lia. rewrite Z.mod_mod by lia. reflexivity.
Qed.

(** ** Splitting the axes *)

Lemma interval_find (f : nat -> Z) x : forall n, f 0%nat <= x -> x < f n -> exists k, (k < n)%nat /\ f k <= x < f (S k).
Proof.
  induction n as [|n IH]; intros H0 Hn; [lia|]. destruct (Z_lt_le_dec x (f n)) as [L|L].
  - destruct (IH H0 L) as (k & Hk & Hki). exists k. split; [lia|auto].
  - exists n. split; [lia|lia].
Qed.

Lemma axis_cut_mono n g l l' : 0 <= n -> 0 < g -> l <= l' -> l * n / g <= l' * n / g.
Proof. intros. apply Z.div_le_mono; nia. Qed.

Lemma checker_find : forall dims grid origin c, length origin = length dims -> length grid = length dims ->
  Forall (fun n => 0 <= n) dims -> allpos grid ->
  inside origin dims c -> exists lc, in_grid grid lc /\ in_box (checker_box origin dims grid lc) c.
Proof.
  unfold in_box, checker_box. cbn [b_origin b_dim].
  induction dims as [|n dims IH]; intros [|g grid] [|o origin] [|x c] Ho Hg Hd Hp Hin; cbn in Ho, Hg, Hin; try lia; try tauto.
  - exists []. split; exact I.
  - apply Forall_cons_iff' in Hp. destruct Hp as [Hg0 Hp]. apply Forall_cons_iff' in Hd. destruct Hd as [Hn0 Hd].
    destruct Hin as [Hx Hin]. destruct (IH grid origin c ltac:(lia) ltac:(lia) Hd Hp Hin) as (lc & H1 & H2).
    destruct (interval_find (fun l => Z.of_nat l * n / g) (x - o) (Z.to_nat g)) as (k & Hk & Hkx).
    { change (0 * n / g <= x - o). rewrite Z.mul_0_l, Z.div_0_l; lia. }
    { cbn beta. rewrite Z2Nat.id, (Z.mul_comm g), Z.div_mul; lia. }
    cbn beta in Hkx. rewrite Nat2Z.inj_succ, <- Z.add_1_r in Hkx.
    exists (Z.of_nat k :: lc). split; [apply in_grid_cons; split; auto; lia|]. cbn [zmap3 zadd zsub inside]. split; auto. lia.
Qed.

Lemma checker_unique : forall dims grid origin c lc lc', 
  Forall (fun n => 0 <= n) dims -> allpos grid -> length grid = length dims ->
  in_grid grid lc -> in_grid grid lc' ->
  in_box (checker_box origin dims grid lc) c -> in_box (checker_box origin dims grid lc') c -> lc = lc'.
Proof.
  unfold in_box, checker_box. cbn [b_origin b_dim].
  induction dims as [|n dims IH]; intros [|g grid] origin c [|l lc] [|l' lc'] Hd Hp Hl H1 H2 H3 H4; try discriminate; auto;
    try (exfalso; unfold in_grid in H1, H2; cbn in H1, H2; tauto).
  apply Forall_cons_iff' in Hp. destruct Hp as [Hg0 Hp]. apply Forall_cons_iff' in Hd. destruct Hd as [Hn0 Hd].
  destruct origin as [|o origin]; [cbn in H3; tauto|].
  destruct c as [|x c]; [cbn in H3; tauto|]. cbn [zmap3 zadd zsub inside] in H3, H4.
  apply in_grid_cons in H1. destruct H1 as [L1 H1]. apply in_grid_cons in H2. destruct H2 as [L2 H2].
  destruct H3 as [X1 H3]. destruct H4 as [X2 H4].
  f_equal; [|apply (IH grid origin c lc lc'); auto].
  destruct (Z.lt_trichotomy l l') as [L|[L|L]]; auto; exfalso.
  - pose proof (axis_cut_mono n g (l + 1) l' Hn0 Hg0 ltac:(lia)). lia.
  - pose proof (axis_cut_mono n g (l' + 1) l Hn0 Hg0 ltac:(lia)). lia.
Qed.

Lemma checker_sub : forall dims grid origin c lc, length grid = length dims -> length origin = length dims ->
  Forall (fun n => 0 <= n) dims -> allpos grid -> in_grid grid lc ->
  in_box (checker_box origin dims grid lc) c -> inside origin dims c.
Proof.
  unfold in_box, checker_box. cbn [b_origin b_dim].
  induction dims as [|n dims IH]; intros [|g grid] [|o origin] c [|l lc] Hl Ho Hd Hp H1 H3; try discriminate; auto;
    try (exfalso; unfold in_grid in H1; cbn in H1; tauto).
  apply Forall_cons_iff' in Hp. destruct Hp as [Hg0 Hp]. apply Forall_cons_iff' in Hd. destruct Hd as [Hn0 Hd].
  destruct c as [|x c]; [cbn in H3; tauto|]. cbn [zmap3 zadd zsub inside] in *.
  apply in_grid_cons in H1. destruct H1 as [L1 H1]. destruct H3 as [X1 H3]. split.
  - pose proof (axis_cut_mono n g (l + 1) g Hn0 Hg0 ltac:(lia)) as M. rewrite (Z.mul_comm g), Z.div_mul in M by lia.
    assert (0 <= l * n / g) by (apply Z.div_pos; nia). lia.
  - apply (IH grid origin c lc); auto.
Qed.

Lemma checker_lengths dims grid origin lc : length grid = length dims -> length lc = length dims -> length origin = length dims ->
  length (b_origin (checker_box origin dims grid lc)) = length dims /\ length (b_dim (checker_box origin dims grid lc)) = length dims.
Proof.
  unfold checker_box. cbn [b_origin b_dim]. revert grid origin lc.
  induction dims as [|n dims IH]; intros [|g grid] [|o origin] [|l lc] H1 H2 H3; try discriminate; auto.
  cbn in *. destruct (IH grid origin lc) as [E1 E2]; auto.
Qed.

(** Extents are non-negative; positive if there are not more nodes than
    cells along the axis. *)
Lemma checker_extents dims grid origin lc : length grid = length dims -> length origin = length dims ->
  Forall (fun n => 0 <= n) dims -> allpos grid -> in_grid grid lc ->
  forall i, (i < length dims)%nat -> let e := nth i (b_dim (checker_box origin dims grid lc)) 0 in
    0 <= e <= nth i dims 0 /\ (nth i grid 0 <= nth i dims 0 -> 0 < e).
Proof.
  unfold checker_box. cbn [b_dim]. revert grid origin lc.
  induction dims as [|n dims IH]; intros [|g grid] [|o origin] [|l lc] H1 H2 Hd Hp Hg i Hi; try discriminate; try (cbn in Hi; lia).
  { unfold in_grid in Hg. cbn in Hg. tauto. }
  apply Forall_cons_iff' in Hp. destruct Hp as [Hg0 Hp]. apply Forall_cons_iff' in Hd. destruct Hd as [Hn0 Hd].
  apply in_grid_cons in Hg. destruct Hg as [L1 Hg].
  destruct i as [|i]; cbn [zmap3 zsub nth].
  - pose proof (axis_cut_mono n g l (l + 1) Hn0 Hg0 ltac:(lia)).
    pose proof (axis_cut_mono n g (l + 1) g Hn0 Hg0 ltac:(lia)) as M. rewrite (Z.mul_comm g), Z.div_mul in M by lia.
    assert (0 <= l * n / g) by (apply Z.div_pos; nia). split; [lia|]. intros Hgn.
    assert (l * n / g + 1 <= (l + 1) * n / g); [|lia].
    replace (l * n / g + 1) with ((l * n + 1 * g) / g) by (rewrite Z.div_add by lia; lia). apply Z.div_le_mono; nia.
  - cbn [length] in *. apply (IH grid origin lc); auto; lia.
Qed.
