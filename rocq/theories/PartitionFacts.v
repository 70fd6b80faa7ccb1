(** Facts shared by the partitions. *)
From Verif Require Import Base ListFacts RegionSpec RegionModel RegionRep RegionIterModel RegionStreaks
  CoordModel CoordSpec RegionOpsModel RegionOps CoordFacts RegionHistory RegionHist RegionReach PartitionSpec PartitionModel.
From Coq Require Import Sorted.

(** ** Prefix sums *)

Lemma zsum_app a b : zsum (a ++ b) = zsum a + zsum b.
Proof. induction a; cbn; lia. Qed.

Lemma zsum_nonneg l : Forall (fun x => 0 <= x) l -> 0 <= zsum l.
Proof. induction 1; cbn; lia. Qed.

Lemma Forall_firstn' {A} (P : A -> Prop) l : Forall P l -> forall k, Forall P (firstn k l).
Proof. induction 1; intros [|k]; cbn; auto. Qed.

Lemma zsum_firstn_S w k x : nth_error w k = Some x -> zsum (firstn (S k) w) = zsum (firstn k w) + x.
Proof.
  revert k. induction w as [|y w IH]; intros [|k] H; try discriminate; cbn in H.
  - injection H as ->. cbn. lia.
  - change (y + zsum (firstn (S k) w) = y + zsum (firstn k w) + x). rewrite (IH k H). lia.
Qed.

Lemma zsum_firstn_mono w : Forall (fun x => 0 <= x) w -> forall a b, (a <= b)%nat -> zsum (firstn a w) <= zsum (firstn b w).
Proof.
  induction 1 as [|x w Hx Hw IH]; intros a b Hab; [now rewrite !firstn_nil|].
  destruct a as [|a]; [cbn [firstn zsum]; apply zsum_nonneg; apply (Forall_firstn' _ (x :: w)); auto|].
  destruct b as [|b]; [lia|]. cbn [firstn zsum]. specialize (IH a b). lia.
Qed.

Lemma offsets_length w : forall o, length (start_offsets o w) = S (length w).
Proof. induction w; intros; cbn; auto. Qed.

Lemma offsets_nth w : forall o k, (k <= length w)%nat -> nth_error (start_offsets o w) k = Some (o + zsum (firstn k w)).
Proof.
  induction w as [|x w IH]; intros o [|k] H; cbn in *; try lia; try (f_equal; lia).
  rewrite IH by lia. f_equal. lia.
Qed.

Lemma node_range_spec o w k : (k < length w)%nat ->
  node_range o w k = Some (o + zsum (firstn k w), o + zsum (firstn (S k) w)).
Proof. intros H. unfold node_range. rewrite !offsets_nth by lia. reflexivity. Qed.

Lemma node_range_none o w k : (length w <= k)%nat -> node_range o w k = None.
Proof.
  intros H. unfold node_range. destruct (nth_error (start_offsets o w) k); auto. cbn [obind].
  destruct (nth_error (start_offsets o w) (S k)) eqn:E; auto. assert (S k < length (start_offsets o w))%nat by (apply nth_error_Some; congruence).
  rewrite offsets_length in *. lia.
Qed.

(** ** Regions from lists of coordinates *)

Lemma of_coords_app n l : forall r, rvalid n r -> Forall (fun c => length c = S n) l ->
  rvalid n (fold_left reg_insert_coord l r) /\
  forall c, length c = S n -> (rin (fold_left reg_insert_coord l r) c <-> rin r c \/ In c l).
Proof.
  induction l as [|a l IH]; intros r Hr Hl; cbn [fold_left].
  - split; auto. intros. cbn. tauto.
  - apply Forall_cons_iff' in Hl. destruct Hl as [Ha Hl].
    destruct (insert_valid n r (coord_streak a) Hr (coord_streak_pre n a Ha)) as [H1 H2].
    destruct (IH (reg_insert_coord r a) H1 Hl) as [Hv Hm]. split; auto.
    intros c Hc. rewrite Hm by auto. unfold reg_insert_coord. rewrite H2, (coord_streak_in n) by auto. cbn [In].
    assert (c = a <-> a = c) by (split; congruence). tauto.
Qed.

Lemma of_coords_reach n l : forall r, reachable n r -> Forall (fun c => length c = S n) l ->
  reachable n (fold_left reg_insert_coord l r).
Proof.
  induction l as [|a l IH]; intros r Hr Hl; auto. apply Forall_cons_iff' in Hl. destruct Hl as [Ha Hl].
  cbn [fold_left]. apply IH; auto. eapply reach_rop with (op := InsCoord a) (fuel := O); eauto; reflexivity.
Qed.

Lemma of_coords_spec n l : Forall (fun c => length c = S n) l ->
  reachable n (reg_of_coords (S n) l) /\
  forall c, length c = S n -> (reg_count (reg_of_coords (S n) l) c = Some true <-> In c l).
Proof.
  intros Hl. split; [apply of_coords_reach; auto; constructor|]. intros c Hc.
  destruct (of_coords_app n l (reg_empty (S n)) (rvalid_empty n) Hl) as [_ H]. unfold reg_of_coords.
  pose proof (rin_empty n c Hc). specialize (H c Hc). unfold rin in *. tauto.
Qed.

(** ** Slices of an enumeration *)

Definition slice {A} (T : list A) (a b : Z) : list A := firstn (Z.to_nat (b - a)) (skipn (Z.to_nat a) T).

Lemma slice_in {A} (T : list A) a b x : 0 <= a -> a <= b ->
  (In x (slice T a b) <-> exists i, a <= Z.of_nat i < b /\ nth_error T i = Some x).
Proof.
  intros Ha Hab. unfold slice. split.
  - intros H. apply In_nth_error in H. destruct H as (j & Hj).
    assert (Hlt : (j < Z.to_nat (b - a))%nat).
    { assert (j < length (firstn (Z.to_nat (b - a)) (skipn (Z.to_nat a) T)))%nat by (apply nth_error_Some; congruence).
      rewrite firstn_length in *. lia. }
    exists (Z.to_nat a + j)%nat. split; [lia|].
    revert Hj. set (n := Z.to_nat a). set (m := Z.to_nat (b - a)) in *. clearbody n m. revert n j m Hlt.
    induction T as [|t T IH]; intros n j m Hlt.
    + rewrite skipn_nil, firstn_nil. destruct j; discriminate.
    + destruct n as [|n].
      * cbn [skipn Nat.add]. clear IH. revert j m Hlt. generalize (t :: T). induction l as [|u l IH]; intros j m Hlt; destruct m; cbn; try lia; destruct j; cbn; try discriminate; auto.
        apply IH. lia.
      * cbn [skipn Nat.add nth_error]. apply IH. exact Hlt.
  - intros (i & Hi & Hn). apply nth_error_In with (n := (i - Z.to_nat a)%nat).
    assert (E : i = (Z.to_nat a + (i - Z.to_nat a))%nat) by lia. rewrite E in Hn. clear E.
    assert (Hlt : (i - Z.to_nat a < Z.to_nat (b - a))%nat) by lia. revert Hn Hlt.
    generalize (i - Z.to_nat a)%nat. generalize (Z.to_nat a). generalize (Z.to_nat (b - a)). clear.
    intros m n j. revert n j m. induction T as [|t T IH]; intros n j m Hn Hlt.
    + destruct (n + j)%nat; discriminate.
    + destruct n as [|n].
      * cbn [skipn Nat.add] in *. clear IH. revert j m Hn Hlt. generalize (t :: T). induction l as [|u l IH]; intros j m Hn Hlt; destruct m; try lia; destruct j; cbn in *; try discriminate; auto.
        apply IH; auto. lia.
      * cbn [skipn Nat.add nth_error] in *. apply IH; auto.
Qed.

Lemma slice_length {A} (T : list A) a b : 0 <= a -> a <= b -> b <= Z.of_nat (length T) -> length (slice T a b) = Z.to_nat (b - a).
Proof. intros. unfold slice. rewrite firstn_length, skipn_length. lia. Qed.

Lemma firstn_In' {A} (l : list A) x n : In x (firstn n l) -> In x l.
Proof. revert n. induction l as [|y l IH]; intros [|n] H; cbn in *; try tauto. destruct H; eauto. Qed.

Lemma skipn_In' {A} (l : list A) x n : In x (skipn n l) -> In x l.
Proof. revert n. induction l as [|y l IH]; intros [|n] H; cbn in *; try tauto. right. eauto. Qed.

Lemma NoDup_firstn' {A} (l : list A) : NoDup l -> forall n, NoDup (firstn n l).
Proof.
  induction 1 as [|x l Hx Hl IH]; intros [|n]; cbn; try constructor; auto. intros H. apply Hx.
  eapply firstn_In'; eauto.
Qed.

Lemma NoDup_skipn' {A} (l : list A) : NoDup l -> forall n, NoDup (skipn n l).
Proof. induction 1 as [|x l Hx Hl IH]; intros [|n]; cbn; auto; constructor; auto. Qed.

Lemma nodup_nth {A} (T : list A) i j x : NoDup T -> nth_error T i = Some x -> nth_error T j = Some x -> i = j.
Proof.
  intros Hn Hi Hj. rewrite NoDup_nth_error in Hn. apply Hn; [apply nth_error_Some|]; congruence.
Qed.

(** Regions made of consecutive slices of an enumeration without
    duplicates. *)
Lemma slices_partition d (T : list coord) o w (get : nat -> option indices) :
  NoDup T -> Forall (fun c => length c = S d) T -> Forall (fun x => 0 <= x) w -> 0 <= o ->
  (forall k, (k < length w)%nat ->
     get k = Some (reg_of_coords (S d) (slice T (o + zsum (firstn k w)) (o + zsum (firstn (S k) w))))) ->
  all_defined d (length w) get /\ disjoint d (length w) get /\
  (o + zsum w <= Z.of_nat (length T) -> forall k x, nth_error w k = Some x -> cell_count d get k (Z.to_nat x)) /\
  (forall k c, (k < length w)%nat -> cells d get k c -> In c T) /\
  (o = 0 -> zsum w = Z.of_nat (length T) -> exact_cover d (length w) get (fun c => In c T)).
Proof.
  intros Hnd Hlen Hw Ho Hget.
  assert (Hsl : forall a b, Forall (fun c => length c = S d) (slice T a b)).
  { intros a b. apply Forall_forall. intros c Hc. rewrite Forall_forall in Hlen. apply Hlen.
    unfold slice in Hc. apply firstn_In' in Hc. eapply skipn_In'; eauto. }
  assert (Hpos : forall k, 0 <= o + zsum (firstn k w)).
  { intros k. pose proof (zsum_nonneg _ (Forall_firstn' _ _ Hw k)). lia. }
  assert (Hmono : forall a b, (a <= b)%nat -> o + zsum (firstn a w) <= o + zsum (firstn b w)).
  { intros a b Hab. pose proof (zsum_firstn_mono w Hw a b Hab). lia. }
  assert (Hcells : forall k c, (k < length w)%nat -> (cells d get k c <->
     exists i, o + zsum (firstn k w) <= Z.of_nat i < o + zsum (firstn (S k) w) /\ nth_error T i = Some c)).
  { intros k c Hk. unfold cells. rewrite (Hget k Hk). rewrite <- slice_in by auto.
    destruct (of_coords_spec d _ (Hsl (o + zsum (firstn k w)) (o + zsum (firstn (S k) w)))) as [_ H].
    split; [intros (r & [= <-] & Hl & Hc); now apply H|].
    intros Hc. eexists. split; [reflexivity|]. assert (length c = S d).
    { specialize (Hsl (o + zsum (firstn k w)) (o + zsum (firstn (S k) w))). rewrite Forall_forall in Hsl. auto. }
    split; auto. now apply H. }
  assert (Hall : all_defined d (length w) get).
  { intros k Hk. rewrite (Hget k Hk). eexists. split; [reflexivity|]. apply of_coords_spec, Hsl. }
  assert (Hdis : disjoint d (length w) get).
  { intros k k' c Hk Hk' H1 H2. apply Hcells in H1, H2; auto. destruct H1 as (i & Hi & Ei), H2 as (j & Hj & Ej).
    assert (i = j) by (eapply nodup_nth; eauto). subst j.
    destruct (Nat.lt_trichotomy k k') as [L|[L|L]]; auto; exfalso.
    - pose proof (Hmono (S k) k' L). lia.
    - pose proof (Hmono (S k') k L). lia. }
  split; [exact Hall|]. split; [exact Hdis|]. split; [|split].
  - intros Hs k x Hx. assert (Hk : (k < length w)%nat) by (apply nth_error_Some; congruence).
    exists (slice T (o + zsum (firstn k w)) (o + zsum (firstn (S k) w))). split; [|split].
    + unfold slice. apply NoDup_firstn', NoDup_skipn', Hnd.
    + rewrite slice_length; auto.
      * rewrite (zsum_firstn_S w k x Hx). f_equal. lia.
      * pose proof (zsum_firstn_mono w Hw (S k) (length w) Hk). rewrite firstn_all in H. lia.
    + intros c. rewrite Hcells by auto. apply slice_in; auto.
  - intros k c Hk Hc. apply Hcells in Hc; auto. destruct Hc as (i & _ & Hi). eapply nth_error_In; eauto.
  - intros -> Hs. split; [exact Hall|]. split; [exact Hdis|]. intros c. split.
    + intros Hc. apply In_nth_error in Hc. destruct Hc as (i & Hi).
      assert (Hlt : (i < length T)%nat) by (apply nth_error_Some; congruence).
      (* the node whose range contains i *)
      assert (Hex : forall n, (n <= length w)%nat -> Z.of_nat i < zsum (firstn n w) ->
         exists k, (k < n)%nat /\ zsum (firstn k w) <= Z.of_nat i < zsum (firstn (S k) w)).
      { induction n as [|n IH]; intros Hn Hi'; [cbn in Hi'; lia|].
        destruct (Z_lt_le_dec (Z.of_nat i) (zsum (firstn n w))) as [L|L].
        - destruct (IH ltac:(lia) L) as (k & Hk & Hki). exists k. split; auto.
        - exists n. split; [lia|lia]. }
      destruct (Hex (length w) (le_n _)) as (k & Hk & Hki); [rewrite firstn_all; lia|].
      exists k. split; auto. apply Hcells; auto. exists i. split; auto.
    + intros (k & Hk & Hc). apply Hcells in Hc; auto. destruct Hc as (i & _ & Hi). eapply nth_error_In; eauto.
Qed.

(** Node [k]'s cells by position. *)
Lemma slices_cells d (T : list coord) o w (get : nat -> option indices) :
  Forall (fun c => length c = S d) T -> Forall (fun x => 0 <= x) w -> 0 <= o ->
  (forall k, (k < length w)%nat ->
     get k = Some (reg_of_coords (S d) (slice T (o + zsum (firstn k w)) (o + zsum (firstn (S k) w))))) ->
  forall k c, (k < length w)%nat -> (cells d get k c <->
     exists i, o + zsum (firstn k w) <= Z.of_nat i < o + zsum (firstn (S k) w) /\ nth_error T i = Some c).
Proof.
  intros Hlen Hw Ho Hget k c Hk.
  assert (Hsl : forall a b, Forall (fun c => length c = S d) (slice T a b)).
  { intros a b. apply Forall_forall. intros x Hc. rewrite Forall_forall in Hlen. apply Hlen.
    unfold slice in Hc. apply firstn_In' in Hc. eapply skipn_In'; eauto. }
  pose proof (zsum_nonneg _ (Forall_firstn' _ _ Hw k)). pose proof (zsum_firstn_mono w Hw k (S k) ltac:(lia)).
  unfold cells. rewrite (Hget k Hk). rewrite <- slice_in by lia.
  destruct (of_coords_spec d _ (Hsl (o + zsum (firstn k w)) (o + zsum (firstn (S k) w)))) as [_ Hm].
  split; [intros (r & [= <-] & Hl & Hc); now apply Hm|].
  intros Hc. eexists. split; [reflexivity|]. assert (length c = S d).
  { specialize (Hsl (o + zsum (firstn k w)) (o + zsum (firstn (S k) w))). rewrite Forall_forall in Hsl. auto. }
  split; auto. now apply Hm.
Qed.

Lemma sorted_nth_lt {A} (R : A -> A -> Prop) T : StronglySorted R T -> forall i j a b,
  (i < j)%nat -> nth_error T i = Some a -> nth_error T j = Some b -> R a b.
Proof.
  induction 1 as [|t T HT IH Hf]; intros i j a b Hij Hi Hj; [destruct i; discriminate|].
  destruct j as [|j]; [lia|]. cbn in Hj. destruct i as [|i]; cbn in Hi.
  - injection Hi as ->. rewrite Forall_forall in Hf. apply Hf. eapply nth_error_In; eauto.
  - apply (IH i j a b); auto. lia.
Qed.

(** Consecutive slices of a sorted enumeration are ordered like their
    nodes. *)
Lemma slices_ordered d (T : list coord) (R : coord -> coord -> Prop) o w (get : nat -> option indices) :
  StronglySorted R T ->
  Forall (fun c => length c = S d) T -> Forall (fun x => 0 <= x) w -> 0 <= o ->
  (forall k, (k < length w)%nat ->
     get k = Some (reg_of_coords (S d) (slice T (o + zsum (firstn k w)) (o + zsum (firstn (S k) w))))) ->
  forall k k' c c', (k < k')%nat -> (k' < length w)%nat -> cells d get k c -> cells d get k' c' -> R c c'.
Proof.
  intros Hs Hlen Hw Ho Hget k k' c c' Hk Hk' Hc Hc'.
  apply (slices_cells d T o w get Hlen Hw Ho Hget) in Hc, Hc'; try lia.
  destruct Hc as (i & Hi & Ei), Hc' as (j & Hj & Ej). eapply sorted_nth_lt with (i := i) (j := j); eauto.
  pose proof (zsum_firstn_mono w Hw (S k) k' ltac:(lia)). lia.
Qed.
