(** Facts on the iterators of space-filling curves, for any curve which cuts
    its squares properly. *)
From Verif Require Import Base ListFacts RegionSpec RegionModel RegionRep RegionIterModel
  CoordModel CoordSpec RegionOpsModel RegionOps CoordFacts RegionHistory RegionHist RegionReach PartitionSpec PartitionModel
  PartitionFacts StripingFacts CheckerFacts BisectionFacts SfcModel.

From Coq Require Import FinFun.

Definition vol (sq : square) : Z := prod (sq_dim sq).
Definition in_sq (sq : square) (c : coord) : Prop := inside (sq_org sq) (sq_dim sq) c.

Definition ksum (f : nat -> Z) (n : nat) : Z := zsum (map f (seq 0 n)).

Lemma ksum_S f n : ksum f (S n) = ksum f n + f n.
Proof. unfold ksum. rewrite seq_S, map_app, zsum_app. cbn. lia. Qed.

Lemma ksum_mono f a b : (forall i, (i < b)%nat -> 0 <= f i) -> (a <= b)%nat -> ksum f a <= ksum f b.
Proof.
  induction b as [|b IH]; intros Hf Hab.
  - replace a with O by lia. lia.
  - destruct (Nat.eq_dec a (S b)) as [->|]; [lia|]. rewrite ksum_S. pose proof (Hf b ltac:(lia)). pose proof (IH ltac:(auto) ltac:(lia)). lia.
Qed.

(** What a curve has to provide. [good] is the invariant of its squares. *)
Record curve_ok (D : nat) (cv : curve) (good : square -> Prop) : Prop := {
  ok_len : forall sq, good sq -> length (sq_org sq) = D /\ length (sq_dim sq) = D;
  ok_nonneg : forall sq, good sq -> Forall (fun n => 0 <= n) (sq_dim sq);
  ok_nq : (0 < cv_nq cv)%nat;
  ok_line : forall sq, good sq -> 0 < vol sq -> has_trivial (sq_dim sq) = true ->
    let ax := cv_axis cv (sq_dim sq) in
    vol sq = nth ax (sq_dim sq) 0 /\ (ax < D)%nat /\
    forall c, in_sq sq c <-> exists k, 0 <= k < nth ax (sq_dim sq) 0 /\ c = add_axis ax k (sq_org sq);
  ok_good : forall sq i, good sq -> has_trivial (sq_dim sq) = false -> (i < cv_nq cv)%nat -> good (cv_sub cv sq i);
  ok_less : forall sq i, good sq -> has_trivial (sq_dim sq) = false -> (i < cv_nq cv)%nat -> vol (cv_sub cv sq i) < vol sq;
  ok_sum : forall sq, good sq -> has_trivial (sq_dim sq) = false -> ksum (fun i => vol (cv_sub cv sq i)) (cv_nq cv) = vol sq;
  ok_last : forall sq, good sq -> has_trivial (sq_dim sq) = false -> 0 < vol (cv_sub cv sq (cv_nq cv - 1));
  ok_accu : forall sq i, good sq -> has_trivial (sq_dim sq) = false -> (i < cv_nq cv)%nat ->
    nth_error (cv_accu cv sq) i = Some (ksum (fun j => vol (cv_sub cv sq j)) i);
  ok_pick : forall sq i pos, good sq -> has_trivial (sq_dim sq) = false -> (i < cv_nq cv)%nat ->
    ksum (fun j => vol (cv_sub cv sq j)) i <= pos < ksum (fun j => vol (cv_sub cv sq j)) (S i) ->
    cv_pick cv (cv_accu cv sq) pos = i;
  ok_cover : forall sq c, good sq -> has_trivial (sq_dim sq) = false ->
    (in_sq sq c <-> exists i, (i < cv_nq cv)%nat /\ in_sq (cv_sub cv sq i) c);
  ok_disj : forall sq i j c, good sq -> has_trivial (sq_dim sq) = false -> (i < cv_nq cv)%nat -> (j < cv_nq cv)%nat ->
    in_sq (cv_sub cv sq i) c -> in_sq (cv_sub cv sq j) c -> i = j
}.

(** The complete traversal of a square, by recursion. *)
Fixpoint trav (cv : curve) (fuel : nat) (sq : square) : list coord :=
  if vol sq <=? 0 then []
  else if has_trivial (sq_dim sq) then
    let ax := cv_axis cv (sq_dim sq) in
    map (fun k => add_axis ax (Z.of_nat k) (sq_org sq)) (seq 0 (Z.to_nat (nth ax (sq_dim sq) 0)))
  else match fuel with
       | O => []
       | S f => flat_map (fun i => trav cv f (cv_sub cv sq i)) (seq 0 (cv_nq cv))
       end.

Definition travel (cv : curve) (sq : square) : list coord := trav cv (Z.to_nat (vol sq)) sq.

Lemma flat_map_ext_in {A B} (f g : A -> list B) l : (forall x, In x l -> f x = g x) -> flat_map f l = flat_map g l.
Proof. induction l as [|x l IH]; intros H; cbn; auto. rewrite H by now left. rewrite IH; auto. intros; apply H; now right. Qed.

Section Curve.
Variable D : nat.
Variable cv : curve.
Variable good : square -> Prop.
Hypothesis ok : curve_ok D cv good.

Lemma vol_nonneg sq : good sq -> 0 <= vol sq.
Proof.
  intros H. apply (ok_nonneg _ _ _ ok) in H. unfold vol. induction H; cbn [prod]; [lia|nia].
Qed.

Lemma nontriv_pos sq : good sq -> has_trivial (sq_dim sq) = false -> 0 < vol sq.
Proof.
  intros H Ht. pose proof (vol_nonneg sq H). unfold has_trivial in Ht. apply orb_false_elim in Ht. destruct Ht as [Ht _].
  unfold vol in *. lia.
Qed.

Lemma trav_fuel : forall f f' sq, good sq -> vol sq <= Z.of_nat f -> vol sq <= Z.of_nat f' -> trav cv f sq = trav cv f' sq.
Proof.
  induction f as [|f IH]; intros f' sq Hg Hf Hf'.
  - destruct f'; cbn [trav]; replace (vol sq <=? 0) with true by lia; reflexivity.
  - destruct f' as [|f']; cbn [trav].
    + replace (vol sq <=? 0) with true by lia. reflexivity.
    + destruct (vol sq <=? 0); auto. destruct (has_trivial (sq_dim sq)) eqn:Ht; auto.
      apply flat_map_ext_in. intros i Hi. apply in_seq in Hi.
      pose proof (ok_less _ _ _ ok sq i Hg Ht ltac:(lia)). apply IH; [|lia..]. apply (ok_good _ _ _ ok); auto. lia.
Qed.

Lemma travel_fuel f sq : good sq -> vol sq <= Z.of_nat f -> trav cv f sq = travel cv sq.
Proof. intros. apply trav_fuel; auto. pose proof (vol_nonneg sq). lia. Qed.

Lemma travel_rec sq : good sq -> has_trivial (sq_dim sq) = false ->
  travel cv sq = flat_map (fun i => travel cv (cv_sub cv sq i)) (seq 0 (cv_nq cv)).
Proof.
  intros Hg Ht. pose proof (nontriv_pos sq Hg Ht) as Hv. unfold travel at 1.
  destruct (Z.to_nat (vol sq)) as [|f] eqn:E; [lia|]. cbn [trav]. replace (vol sq <=? 0) with false by lia. rewrite Ht.
  apply flat_map_ext_in. intros i Hi. apply in_seq in Hi. pose proof (ok_less _ _ _ ok sq i Hg Ht ltac:(lia)).
  apply travel_fuel; [|lia]. apply (ok_good _ _ _ ok); auto. lia.
Qed.

Lemma travel_triv sq : good sq -> 0 < vol sq -> has_trivial (sq_dim sq) = true ->
  travel cv sq = map (fun k => add_axis (cv_axis cv (sq_dim sq)) (Z.of_nat k) (sq_org sq)) (seq 0 (Z.to_nat (vol sq))).
Proof.
  intros Hg Hv Ht. unfold travel. destruct (ok_line _ _ _ ok sq Hg Hv Ht) as (E & _).
  destruct (Z.to_nat (vol sq)) as [|f] eqn:Ef; [lia|]. cbn [trav]. replace (vol sq <=? 0) with false by lia. rewrite Ht.
  rewrite <- E, Ef. reflexivity.
Qed.

Lemma travel_empty sq : vol sq <= 0 -> travel cv sq = [].
Proof. intros H. unfold travel. destruct (Z.to_nat (vol sq)); cbn [trav]; now replace (vol sq <=? 0) with true by lia. Qed.

(** Induction over squares. *)
Lemma square_ind (P : square -> Prop) :
  (forall sq, good sq -> vol sq = 0 -> P sq) ->
  (forall sq, good sq -> 0 < vol sq -> has_trivial (sq_dim sq) = true -> P sq) ->
  (forall sq, good sq -> has_trivial (sq_dim sq) = false ->
     (forall i, (i < cv_nq cv)%nat -> P (cv_sub cv sq i)) -> P sq) ->
  forall sq, good sq -> P sq.
Proof.
  intros H0 H1 H2. assert (H : forall n sq, good sq -> vol sq <= Z.of_nat n -> P sq).
  { induction n as [|n IH]; intros sq Hg Hn.
    - apply H0; auto. pose proof (vol_nonneg sq Hg). lia.
    - pose proof (vol_nonneg sq Hg). destruct (Z.eq_dec (vol sq) 0) as [|Hv]; [now apply H0|].
      destruct (has_trivial (sq_dim sq)) eqn:Ht; [apply H1; auto; lia|].
      apply H2; auto. intros i Hi. pose proof (ok_less _ _ _ ok sq i Hg Ht Hi). apply IH; [|lia]. now apply (ok_good _ _ _ ok). }
  intros sq Hg. apply (H (Z.to_nat (vol sq))); auto. pose proof (vol_nonneg sq Hg). lia.
Qed.

Lemma flat_map_length_sum {A B} (f : A -> list B) l : Z.of_nat (length (flat_map f l)) = zsum (map (fun x => Z.of_nat (length (f x))) l).
Proof. induction l as [|x l IH]; cbn [flat_map map zsum]; auto. rewrite app_length. lia. Qed.

Lemma travel_length sq : good sq -> Z.of_nat (length (travel cv sq)) = vol sq.
Proof.
  revert sq. apply square_ind.
  - intros sq Hg Hv. rewrite travel_empty by lia. cbn. lia.
  - intros sq Hg Hv Ht. rewrite travel_triv by auto. rewrite map_length, seq_length. lia.
  - intros sq Hg Ht IH. rewrite travel_rec by auto. rewrite flat_map_length_sum.
    rewrite <- (ok_sum _ _ _ ok sq Hg Ht). unfold ksum. f_equal. apply map_ext_in. intros i Hi. apply in_seq in Hi. apply IH. lia.
Qed.

Lemma travel_in sq : good sq -> forall c, In c (travel cv sq) <-> in_sq sq c.
Proof.
  revert sq. apply (square_ind (fun sq => forall c, In c (travel cv sq) <-> in_sq sq c)).
  - intros sq Hg Hv c. rewrite travel_empty by lia. split; [intros []|]. intros Hc. exfalso.
    assert (Hz : exists i, (i < length (sq_dim sq))%nat /\ nth i (sq_dim sq) 0 = 0).
    { clear Hc. apply (ok_nonneg _ _ _ ok) in Hg. unfold vol in Hv. induction Hg as [|n l Hn Hl IH]; cbn [prod] in Hv; [lia|].
      destruct (Z.eq_dec n 0) as [->|]; [exists O; cbn; split; auto; lia|]. destruct IH as (i & Hi & E); [nia|]. exists (S i). cbn. split; auto. lia. }
    destruct Hz as (i & Hi & E). unfold in_sq in Hc. clear -Hi E Hc. revert i c Hi E Hc. generalize (sq_org sq). generalize (sq_dim sq).
    induction c as [|n l IH]; intros [|o org] i [|x c'] Hi E Hc; cbn in *; try lia; try tauto.
    destruct i as [|i]; [lia|]. apply (IH org i c'); auto; [lia|tauto].
  - intros sq Hg Hv Ht c. rewrite travel_triv by auto. destruct (ok_line _ _ _ ok sq Hg Hv Ht) as (E & _ & Hl). rewrite Hl.
    rewrite in_map_iff. rewrite <- E. split.
    + intros (k & <- & Hk). apply in_seq in Hk. exists (Z.of_nat k). split; auto. lia.
    + intros (k & Hk & ->). exists (Z.to_nat k). split; [f_equal; lia|]. apply in_seq. lia.
  - intros sq Hg Ht IH c. rewrite travel_rec by auto. rewrite in_flat_map, (ok_cover _ _ _ ok sq c Hg Ht). split.
    + intros (i & Hi & Hc). apply in_seq in Hi. exists i. split; [lia|]. apply IH; auto. lia.
    + intros (i & Hi & Hc). exists i. split; [apply in_seq; lia|]. apply IH; auto.
Qed.

Lemma nodup_app {A} (l1 l2 : list A) : NoDup l1 -> NoDup l2 -> (forall x, In x l1 -> ~ In x l2) -> NoDup (l1 ++ l2).
Proof.
  induction 1 as [|x l Hx Hl IH]; intros H2 Hd; cbn; auto. constructor.
  - rewrite in_app_iff. intros [H|H]; [auto|]. apply (Hd x); [now left|auto].
  - apply IH; auto. intros y Hy. apply Hd. now right.
Qed.

Lemma nodup_flat_map {A B} (f : A -> list B) l : NoDup l -> (forall x, In x l -> NoDup (f x)) ->
  (forall x y z, In x l -> In y l -> In z (f x) -> In z (f y) -> x = y) -> NoDup (flat_map f l).
Proof.
  induction 1 as [|x l Hx Hl IH]; intros Hn Hd; cbn; [constructor|]. apply nodup_app.
  - apply Hn. now left.
  - apply IH; [intros; apply Hn; now right|]. intros; eapply Hd; eauto; now right.
  - intros z Hz Hz'. apply in_flat_map in Hz'. destruct Hz' as (y & Hy & Hzy).
    assert (x = y) by (eapply Hd; eauto; [now left|now right]). subst. auto.
Qed.

Lemma add_axis_inj i a b c : (i < length c)%nat -> add_axis i a c = add_axis i b c -> a = b.
Proof.
  unfold add_axis. revert i. induction c as [|x c IH]; intros [|i] Hi E; cbn in *; try lia; injection E as E; auto; [lia|].
  apply (IH i); auto. lia.
Qed.

Lemma travel_nodup sq : good sq -> NoDup (travel cv sq).
Proof.
  revert sq. apply square_ind.
  - intros sq Hg Hv. rewrite travel_empty by lia. constructor.
  - intros sq Hg Hv Ht. rewrite travel_triv by auto. destruct (ok_line _ _ _ ok sq Hg Hv Ht) as (_ & Hax & _).
    apply Injective_map_NoDup; [|apply seq_NoDup]. intros a b E. apply add_axis_inj in E; [lia|].
    destruct (ok_len _ _ _ ok sq Hg). lia.
  - intros sq Hg Ht IH. rewrite travel_rec by auto. apply nodup_flat_map; [apply seq_NoDup|..].
    + intros i Hi. apply in_seq in Hi. apply IH. lia.
    + intros i j c Hi Hj H1 H2. apply in_seq in Hi, Hj.
      apply travel_in in H1; [|apply (ok_good _ _ _ ok); auto; lia]. apply travel_in in H2; [|apply (ok_good _ _ _ ok); auto; lia].
      apply (ok_disj _ _ _ ok sq i j c); auto; lia.
Qed.

(** ** The iterator *)

(** The cache holds the traversals. *)
Hypothesis cache_ok : forall sq, good sq -> has_trivial (sq_dim sq) = false -> cv_cached cv (sq_dim sq) = true ->
  map (zadd (sq_org sq)) (cv_cache cv (sq_dim sq) (sq_form sq)) = travel cv sq.

Notation sums sq := (ksum (fun j => vol (cv_sub cv sq j))).

Lemma sums_mono sq a b : good sq -> has_trivial (sq_dim sq) = false -> (a <= b <= cv_nq cv)%nat -> sums sq a <= sums sq b.
Proof.
  intros Hg Ht H. apply ksum_mono; [|lia]. intros i Hi. apply vol_nonneg. apply (ok_good _ _ _ ok); auto. lia.
Qed.

Lemma sums_find sq p : good sq -> has_trivial (sq_dim sq) = false -> 0 <= p < vol sq ->
  exists i, (i < cv_nq cv)%nat /\ sums sq i <= p < sums sq (S i).
Proof.
  intros Hg Ht Hp. apply (interval_find (fun i => sums sq i) p (cv_nq cv)).
  - cbn. lia.
  - rewrite (ok_sum _ _ _ ok sq Hg Ht). lia.
Qed.

(** One step down. *)
Lemma dig_step f sq q i off stk : good sq -> has_trivial (sq_dim sq) = false -> cv_cached cv (sq_dim sq) = false ->
  (q < cv_nq cv)%nat -> (i < cv_nq cv)%nat -> 0 <= off ->
  sums sq i <= off + sums sq q < sums sq (S i) ->
  dig_down cv (S f) off ((sq, q) :: stk) =
  dig_down cv f (off + sums sq q - sums sq i) ((cv_sub cv sq i, 0%nat) :: (sq, i) :: stk).
Proof.
  intros Hg Ht Hc Hq Hi Ho Hs. cbn [dig_down].
  pose proof (sums_mono sq (S i) (cv_nq cv) Hg Ht ltac:(lia)) as Hm. rewrite (ok_sum _ _ _ ok sq Hg Ht) in Hm.
  pose proof (sums_mono sq 0 q Hg Ht ltac:(lia)) as Hm0. change (sums sq 0) with 0 in Hm0.
  fold (vol sq). replace (vol sq <=? off) with false by lia. rewrite Ht, Hc.
  rewrite (ok_accu _ _ _ ok sq q Hg Ht Hq). cbn [obind]. rewrite (ok_pick _ _ _ ok sq i _ Hg Ht Hi Hs).
  rewrite (ok_accu _ _ _ ok sq i Hg Ht Hi). reflexivity.
Qed.

Lemma dig_fuel : forall f f' off sq q stk, good sq -> (q < cv_nq cv)%nat -> 0 <= off -> 
  (has_trivial (sq_dim sq) = false -> off + sums sq q < vol sq) ->
  vol sq <= Z.of_nat f -> vol sq <= Z.of_nat f' ->
  dig_down cv f off ((sq, q) :: stk) = dig_down cv f' off ((sq, q) :: stk).
Proof.
  induction f as [|f IH]; intros f' off sq q stk Hg Hq Ho Hoff Hf Hf'.
  - destruct f'; cbn [dig_down]; fold (vol sq); replace (vol sq <=? off) with true by lia; reflexivity.
  - destruct f' as [|f']; [cbn [dig_down]; fold (vol sq); replace (vol sq <=? off) with true by lia; reflexivity|].
    destruct (has_trivial (sq_dim sq)) eqn:Ht; [cbn [dig_down]; rewrite Ht; reflexivity|].
    destruct (cv_cached cv (sq_dim sq)) eqn:Hc; [cbn [dig_down]; rewrite Ht, Hc; reflexivity|].
    specialize (Hoff eq_refl). pose proof (sums_mono sq 0 q Hg Ht ltac:(lia)) as Hm0. change (sums sq 0) with 0 in Hm0.
    destruct (sums_find sq (off + sums sq q) Hg Ht ltac:(lia)) as (i & Hi & Hs).
    rewrite !(dig_step _ sq q i off stk) by auto. pose proof (ok_less _ _ _ ok sq i Hg Ht Hi).
    assert (Hg' : good (cv_sub cv sq i)) by now apply (ok_good _ _ _ ok).
    rewrite ksum_S in Hs.
    apply IH; auto; try lia; try apply (ok_nq _ _ _ ok). intros _. change (ksum _ 0) with 0. lia.
Qed.

Lemma dig_quadrant f sq q stk : good sq -> has_trivial (sq_dim sq) = false -> cv_cached cv (sq_dim sq) = false ->
  (q < cv_nq cv)%nat -> vol sq <= Z.of_nat f ->
  dig_down cv f 0 ((sq, q) :: stk) = dig_down cv f (sums sq q) ((sq, 0%nat) :: stk).
Proof.
  intros Hg Ht Hc Hq Hf. pose proof (nontriv_pos sq Hg Ht). destruct f as [|f]; [lia|].
  assert (Hlt : sums sq q < vol sq).
  { pose proof (ok_last _ _ _ ok sq Hg Ht) as Hl. pose proof (sums_mono sq q (cv_nq cv - 1) Hg Ht ltac:(lia)) as Hm.
    pose proof (ok_sum _ _ _ ok sq Hg Ht) as Hs. replace (cv_nq cv) with (S (cv_nq cv - 1)) in Hs at 1 by lia. rewrite ksum_S in Hs. lia. }
  pose proof (sums_mono sq 0 q Hg Ht ltac:(lia)) as Hm0. change (sums sq 0) with 0 in Hm0.
  destruct (sums_find sq (sums sq q) Hg Ht ltac:(lia)) as (i & Hi & Hs).
  rewrite (dig_step f sq q i 0 stk), (dig_step f sq 0 i (sums sq q) stk); auto; try lia.
  all: change (sums sq 0) with 0; try lia. f_equal. lia.
Qed.

(** Reaching position [p] of a square and stepping on. *)
Lemma dig_spec sq : good sq -> forall fuel origin p stk, vol sq <= Z.of_nat fuel -> 0 <= p < vol sq ->
  exists it, dig_down cv fuel p ((sq, 0%nat) :: stk) = Some it /\
    nth_error (travel cv sq) (Z.to_nat p) = Some (sfc_deref it) /\
    (exists c sl st, it = SfcAt c sl st) /\
    sfc_next cv fuel origin it =
      if p + 1 <? vol sq then dig_down cv fuel (p + 1) ((sq, 0%nat) :: stk) else dig_up_down cv fuel origin stk.
Proof.
  intros Hg0. revert sq Hg0. apply (square_ind (fun sq => forall fuel origin p stk, vol sq <= Z.of_nat fuel -> 0 <= p < vol sq ->
  exists it, dig_down cv fuel p ((sq, 0%nat) :: stk) = Some it /\
    nth_error (travel cv sq) (Z.to_nat p) = Some (sfc_deref it) /\
    (exists c sl st, it = SfcAt c sl st) /\
    sfc_next cv fuel origin it =
      if p + 1 <? vol sq then dig_down cv fuel (p + 1) ((sq, 0%nat) :: stk) else dig_up_down cv fuel origin stk)).
  - intros. lia.
  - intros sq Hg Hv Ht fuel origin p stk Hf Hp.
    assert (E : forall p', p' < vol sq -> dig_down cv fuel p' ((sq, 0%nat) :: stk) =
      Some (SfcAt (add_axis (cv_axis cv (sq_dim sq)) p' (sq_org sq)) (Trivial (cv_axis cv (sq_dim sq)) (nth (cv_axis cv (sq_dim sq)) (sq_dim sq) 0 - p')) stk)).
    { intros p' Hp'. destruct fuel; cbn [dig_down]; fold (vol sq); replace (vol sq <=? p') with false by lia; rewrite Ht; reflexivity. }
    destruct (ok_line _ _ _ ok sq Hg Hv Ht) as (Ev & Hax & _). rewrite <- Ev in E.
    rewrite E by lia. eexists. split; [reflexivity|]. split; [|split; [eauto|]].
    + rewrite travel_triv by auto. cbn [sfc_deref].
      erewrite map_nth_error; [|rewrite nth_error_nth' with (d := O); [rewrite seq_nth by lia; reflexivity|rewrite seq_length; lia]].
      cbn [Nat.add]. rewrite Z2Nat.id by lia. reflexivity.
    + cbn [sfc_next]. destruct (Z.ltb_spec 0 (vol sq - p - 1)), (Z.ltb_spec (p + 1) (vol sq)); try lia; auto.
      rewrite E by lia. f_equal. f_equal; [|f_equal; lia]. unfold add_axis.
      assert (Hl : (cv_axis cv (sq_dim sq) < length (sq_org sq))%nat) by (destruct (ok_len _ _ _ ok sq Hg); lia).
      revert Hl. generalize (cv_axis cv (sq_dim sq)), (sq_org sq). clear. induction n as [|n IH]; intros [|x c] Hl; cbn in *; try lia.
      * f_equal. lia.
      * f_equal. apply IH. lia.
  - intros sq Hg Ht IH fuel origin p stk Hf Hp. destruct (cv_cached cv (sq_dim sq)) eqn:Hc.
    + pose proof (cache_ok sq Hg Ht Hc) as Hca. set (L := cv_cache cv (sq_dim sq) (sq_form sq)) in *.
      assert (HL : Z.of_nat (length L) = vol sq) by (rewrite <- (travel_length sq Hg), <- Hca, map_length; reflexivity).
      assert (E : forall p', p' < vol sq -> dig_down cv fuel p' ((sq, 0%nat) :: stk) =
        match skipn (Z.to_nat p') L with [] => None | c :: rest => Some (SfcAt (zadd (sq_org sq) c) (Cached (sq_org sq) (c :: rest)) stk) end).
      { intros p' Hp'. destruct fuel; cbn [dig_down]; fold (vol sq); replace (vol sq <=? p') with false by lia; rewrite Ht, Hc; reflexivity. }
      assert (Hsk : forall k, (k < length L)%nat -> exists c, nth_error L k = Some c /\ skipn k L = c :: skipn (S k) L).
      { clear. induction L as [|x L IH]; intros k Hk; cbn [length] in Hk; [lia|]. destruct k as [|k]; [exists x; auto|].
        destruct (IH k ltac:(lia)) as (c & H1 & H2). exists c. split; auto. }
      destruct (Hsk (Z.to_nat p) ltac:(lia)) as (c & Hn & Es). rewrite E by lia. rewrite Es. eexists. split; [reflexivity|].
      split; [|split; [eauto|]].
      * rewrite <- Hca. cbn [sfc_deref]. now apply map_nth_error.
      * cbn [sfc_next tl]. destruct (Z.ltb_spec (p + 1) (vol sq)).
        -- rewrite E by lia. replace (Z.to_nat (p + 1)) with (S (Z.to_nat p)) by lia.
           destruct (Hsk (S (Z.to_nat p)) ltac:(lia)) as (c' & Hn' & Es'). rewrite Es'. reflexivity.
        -- rewrite skipn_all2 by lia. reflexivity.
    + destruct (sums_find sq p Hg Ht Hp) as (i & Hi & Hs). pose proof Hs as Hs'. rewrite ksum_S in Hs'.
      destruct fuel as [|f]; [lia|]. pose proof (ok_less _ _ _ ok sq i Hg Ht Hi) as Hless.
      assert (Hg' : good (cv_sub cv sq i)) by now apply (ok_good _ _ _ ok).
      assert (Hnq := ok_nq _ _ _ ok).
      assert (E : forall p', sums sq i <= p' < sums sq (S i) -> dig_down cv (S f) p' ((sq, 0%nat) :: stk) =
         dig_down cv (S f) (p' - sums sq i) ((cv_sub cv sq i, 0%nat) :: (sq, i) :: stk)).
      { intros p' Hp'. pose proof (sums_mono sq 0 i Hg Ht ltac:(lia)) as Hm0. change (sums sq 0) with 0 in Hm0.
        rewrite (dig_step f sq 0 i p' stk); auto; try lia; change (sums sq 0) with 0; try lia.
        rewrite Z.add_0_r. rewrite ksum_S in Hp'. apply dig_fuel; auto; try lia. intros _. change (ksum _ 0) with 0. lia. }
      destruct (IH i Hi (S f) origin (p - sums sq i) ((sq, i) :: stk) ltac:(lia) ltac:(lia)) as (it & H1 & H2 & H3 & H4).
      exists it. rewrite E by auto. split; [exact H1|]. split; [|split; [exact H3|]].
      * rewrite travel_rec by auto.
        (* position p of the concatenation is position p - sums i of part i *)
        assert (Hcat : forall n j, (i < n)%nat -> (n <= cv_nq cv)%nat -> (j < length (travel cv (cv_sub cv sq i)))%nat ->
          nth_error (flat_map (fun i => travel cv (cv_sub cv sq i)) (seq 0 n)) (Z.to_nat (sums sq i) + j) =
          nth_error (travel cv (cv_sub cv sq i)) j).
        { assert (Hlen : forall n, (n <= cv_nq cv)%nat ->
             length (flat_map (fun i => travel cv (cv_sub cv sq i)) (seq 0 n)) = Z.to_nat (sums sq n)).
          { intros n Hn. apply Nat2Z.inj. rewrite flat_map_length_sum.
            pose proof (sums_mono sq 0 n Hg Ht ltac:(lia)) as Hm0. change (sums sq 0) with 0 in Hm0. rewrite Z2Nat.id by lia.
            unfold ksum. f_equal. apply map_ext_in. intros k Hk. apply in_seq in Hk. apply travel_length. apply (ok_good _ _ _ ok); auto. lia. }
          induction n as [|n IHn]; intros j Hin Hn Hj; [lia|]. rewrite seq_S, flat_map_app. cbn [Nat.add flat_map]. rewrite app_nil_r.
          destruct (Nat.eq_dec i n) as [->|Hne].
          - rewrite nth_error_app2 by (rewrite Hlen by lia; lia). rewrite Hlen by lia. f_equal. lia.
          - rewrite nth_error_app1; [apply IHn; auto; lia|]. rewrite Hlen by lia.
            pose proof (travel_length _ Hg'). pose proof (sums_mono sq (S i) n Hg Ht ltac:(lia)) as Hm. rewrite ksum_S in Hm.
            pose proof (sums_mono sq 0 i Hg Ht ltac:(lia)) as Hm0. change (sums sq 0) with 0 in Hm0. lia. }
        pose proof (travel_length _ Hg'). pose proof (sums_mono sq 0 i Hg Ht ltac:(lia)) as Hm0. change (sums sq 0) with 0 in Hm0.
        replace (Z.to_nat p) with (Z.to_nat (sums sq i) + Z.to_nat (p - sums sq i))%nat by lia.
        rewrite Hcat by lia. exact H2.
      * rewrite H4. pose proof (sums_mono sq (S i) (cv_nq cv) Hg Ht ltac:(lia)) as Hm. rewrite (ok_sum _ _ _ ok sq Hg Ht), ksum_S in Hm.
        destruct (Z.ltb_spec (p - sums sq i + 1) (vol (cv_sub cv sq i))).
        -- replace (p + 1 <? vol sq) with true by lia. rewrite E; [f_equal; lia|]. rewrite ksum_S. lia.
        -- unfold dig_up_down at 1. cbn [dig_up]. destruct (Nat.eqb_spec (S i) (cv_nq cv)) as [Ei|Ei].
           ++ assert (Ev : vol sq = p + 1) by (rewrite <- (ok_sum _ _ _ ok sq Hg Ht), <- Ei, ksum_S; lia).
              replace (p + 1 <? vol sq) with false by lia. reflexivity.
           ++ rewrite (dig_quadrant (S f) sq (S i) stk) by (auto; lia).
              assert (Hlt : sums sq (S i) < vol sq).
              { pose proof (ok_last _ _ _ ok sq Hg Ht) as Hl. pose proof (sums_mono sq (S i) (cv_nq cv - 1) Hg Ht ltac:(lia)) as Hm'.
                pose proof (ok_sum _ _ _ ok sq Hg Ht) as Hss. replace (cv_nq cv) with (S (cv_nq cv - 1)) in Hss at 1 by lia.
                rewrite ksum_S in Hss. lia. }
              rewrite ksum_S in Hlt |- *. replace (p + 1 <? vol sq) with true by lia. f_equal. lia.
Qed.

(** Positioning the iterator directly is the same as advancing. *)

Lemma at_spec origin dims form fuel p : let sq := mkSq origin dims form in good sq -> vol sq <= Z.of_nat fuel -> 0 <= p < vol sq ->
  exists it, sfc_at cv fuel origin dims form p = Some it /\ nth_error (travel cv sq) (Z.to_nat p) = Some (sfc_deref it) /\
    (exists c sl st, it = SfcAt c sl st) /\ sfc_next cv fuel origin it = sfc_at cv fuel origin dims form (p + 1).
Proof.
  intros sq Hg Hf Hp. destruct (dig_spec sq Hg fuel origin p [] Hf Hp) as (it & H1 & H2 & H3 & H4).
  exists it. split; [exact H1|]. split; [exact H2|]. split; [exact H3|]. rewrite H4. destruct (Z.ltb_spec (p + 1) (vol sq)); auto.
  unfold sfc_at. fold sq. destruct fuel; cbn [dig_down]; fold (vol sq); replace (vol sq <=? p + 1) with true by lia; reflexivity.
Qed.

Lemma at_end origin dims form fuel p : let sq := mkSq origin dims form in vol sq <= p ->
  sfc_at cv fuel origin dims form p = Some (SfcEnd origin).
Proof. intros sq Hp. unfold sfc_at. fold sq. destruct fuel; cbn [dig_down]; fold (vol sq); now replace (vol sq <=? p) with true by lia. Qed.

(** Walking from position [a] to position [b]. *)
Lemma range_spec origin dims form fuel : let sq := mkSq origin dims form in good sq -> vol sq <= Z.of_nat fuel ->
  forall j a g ia ib, 0 <= a -> a + Z.of_nat j <= vol sq -> (j <= g)%nat ->
  sfc_at cv fuel origin dims form a = Some ia -> sfc_at cv fuel origin dims form (a + Z.of_nat j) = Some ib ->
  iter_range (sfc_next cv fuel origin) sfc_eqb sfc_deref g ia ib = Some (slice (travel cv sq) a (a + Z.of_nat j)).
Proof.
  intros sq Hg Hf. pose proof (travel_length sq Hg) as HL. pose proof (travel_nodup sq Hg) as HN.
  induction j as [|j IH]; intros a g ia ib Ha Haj Hjg Hia Hib.
  - rewrite Z.add_0_r in *. assert (ib = ia) by congruence. subst ib. unfold slice. rewrite Z.sub_diag. cbn [Z.to_nat firstn].
    destruct g; cbn [iter_range]; (replace (sfc_eqb ia ia) with true; [reflexivity|]); destruct ia; cbn; now rewrite coord_eqb_refl.
  - destruct g as [|g]; [lia|].
    destruct (at_spec origin dims form fuel a Hg Hf ltac:(fold sq; lia)) as (it & H1 & H2 & H3 & H4). fold sq in H2.
    assert (it = ia) by congruence. subst it. clear H1. destruct H3 as (c & sl & st & ->).
    assert (Hneq : sfc_eqb (SfcAt c sl st) ib = false).
    { destruct (Z.eq_dec (a + Z.of_nat (S j)) (vol sq)) as [Ee|Ee].
      - rewrite (at_end origin dims form fuel (a + Z.of_nat (S j))) in Hib by (fold sq; lia). injection Hib as <-. reflexivity.
      - destruct (at_spec origin dims form fuel (a + Z.of_nat (S j)) Hg Hf ltac:(fold sq; lia)) as (it' & J1 & J2 & (c' & sl' & st' & ->) & _).
        fold sq in J2. assert (ib = SfcAt c' sl' st') by congruence. subst ib. cbn [sfc_eqb sfc_deref] in *.
        destruct (coord_eqb c c') eqn:Ec; auto. apply coord_eqb_spec in Ec. subst c'. exfalso.
        pose proof (nodup_nth _ _ _ _ HN H2 J2). lia. }
    cbn [iter_range]. rewrite Hneq, H4.
    assert (Hia' : exists ia', sfc_at cv fuel origin dims form (a + 1) = Some ia').
    { destruct (Z.eq_dec (a + 1) (vol sq)) as [Ee|Ee]; [eexists; apply at_end; fold sq; lia|].
      destruct (at_spec origin dims form fuel (a + 1) Hg Hf ltac:(fold sq; lia)) as (it & J & _). eauto. }
    destruct Hia' as (ia' & Hia'). rewrite Hia'. cbn [obind].
    rewrite (IH (a + 1) g ia' ib) by (auto; try lia; rewrite <- Hib; f_equal; lia). cbn [obind]. f_equal.
    unfold slice. replace (Z.to_nat (a + Z.of_nat (S j) - a)) with (S j) by lia.
    replace (Z.to_nat (a + 1 + Z.of_nat j - (a + 1))) with j by lia. replace (Z.to_nat (a + 1)) with (S (Z.to_nat a)) by lia.
    cbn [sfc_deref] in *. clear -H2. revert H2. generalize (Z.to_nat a). generalize (travel cv sq).
    induction l as [|t T IH]; intros [|i] H; cbn [nth_error skipn] in *; try discriminate.
    + injection H as ->. reflexivity.
    + rewrite <- IH by auto. reflexivity.
Qed.

Lemma sfc_slices origin dims offset w fuel : let sq := mkSq origin dims 0 in good sq -> vol sq <= Z.of_nat fuel ->
  Forall (fun x => 0 <= x) w -> 0 <= offset -> offset + zsum w <= vol sq ->
  forall k, (k < length w)%nat ->
  sfc_region cv fuel origin dims offset w k =
  Some (reg_of_coords (length dims) (slice (travel cv sq) (offset + zsum (firstn k w)) (offset + zsum (firstn (S k) w)))).
Proof.
  intros sq Hg Hf Hw Ho Hs k Hk. unfold sfc_region. rewrite node_range_spec by auto. cbn [obind].
  pose proof (zsum_nonneg _ (Forall_firstn' _ _ Hw k)) as H1.
  pose proof (zsum_firstn_mono w Hw k (S k) ltac:(lia)) as H2.
  pose proof (zsum_firstn_mono w Hw (S k) (length w) Hk) as H3. rewrite firstn_all in H3.
  set (a := offset + zsum (firstn k w)) in *. set (b := offset + zsum (firstn (S k) w)) in *.
  assert (Hex : forall p, 0 <= p -> exists it, sfc_at cv fuel origin dims 0 p = Some it).
  { intros p Hp. destruct (Z_lt_le_dec p (vol sq)) as [L|L]; [|eexists; apply at_end; exact L].
    destruct (at_spec origin dims 0%nat fuel p Hg Hf ltac:(fold sq; lia)) as (it & J & _). eauto. }
  destruct (Hex a ltac:(lia)) as (ia & Ea). destruct (Hex b ltac:(lia)) as (ib & Eb). rewrite Ea, Eb. cbn [obind].
  replace b with (a + Z.of_nat (Z.to_nat (b - a))) in Eb |- * by lia.
  rewrite (range_spec origin dims 0%nat fuel Hg Hf (Z.to_nat (b - a)) a fuel ia ib) by (auto; try lia; fold sq; lia). reflexivity.
Qed.
End Curve.
