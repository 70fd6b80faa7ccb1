(** Facts about blocks of bytes in memory. *)
From Verif Require Import Base ListFacts RegionSpec RegionModel RegionStreaks RegionOpsModel CoordModel PatchModel GridModel GridFacts SoAModel SelectorModel SelectorSpec.
From Coq Require Import Lia.

Section Bytes.
Context {B : Type}.
Notation bytes := (list B).
Notation len l := (Z.of_nat (length l)).

Lemma nth_error_ext_all (l l' : bytes) : (forall k, nth_error l k = nth_error l' k) -> l = l'.
Proof.
  revert l'. induction l as [|x l IH]; intros [|y l'] H; auto; try (specialize (H 0%nat); discriminate).
  f_equal; [specialize (H 0%nat); cbn in H; congruence|]. apply IH. intros k. apply (H (S k)).
Qed.

Lemma nth_error_firstn (l : bytes) : forall n k, nth_error (firstn n l) k = if (k <? n)%nat then nth_error l k else None.
Proof. induction l as [|x l IH]; intros [|n] [|k]; cbn [firstn nth_error]; auto; try (destruct (Nat.ltb_spec (S k) (S n)); reflexivity); try reflexivity. rewrite IH. reflexivity. Qed.

Lemma nth_error_skipn (l : bytes) : forall n k, nth_error (skipn n l) k = nth_error l (n + k).
Proof. induction l as [|x l IH]; intros [|n] k; cbn; auto. now destruct k. Qed.

Lemma vec_get_in (l : bytes) i : (exists v, vec_get l i = Some v) <-> 0 <= i < len l.
Proof.
  unfold vec_get. destruct (Z.ltb_spec i 0); [split; [intros (v & Hv); discriminate|lia]|]. split.
  - intros (v & Hv). assert (nth_error l (Z.to_nat i) <> None) by congruence. apply nth_error_Some in H0. lia.
  - intros Hi. destruct (nth_error l (Z.to_nat i)) eqn:E; [eauto|]. apply nth_error_None in E. lia.
Qed.

Lemma vec_get_out (l : bytes) i : ~ (0 <= i < len l) -> vec_get l i = None.
Proof. intros H. destruct (vec_get l i) eqn:E; [|reflexivity]. exfalso. apply H, vec_get_in. eauto. Qed.

Lemma vec_ext (l l' : bytes) : length l = length l' -> (forall q, 0 <= q < len l -> vec_get l q = vec_get l' q) -> l = l'.
Proof.
  intros Hl H. apply nth_error_ext_all. intros k. destruct (Nat.lt_ge_cases k (length l)) as [Hk|Hk].
  - specialize (H (Z.of_nat k) ltac:(lia)). unfold vec_get in H. destruct (Z.ltb_spec (Z.of_nat k) 0); [lia|]. now rewrite Nat2Z.id in H.
  - rewrite !(proj2 (nth_error_None _ _)); auto; lia.
Qed.

Lemma vec_get_cons (x : B) l q : 0 < q -> vec_get (x :: l) q = vec_get l (q - 1).
Proof.
  intros H. unfold vec_get. destruct (Z.ltb_spec q 0), (Z.ltb_spec (q - 1) 0); try lia. replace (Z.to_nat q) with (S (Z.to_nat (q - 1))) by lia. reflexivity.
Qed.

Lemma vec_get_app (a b : bytes) q : vec_get (a ++ b) q = if q <? len a then vec_get a q else vec_get b (q - len a).
Proof.
  unfold vec_get. destruct (Z.ltb_spec q 0), (Z.ltb_spec q (len a)), (Z.ltb_spec (q - len a) 0); try lia; try reflexivity.
  - now rewrite nth_error_app1 by lia.
  - rewrite nth_error_app2 by lia. f_equal. lia.
Qed.

(** [v] is found at [p]. *)
Definition holds (m : bytes) (p : Z) (v : bytes) : Prop := forall k, 0 <= k < len v -> vec_get m (p + k) = vec_get v k.

Lemma read_holds (m : bytes) : forall n p v, vec_read m p n = Some v <-> length v = n /\ holds m p v.
Proof.
  induction n as [|n IH]; intros p v; cbn [vec_read].
  - split.
    + intros [= <-]. split; [reflexivity|]. intros k Hk. cbn in Hk. lia.
    + intros [Hl _]. destruct v; [reflexivity|discriminate].
  - split.
    + destruct (vec_get m p) as [x|] eqn:E; [|discriminate]. cbn [obind]. destruct (vec_read m (p + 1) n) as [w|] eqn:Er; [|discriminate].
      cbn. intros [= <-]. apply IH in Er. destruct Er as [Hl Hh]. split; [cbn; lia|]. intros k Hk. cbn [length] in Hk.
      destruct (Z.eq_dec k 0) as [->|Hk0]; [now rewrite Z.add_0_r|]. rewrite vec_get_cons by lia. rewrite <- (Hh (k - 1)) by lia. f_equal. lia.
    + intros [Hl Hh]. destruct v as [|x w]; [discriminate|]. pose proof (Hh 0 ltac:(cbn; lia)) as H0. rewrite Z.add_0_r in H0. cbn in H0. rewrite H0. cbn [obind].
      assert (vec_read m (p + 1) n = Some w) as ->; [|reflexivity]. apply IH. split; [cbn in Hl; lia|]. intros k Hk. specialize (Hh (k + 1) ltac:(cbn; lia)).
      rewrite vec_get_cons in Hh by lia. replace (k + 1 - 1) with k in Hh by lia. rewrite <- Hh. f_equal. lia.
Qed.

Lemma slice_holds (m : bytes) p n : 0 <= p -> 0 <= n -> p + n <= len m -> length (slice m p n) = Z.to_nat n /\ holds m p (slice m p n).
Proof.
  intros H1 H2 H3. unfold slice. split; [rewrite firstn_length, skipn_length; lia|]. intros k Hk. rewrite firstn_length, skipn_length in Hk.
  unfold vec_get. destruct (Z.ltb_spec (p + k) 0), (Z.ltb_spec k 0); try lia. rewrite nth_error_firstn, nth_error_skipn.
  destruct (Nat.ltb_spec (Z.to_nat k) (Z.to_nat n)); [|lia]. f_equal. lia.
Qed.

Lemma slice_length (m : bytes) p n : 0 <= p -> 0 <= n -> p + n <= len m -> length (slice m p n) = Z.to_nat n.
Proof. intros. now apply slice_holds. Qed.

Lemma holds_ext (m m' : bytes) p v : holds m p v -> (forall q, p <= q < p + len v -> vec_get m' q = vec_get m q) -> holds m' p v.
Proof. intros H E k Hk. rewrite E by lia. now apply H. Qed.

Lemma holds_unique (m : bytes) p v w : holds m p v -> holds m p w -> length v = length w -> v = w.
Proof. intros Hv Hw Hl. apply vec_ext; [exact Hl|]. intros q Hq. rewrite <- Hv, <- Hw by lia. reflexivity. Qed.

Lemma holds_slice (m : bytes) p v : holds m p v -> 0 <= p -> p + len v <= len m -> slice m p (len v) = v.
Proof. intros H H1 H2. destruct (slice_holds m p (len v)) as [Hl Hs]; [lia|lia|lia|]. eapply holds_unique; eauto. lia. Qed.

Lemma holds_bound (m : bytes) p v : holds m p v -> v <> [] -> 0 <= p /\ p + len v <= len m.
Proof.
  intros H Hv. assert (0 < len v) by (destruct v; [congruence|cbn; lia]).
  assert (forall k, 0 <= k < len v -> 0 <= p + k < len m). { intros k Hk. apply vec_get_in. rewrite (H k Hk). apply vec_get_in. lia. }
  pose proof (H1 0 ltac:(lia)). pose proof (H1 (len v - 1) ltac:(lia)). lia.
Qed.

Lemma slice_ext (m m' : bytes) p n : 0 <= p -> 0 <= n -> p + n <= len m -> p + n <= len m' ->
  (forall q, p <= q < p + n -> vec_get m' q = vec_get m q) -> slice m' p n = slice m p n.
Proof.
  intros H1 H2 H3 H3' E. destruct (slice_holds m p n) as [L H]; auto. destruct (slice_holds m' p n) as [L' H']; auto.
  apply (holds_unique m' p); [exact H'| |lia]. eapply holds_ext; [exact H|]. intros q Hq. apply E. lia.
Qed.

Lemma get_slice (m : bytes) p n k : 0 <= p -> 0 <= k < n -> p + n <= len m -> vec_get (slice m p n) k = vec_get m (p + k).
Proof. intros H1 H2 H3. destruct (slice_holds m p n) as [L H]; [lia|lia|lia|]. symmetry. apply H. lia. Qed.

Lemma slice_slice (m : bytes) p n q k : 0 <= p -> 0 <= q -> 0 <= k -> q + k <= n -> p + n <= len m -> slice (slice m p n) q k = slice m (p + q) k.
Proof.
  intros. pose proof (slice_length m p n ltac:(lia) ltac:(lia) ltac:(lia)). apply vec_ext.
  - rewrite !slice_length; lia.
  - intros x Hx. rewrite slice_length in Hx by lia. rewrite !get_slice by lia. f_equal. lia.
Qed.

Lemma read_slice (m : bytes) p n : 0 <= p -> 0 <= n -> p + n <= len m -> vec_read m p (Z.to_nat n) = Some (slice m p n).
Proof. intros. apply read_holds. now apply slice_holds. Qed.

Lemma slice_all (v : bytes) n : n = len v -> slice v 0 n = v.
Proof. intros ->. unfold slice. cbn [Z.to_nat skipn]. rewrite Nat2Z.id. apply firstn_all. Qed.

Lemma write_spec : forall n (m : bytes) p v, length v = n -> 0 <= p -> p + Z.of_nat n <= len m ->
  exists m', vec_write m p n v = Some m' /\ length m' = length m /\ holds m' p v /\
    forall q, ~ (p <= q < p + Z.of_nat n) -> vec_get m' q = vec_get m q.
Proof.
  induction n as [|n IH]; intros m p v Hv H1 H2.
  - exists m. split; [reflexivity|]. split; [reflexivity|]. split; [|reflexivity]. intros k Hk. lia.
  - destruct v as [|x v]; [discriminate|]. cbn [vec_write]. destruct (vec_set_spec m p x) as (m1 & E1 & L1 & G1); [lia|]. rewrite E1. cbn [obind].
    destruct (IH m1 (p + 1) v) as (m' & E' & L' & Hh & F'); [cbn in Hv; lia|lia|lia|]. exists m'. split; [exact E'|]. split; [lia|]. split.
    + intros k Hk. destruct (Z.eq_dec k 0) as [->|Hk0].
      * rewrite F', G1 by lia. rewrite Z.add_0_r, Z.eqb_refl. reflexivity.
      * rewrite vec_get_cons by lia. cbn [length] in Hk. rewrite <- (Hh (k - 1)) by lia. f_equal. lia.
    + intros q Hq. rewrite F', G1 by lia. destruct (Z.eqb_spec p q); [lia|reflexivity].
Qed.

Lemma copy_spec src sp n (dst : bytes) dp : 0 <= n -> 0 <= sp -> sp + n <= len src -> 0 <= dp -> dp + n <= len dst ->
  exists dst', copy src sp n dst dp = Some dst' /\ length dst' = length dst /\ holds dst' dp (slice src sp n) /\
    forall q, ~ (dp <= q < dp + n) -> vec_get dst' q = vec_get dst q.
Proof.
  intros. unfold copy. rewrite read_slice by lia. cbn [obind].
  destruct (write_spec (Z.to_nat n) dst dp (slice src sp n)) as (m' & E & L & Hh & F); [apply slice_length; lia|lia|lia|].
  exists m'. split; [exact E|]. split; [exact L|]. split; [exact Hh|]. intros q Hq. apply F. lia.
Qed.

Lemma splice_length (l : bytes) p v : 0 <= p -> p + len v <= len l -> length (splice l p v) = length l.
Proof. intros. unfold splice. rewrite !app_length, firstn_length, skipn_length. lia. Qed.

Lemma get_splice (l : bytes) p v q : 0 <= p -> p + len v <= len l ->
  vec_get (splice l p v) q = if (p <=? q) && (q <? p + len v) then vec_get v (q - p) else vec_get l q.
Proof.
  intros H1 H2. unfold splice. rewrite !vec_get_app, firstn_length. replace (Z.of_nat (Nat.min (Z.to_nat p) (length l))) with p by lia.
  destruct (Z.ltb_spec q p).
  - destruct (Z.leb_spec p q); [lia|]. cbn [andb]. unfold vec_get. destruct (q <? 0) eqn:E; [reflexivity|]. rewrite nth_error_firstn.
    destruct (Nat.ltb_spec (Z.to_nat q) (Z.to_nat p)); [reflexivity|lia].
  - destruct (Z.leb_spec p q); [|lia]. cbn [andb]. destruct (Z.ltb_spec (q - p) (len v)), (Z.ltb_spec q (p + len v)); try lia; [reflexivity|].
    unfold vec_get. destruct (Z.ltb_spec (q - p - len v) 0), (Z.ltb_spec q 0); try lia. rewrite nth_error_skipn. f_equal. lia.
Qed.

Lemma slice_splice (l : bytes) p v : 0 <= p -> p + len v <= len l -> slice (splice l p v) p (len v) = v.
Proof.
  intros H1 H2. apply vec_ext; rewrite slice_length; rewrite ?splice_length; try lia. intros q Hq. rewrite get_slice by (rewrite ?splice_length; lia).
  rewrite get_splice by lia. destruct (Z.leb_spec p (p + q)), (Z.ltb_spec (p + q) (p + len v)); try lia. cbn [andb]. f_equal. lia.
Qed.

Lemma splice_slice (l : bytes) p n : 0 <= p -> 0 <= n -> p + n <= len l -> splice l p (slice l p n) = l.
Proof.
  intros. pose proof (slice_length l p n ltac:(lia) ltac:(lia) ltac:(lia)). apply vec_ext; [apply splice_length; lia|]. intros q Hq. rewrite get_splice by lia.
  destruct (Z.leb_spec p q), (Z.ltb_spec q (p + len (slice l p n))); cbn [andb]; auto. rewrite get_slice by lia. f_equal. lia.
Qed.

(** [m'] results from [m] by writing [v] at [p] *)
Lemma splice_char (m m' : bytes) p v : 0 <= p -> p + len v <= len m -> length m' = length m -> holds m' p v ->
  (forall q, ~ (p <= q < p + len v) -> vec_get m' q = vec_get m q) -> m' = splice m p v.
Proof.
  intros. apply vec_ext; [rewrite splice_length; lia|]. intros q Hq. rewrite get_splice by lia.
  destruct (Z.leb_spec p q), (Z.ltb_spec q (p + len v)); cbn [andb]; try (apply H3; lia). rewrite <- H2 by lia. f_equal. lia.
Qed.

(** Several steps, each of which has a part of the memory to itself. *)
Lemma each_apart {A} (f : A -> bytes -> option bytes) (W : A -> Z -> Prop) (Q : A -> bytes -> Prop) l m :
  (forall a m1, In a l -> length m1 = length m -> (forall q, W a q -> vec_get m1 q = vec_get m q) ->
    exists m2, f a m1 = Some m2 /\ length m2 = length m1 /\ (forall q, ~ W a q -> vec_get m2 q = vec_get m1 q) /\ Q a m2) ->
  (forall a m1 m2, In a l -> length m2 = length m1 -> (forall q, W a q -> vec_get m2 q = vec_get m1 q) -> Q a m1 -> Q a m2) ->
  ForallOrdPairs (fun a b => forall q, W a q -> W b q -> False) l ->
  exists m', each f l m = Some m' /\ length m' = length m /\ (forall q, (forall a, In a l -> ~ W a q) -> vec_get m' q = vec_get m q) /\
    forall a, In a l -> Q a m'.
Proof.
  intros Hf HQ Hd. enough (H : forall m1, length m1 = length m -> (forall a q, In a l -> W a q -> vec_get m1 q = vec_get m q) ->
    exists m', each f l m1 = Some m' /\ length m' = length m1 /\ (forall q, (forall a, In a l -> ~ W a q) -> vec_get m' q = vec_get m1 q) /\ forall a, In a l -> Q a m').
  { apply H; [reflexivity|]. reflexivity. }
  induction l as [|a l IH]; intros m1 L1 H1.
  - exists m1. repeat split; auto. intros a [].
  - inversion Hd as [|? ? Ha Hd']; subst. rewrite Forall_forall in Ha. cbn [each].
    destruct (Hf a m1 (or_introl eq_refl) L1 (fun q Hq => H1 a q (or_introl eq_refl) Hq)) as (m2 & E2 & L2 & F2 & Q2). rewrite E2. cbn [obind].
    destruct (IH) with (m1 := m2) as (m' & E' & L' & F' & Q'); auto.
    + intros b m3 Hb. apply Hf. now right.
    + intros b m3 m4 Hb. apply HQ. now right.
    + lia.
    + intros b q Hb Hq. rewrite F2; [apply (H1 b); [now right|exact Hq]|]. intros Haq. apply (Ha b Hb q Haq Hq).
    + exists m'. split; [exact E'|]. split; [lia|]. split.
      * intros q Hq. rewrite F', F2; auto.
        -- apply Hq. now left.
        -- intros b Hb. apply Hq. now right.
      * intros b [<-|Hb]; [|now apply Q']. apply (HQ a m2 m'); auto; [now left|].
        intros q Hq. apply F'. intros b Hb Hbq. apply (Ha b Hb q Hq Hbq).
Qed.

Lemma ord_pairs_zrange (P : Z -> Z -> Prop) n : (forall i j, 0 <= i < j -> j < n -> P i j) -> ForallOrdPairs P (zrange 0 n).
Proof.
  intros H. enough (G : forall k lo, 0 <= lo -> k = Z.to_nat (n - lo) -> ForallOrdPairs P (zrange lo n)) by exact (G _ 0 ltac:(lia) eq_refl).
  induction k as [|k IH]; intros lo Hlo Hk.
  - rewrite zrange_nil by lia. constructor.
  - rewrite zrange_cons by lia. constructor; [|apply IH; lia]. apply Forall_forall. intros j Hj. apply zrange_in in Hj. apply H; lia.
Qed.

(** The same for loops *)
Lemma loop_apart (f : Z -> bytes -> option bytes) (W : Z -> Z -> Prop) (Q : Z -> bytes -> Prop) n m :
  (forall i m1, 0 <= i < n -> length m1 = length m -> (forall q, W i q -> vec_get m1 q = vec_get m q) ->
    exists m2, f i m1 = Some m2 /\ length m2 = length m1 /\ (forall q, ~ W i q -> vec_get m2 q = vec_get m1 q) /\ Q i m2) ->
  (forall i m1 m2, 0 <= i < n -> length m2 = length m1 -> (forall q, W i q -> vec_get m2 q = vec_get m1 q) -> Q i m1 -> Q i m2) ->
  (forall i j q, 0 <= i < j -> j < n -> W i q -> W j q -> False) ->
  exists m', loop n f m = Some m' /\ length m' = length m /\ (forall q, (forall i, 0 <= i < n -> ~ W i q) -> vec_get m' q = vec_get m q) /\
    forall i, 0 <= i < n -> Q i m'.
Proof.
  intros Hf HQ Hd. destruct (each_apart f W Q (zrange 0 n) m) as (m' & E & L & F & G).
  - intros a m1 Ha. apply zrange_in in Ha. now apply Hf.
  - intros a m1 m2 Ha. apply zrange_in in Ha. now apply HQ.
  - apply ord_pairs_zrange. intros i j H1 H2 q. now apply Hd.
  - exists m'. split; [exact E|]. split; [exact L|]. split.
    + intros q Hq. apply F. intros a Ha. apply zrange_in in Ha. now apply Hq.
    + intros i Hi. apply G. now apply zrange_in.
Qed.
End Bytes.
