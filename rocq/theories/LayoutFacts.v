(** The memory layout of soa_grid. *)
From Verif Require Import Base ListFacts RegionSpec RegionModel RegionStreaks RegionOpsModel CoordModel PatchModel GridModel GridFacts SoAModel SelectorModel SelectorSpec BytesFacts FilterFacts StreakFilterFacts.
From Coq Require Import Lia.

Section Layout.
Context {B : Type}.
Notation bytes := (list B).
Notation len l := (Z.of_nat (length l)).

(** ** Offsets *)

Lemma off_step : forall reg k m, nth_error reg k = Some m -> member_off reg (S k) = member_off reg k + memb_len m.
Proof.
  unfold memb_len. induction reg as [|x reg IH]; intros [|k] m H; try discriminate.
  - injection H as ->. destruct reg; cbn [member_off]; lia.
  - cbn [nth_error] in H. change (member_off (x :: reg) (S (S k))) with (m_size x * m_arity x + member_off reg (S k)).
    change (member_off (x :: reg) (S k)) with (m_size x * m_arity x + member_off reg k). rewrite (IH k m H). lia.
Qed.

Lemma off_mono csize reg : Forall (memb_in csize) reg -> forall k k', (k <= k')%nat -> member_off reg k <= member_off reg k'.
Proof.
  intros Hr. induction 1 as [|k' Hk IH]; [lia|]. destruct (nth_error reg k') as [m|] eqn:E.
  - rewrite (off_step reg k' m E). rewrite Forall_forall in Hr. pose proof (Hr m (nth_error_In _ _ E)) as (H1 & H2 & _). unfold memb_len. assert (0 <= m_arity m * m_size m) by (apply Z.mul_nonneg_nonneg; lia). lia.
  - apply nth_error_None in E. enough (member_off reg (S k') = member_off reg k') by lia. clear - E. revert k' E. induction reg as [|x reg IH]; intros [|k'] E; cbn in *; try lia. rewrite IH; lia.
Qed.

Lemma off_nonneg csize reg k : Forall (memb_in csize) reg -> 0 <= member_off reg k.
Proof. intros H. pose proof (off_mono csize reg H 0 k ltac:(lia)) as Hm. destruct reg; exact Hm. Qed.

Lemma off_bound csize reg k m : Forall (memb_in csize) reg -> nth_error reg k = Some m -> 0 <= member_off reg k /\ member_off reg k + memb_len m <= cell_bytes reg.
Proof.
  intros H E. split; [now apply (off_nonneg csize)|]. rewrite <- (off_step reg k m E). apply (off_mono csize reg H). apply Nat.le_succ_l. apply nth_error_Some. congruence.
Qed.

Lemma off_apart csize reg k m k' : Forall (memb_in csize) reg -> nth_error reg k = Some m -> (k < k')%nat -> member_off reg k + memb_len m <= member_off reg k'.
Proof. intros H E Hk. rewrite <- (off_step reg k m E). apply (off_mono csize reg H). lia. Qed.

Lemma memb_eqb_eq a b : memb_eqb a b = true -> a = b.
Proof. destruct a, b. unfold memb_eqb. cbn. rewrite !andb_true_iff, !Z.eqb_eq. intros ((-> & ->) & ->). reflexivity. Qed.

Lemma ptr_offset_spec reg m : forall n o, ptr_offset reg m n = Some o -> exists k, nth_error reg k = Some m /\ o = member_off reg k.
Proof.
  induction n as [|n IH]; intros o H; [discriminate|]. cbn [ptr_offset] in H. destruct (nth_error reg n) as [m'|] eqn:E; [|discriminate].
  destruct (memb_eqb m m') eqn:Em; [|now apply IH]. apply memb_eqb_eq in Em. subst m'. injection H as <-. eauto.
Qed.

Lemma apart_nth reg : ForallOrdPairs memb_apart reg -> forall k k' m m', k <> k' -> nth_error reg k = Some m -> nth_error reg k' = Some m' -> memb_apart m m'.
Proof.
  assert (Hs : forall a b, memb_apart a b -> memb_apart b a) by (unfold memb_apart; tauto).
  induction 1 as [|x reg Hx H IH]; intros [|k] [|k'] m m' Hne E E'; try discriminate; try congruence.
  - injection E as <-. rewrite Forall_forall in Hx. apply Hx. cbn in E'. now apply nth_error_In in E'.
  - injection E' as <-. rewrite Forall_forall in Hx. apply Hs, Hx. cbn in E. now apply nth_error_In in E.
  - apply (IH k k'); auto.
Qed.

(** ** Addresses *)

Lemma addr_blk n off size j i : soa_addr n off size j i = blk (n * off) n size i j.
Proof. unfold soa_addr, blk. ring. Qed.

Context (csize : Z) (reg : list memb) (Hreg : reg_ok csize reg).

Lemma memb_nth k m : nth_error reg k = Some m -> memb_in csize m.
Proof using Hreg. intros E. destruct Hreg as [H _]. rewrite Forall_forall in H. apply H. now apply nth_error_In in E. Qed.

Lemma addr_bound n k m i j : nth_error reg k = Some m -> 0 <= i < n -> 0 <= j < m_arity m ->
  0 <= soa_addr n (member_off reg k) (m_size m) j i /\ n * member_off reg k <= soa_addr n (member_off reg k) (m_size m) j i /\
  soa_addr n (member_off reg k) (m_size m) j i + m_size m <= n * (member_off reg k + memb_len m) /\
  soa_addr n (member_off reg k) (m_size m) j i + m_size m <= n * cell_bytes reg.
Proof using Hreg.
  intros E Hi Hj. pose proof (memb_nth k m E) as (P1 & P2 & P3 & P4). destruct (off_bound csize reg k m (proj1 Hreg) E) as [O1 O2]. rewrite addr_blk.
  destruct (blk_bound (n * member_off reg k) n (m_size m) n (m_arity m) i j) as [B1 B2]; try lia.
  assert (0 <= n * member_off reg k) by (apply Z.mul_nonneg_nonneg; lia).
  assert (X : n * member_off reg k + ((m_arity m - 1) * n + n) * m_size m = n * (member_off reg k + memb_len m)) by (unfold memb_len; ring).
  assert (n * (member_off reg k + memb_len m) <= n * cell_bytes reg) by (apply Z.mul_le_mono_nonneg_l; lia). lia.
Qed.

Lemma addr_apart n k m i j k' m' i' j' : nth_error reg k = Some m -> nth_error reg k' = Some m' -> 0 <= i < n -> 0 <= i' < n ->
  0 <= j < m_arity m -> 0 <= j' < m_arity m' -> (k <> k' \/ i <> i' \/ j <> j') ->
  soa_addr n (member_off reg k) (m_size m) j i + m_size m <= soa_addr n (member_off reg k') (m_size m') j' i' \/
  soa_addr n (member_off reg k') (m_size m') j' i' + m_size m' <= soa_addr n (member_off reg k) (m_size m) j i.
Proof using Hreg.
  intros E E' Hi Hi' Hj Hj' Hne. destruct (Nat.lt_trichotomy k k') as [Hk|[<-|Hk]].
  - left. destruct (addr_bound n k m i j E Hi Hj) as (_ & _ & A & _). destruct (addr_bound n k' m' i' j' E' Hi' Hj') as (_ & A' & _ & _).
    pose proof (off_apart csize reg k m k' (proj1 Hreg) E Hk). assert (n * (member_off reg k + memb_len m) <= n * member_off reg k') by (apply Z.mul_le_mono_nonneg_l; lia). lia.
  - assert (m' = m) as -> by congruence. rewrite !addr_blk. pose proof (memb_nth k m E) as (P1 & P2 & P3 & P4).
    apply (blk_apart _ n (m_size m) n); try lia.
  - right. destruct (addr_bound n k m i j E Hi Hj) as (_ & A & _ & _). destruct (addr_bound n k' m' i' j' E' Hi' Hj') as (_ & _ & A' & _).
    pose proof (off_apart csize reg k' m' k (proj1 Hreg) E' Hk). assert (n * (member_off reg k' + memb_len m') <= n * member_off reg k) by (apply Z.mul_le_mono_nonneg_l; lia). lia.
Qed.

(** ** Accessors *)

Lemma in_numbered (l : list memb) : forall s k m, In (k, m) (combine (seq s (length l)) l) <-> (s <= k)%nat /\ nth_error l (k - s) = Some m.
Proof using.
  clear. induction l as [|x l IH]; intros s k m; cbn [length seq combine].
  - split; [intros []|]. intros [_ H]. destruct (k - s)%nat; discriminate.
  - cbn [In]. rewrite IH. split.
    + intros [E|[H1 H2]].
      * injection E as -> ->. split; [lia|]. now rewrite Nat.sub_diag.
      * split; [lia|]. replace (k - s)%nat with (S (k - S s)) by lia. exact H2.
    + intros [H1 H2]. destruct (Nat.eq_dec k s) as [->|Hk].
      * left. rewrite Nat.sub_diag in H2. cbn in H2. congruence.
      * right. split; [lia|]. replace (k - s)%nat with (S (k - S s)) in H2 by lia. exact H2.
Qed.

Lemma pairs_numbered (P : nat * memb -> nat * memb -> Prop) (l : list memb) : forall s,
  (forall k m k' m', (s <= k)%nat -> (k < k')%nat -> nth_error l (k - s) = Some m -> nth_error l (k' - s) = Some m' -> P (k, m) (k', m')) ->
  ForallOrdPairs P (combine (seq s (length l)) l).
Proof using.
  clear. induction l as [|x l IH]; intros s H; cbn [length seq combine]; constructor.
  - apply Forall_forall. intros [k m] Hk. apply in_numbered in Hk. destruct Hk as [H1 H2]. apply H; try lia; [now rewrite Nat.sub_diag|].
    replace (k - s)%nat with (S (k - S s)) by lia. exact H2.
  - apply IH. intros k m k' m' H1 H2 E E'. apply H; try lia.
    + replace (k - s)%nat with (S (k - S s)) by lia. exact E.
    + replace (k' - s)%nat with (S (k' - S s)) by lia. exact E'.
Qed.

Lemma member_elem (cell : bytes) m j : length cell = Z.to_nat csize -> memb_in csize m -> 0 <= j < m_arity m ->
  0 <= m_pos m + j * m_size m /\ m_pos m + j * m_size m + m_size m <= len cell.
Proof using. intros L (P1 & P2 & P3 & P4) Hj. pose proof (mul_step j (m_arity m) (m_size m) Hj ltac:(lia)). unfold memb_len in P4. lia. Qed.

Lemma put_spec n i (cell : bytes) mem : 0 <= i < n -> length cell = Z.to_nat csize -> len mem = n * cell_bytes reg ->
  exists mem', accessor_put n reg i cell mem = Some mem' /\ length mem' = length mem /\
    (forall q, (forall k m j, nth_error reg k = Some m -> 0 <= j < m_arity m ->
       ~ (soa_addr n (member_off reg k) (m_size m) j i <= q < soa_addr n (member_off reg k) (m_size m) j i + m_size m)) -> vec_get mem' q = vec_get mem q) /\
    forall k m j, nth_error reg k = Some m -> 0 <= j < m_arity m ->
      holds mem' (soa_addr n (member_off reg k) (m_size m) j i) (slice cell (m_pos m + j * m_size m) (m_size m)).
Proof using Hreg.
  intros Hi Lc Lm.
  assert (Hsl : forall k m j, nth_error reg k = Some m -> 0 <= j < m_arity m -> length (slice cell (m_pos m + j * m_size m) (m_size m)) = Z.to_nat (m_size m)).
  { intros k m j E Hj. pose proof (memb_nth k m E) as Hm. pose proof (member_elem cell m j Lc Hm Hj). destruct Hm as (? & _). apply slice_length; lia. }
  destruct (each_apart (fun km => loop (m_arity (snd km)) (fun j mem => copy cell (m_pos (snd km) + j * m_size (snd km)) (m_size (snd km)) mem (soa_addr n (member_off reg (fst km)) (m_size (snd km)) j i)))
    (fun km q => exists j, 0 <= j < m_arity (snd km) /\ soa_addr n (member_off reg (fst km)) (m_size (snd km)) j i <= q < soa_addr n (member_off reg (fst km)) (m_size (snd km)) j i + m_size (snd km))
    (fun km m' => forall j, 0 <= j < m_arity (snd km) -> holds m' (soa_addr n (member_off reg (fst km)) (m_size (snd km)) j i) (slice cell (m_pos (snd km) + j * m_size (snd km)) (m_size (snd km))))
    (combine (seq 0 (length reg)) reg) mem) as (mem' & E & L & F & G).
  - intros [k m] m1 Hk L1 _. apply in_numbered in Hk. destruct Hk as [_ Ek]. rewrite Nat.sub_0_r in Ek. cbn [fst snd]. pose proof (memb_nth k m Ek) as Hm. pose proof Hm as (P1 & P2 & P3 & P4).
    destruct (loop_apart (fun j mem => copy cell (m_pos m + j * m_size m) (m_size m) mem (soa_addr n (member_off reg k) (m_size m) j i))
      (fun j q => soa_addr n (member_off reg k) (m_size m) j i <= q < soa_addr n (member_off reg k) (m_size m) j i + m_size m)
      (fun j m' => holds m' (soa_addr n (member_off reg k) (m_size m) j i) (slice cell (m_pos m + j * m_size m) (m_size m))) (m_arity m) m1) as (m2 & E & L & F & G).
    + intros j m2 Hj L2 _. pose proof (member_elem cell m j Lc Hm Hj). destruct (addr_bound n k m i j Ek Hi Hj) as (A1 & _ & _ & A2).
      destruct (copy_spec cell (m_pos m + j * m_size m) (m_size m) m2 (soa_addr n (member_off reg k) (m_size m) j i)) as (m3 & E & L & Hh & F); try lia.
      exists m3. split; [exact E|]. split; [exact L|]. split; [exact F|exact Hh].
    + intros j m2 m3 Hj L2 H1 H2. eapply holds_ext; [exact H2|]. intros q Hq. apply H1. rewrite (Hsl k m j Ek Hj) in Hq. lia.
    + intros j j' q Hj Hj' H1 H2. destruct (addr_apart n k m i j k m i j' Ek Ek Hi Hi); lia.
    + exists m2. split; [exact E|]. split; [exact L|]. split; [|exact G]. intros q Hq. apply F. intros j Hj Hx. apply Hq. eauto.
  - intros [k m] m1 m2 Hk L1 H1 H2 j Hj. apply in_numbered in Hk. destruct Hk as [_ Ek]. rewrite Nat.sub_0_r in Ek. cbn [fst snd] in *.
    eapply holds_ext; [now apply H2|]. intros q Hq. apply H1. exists j. split; [exact Hj|]. rewrite (Hsl k m j Ek Hj) in Hq. pose proof (memb_nth k m Ek) as (P1 & _). lia.
  - apply pairs_numbered. intros k m k' m' _ Hkk Ek Ek' q (j & Hj & H1) (j' & Hj' & H2). rewrite Nat.sub_0_r in Ek, Ek'. cbn [fst snd] in *.
    destruct (addr_apart n k m i j k' m' i j' Ek Ek' Hi Hi); lia.
  - exists mem'. split; [exact E|]. split; [exact L|]. split.
    + intros q Hq. apply F. intros [k m] Hk (j & Hj & Hx). apply in_numbered in Hk. destruct Hk as [_ Ek]. rewrite Nat.sub_0_r in Ek. now apply (Hq k m j).
    + intros k m j Ek Hj. apply (G (k, m)); [|exact Hj]. apply in_numbered. split; [lia|]. now rewrite Nat.sub_0_r.
Qed.

Lemma put_holds mem cells i (cell : bytes) : soa_holds csize reg mem cells -> 0 <= i < len cells -> length cell = Z.to_nat csize ->
  exists mem' cells', accessor_put (len cells) reg i cell mem = Some mem' /\ vec_set cells i cell = Some cells' /\ soa_holds csize reg mem' cells'.
Proof using Hreg.
  intros (H1 & H2 & H3) Hi Lc. destruct (put_spec (len cells) i cell mem Hi Lc H1) as (mem' & E & L & F & G).
  destruct (vec_set_spec cells i cell) as (cells' & E' & L' & G'); [lia|]. exists mem', cells'. split; [exact E|]. split; [exact E'|].
  unfold soa_holds. rewrite L'. split; [lia|]. split.
  - apply Forall_forall. intros c Hc. apply In_nth_error in Hc. destruct Hc as (k & Hk). specialize (G' (Z.of_nat k)). unfold vec_get in G'. destruct (Z.ltb_spec (Z.of_nat k) 0); [lia|].
    rewrite Nat2Z.id, Hk in G'. destruct (i =? Z.of_nat k); [congruence|]. rewrite Forall_forall in H2. apply H2. symmetry in G'. now apply nth_error_In in G'.
  - intros i' c k m j Hc Ek Hj. rewrite G' in Hc. pose proof (memb_nth k m Ek) as Hm. pose proof Hm as (P1 & P2 & P3 & P4).
    destruct (addr_bound (len cells) k m i j Ek Hi Hj) as (A1 & _ & _ & A2). destruct (Z.eqb_spec i i') as [->|Hne].
    + injection Hc as <-. pose proof (member_elem cell m j Lc Hm Hj). assert (Ls : len (slice cell (m_pos m + j * m_size m) (m_size m)) = m_size m) by (rewrite slice_length; lia).
      specialize (G k m j Ek Hj). rewrite <- Ls at 2. apply holds_slice; [exact G|lia|lia].
    + assert (Hi' : 0 <= i' < len cells).
      { assert (Hx : exists v, vec_get cells i' = Some v) by eauto. unfold vec_get in Hx. destruct (Z.ltb_spec i' 0); [destruct Hx; discriminate|]. destruct Hx as (v & Hv).
        assert (nth_error cells (Z.to_nat i') <> None) by congruence. apply nth_error_Some in H0. lia. }
      rewrite <- (H3 i' c k m j Hc Ek Hj). destruct (addr_bound (len cells) k m i' j Ek Hi' Hj) as (A3 & _ & _ & A4). apply slice_ext; try lia.
      intros q Hq. apply F. intros k' m' j' Ek' Hj' Hx. destruct (addr_apart (len cells) k m i' j k' m' i j' Ek Ek' Hi' Hi Hj Hj'); try lia.
Qed.

Lemma get_spec n i mem (cell0 : bytes) : 0 <= i < n -> length cell0 = Z.to_nat csize -> len mem = n * cell_bytes reg ->
  exists cell, accessor_get n reg i mem cell0 = Some cell /\ length cell = length cell0 /\
    (forall q, (forall m, In m reg -> ~ (m_pos m <= q < m_pos m + memb_len m)) -> vec_get cell q = vec_get cell0 q) /\
    forall k m j, nth_error reg k = Some m -> 0 <= j < m_arity m ->
      slice cell (m_pos m + j * m_size m) (m_size m) = slice mem (soa_addr n (member_off reg k) (m_size m) j i) (m_size m).
Proof using Hreg.
  intros Hi Lc Lm.
  assert (Hsl : forall k m j, nth_error reg k = Some m -> 0 <= j < m_arity m -> length (slice mem (soa_addr n (member_off reg k) (m_size m) j i) (m_size m)) = Z.to_nat (m_size m)).
  { intros k m j E Hj. pose proof (memb_nth k m E) as (? & _). destruct (addr_bound n k m i j E Hi Hj) as (A1 & _ & _ & A2). apply slice_length; lia. }
  destruct (each_apart (fun km => loop (m_arity (snd km)) (fun j cell => copy mem (soa_addr n (member_off reg (fst km)) (m_size (snd km)) j i) (m_size (snd km)) cell (m_pos (snd km) + j * m_size (snd km))))
    (fun km q => m_pos (snd km) <= q < m_pos (snd km) + memb_len (snd km))
    (fun km c => forall j, 0 <= j < m_arity (snd km) -> holds c (m_pos (snd km) + j * m_size (snd km)) (slice mem (soa_addr n (member_off reg (fst km)) (m_size (snd km)) j i) (m_size (snd km))))
    (combine (seq 0 (length reg)) reg) cell0) as (cell & E & L & F & G).
  - intros [k m] m1 Hk L1 _. apply in_numbered in Hk. destruct Hk as [_ Ek]. rewrite Nat.sub_0_r in Ek. cbn [fst snd]. pose proof (memb_nth k m Ek) as Hm. pose proof Hm as (P1 & P2 & P3 & P4).
    destruct (loop_blocks (fun j c => copy mem (soa_addr n (member_off reg k) (m_size m) j i) (m_size m) c (m_pos m + j * m_size m)) (fun j => m_pos m + j * m_size m) (m_arity m) (m_size m)
      (fun j _ => slice mem (soa_addr n (member_off reg k) (m_size m) j i) (m_size m)) m1) as (m2 & E & L & F & G); [lia| | | | |].
    + intros j j' Hj Hj'. pose proof (mul_lt j j' (m_size m) ltac:(lia) ltac:(lia)). lia.
    + intros j Hj. rewrite L1. now apply member_elem.
    + intros j m2 Hj L2. pose proof (member_elem cell0 m j Lc Hm Hj). destruct (addr_bound n k m i j Ek Hi Hj) as (A1 & _ & _ & A2). apply copy_spec; lia.
    + intros j b Hj _. now apply Hsl.
    + exists m2. split; [exact E|]. split; [exact L|]. split; [|exact G]. intros q Hq. apply F. intros j Hj Hx. pose proof (mul_step j (m_arity m) (m_size m) Hj ltac:(lia)). unfold memb_len in Hq. lia.
  - intros [k m] m1 m2 Hk L1 H1 H2 j Hj. apply in_numbered in Hk. destruct Hk as [_ Ek]. rewrite Nat.sub_0_r in Ek. cbn [fst snd] in *. pose proof (memb_nth k m Ek) as (P1 & _).
    eapply holds_ext; [now apply H2|]. intros q Hq. apply H1. rewrite (Hsl k m j Ek Hj) in Hq. pose proof (mul_step j (m_arity m) (m_size m) Hj ltac:(lia)). unfold memb_len. lia.
  - apply pairs_numbered. intros k m k' m' _ Hkk Ek Ek' q H1 H2. rewrite Nat.sub_0_r in Ek, Ek'. cbn [fst snd] in *.
    destruct (apart_nth reg (proj2 Hreg) k k' m m' ltac:(lia) Ek Ek'); lia.
  - exists cell. split; [exact E|]. split; [exact L|]. split.
    + intros q Hq. apply F. intros [k m] Hk. apply in_numbered in Hk. destruct Hk as [_ Ek]. cbn [snd]. apply Hq. now apply nth_error_In in Ek.
    + intros k m j Ek Hj. assert (Hg : holds cell (m_pos m + j * m_size m) (slice mem (soa_addr n (member_off reg k) (m_size m) j i) (m_size m))).
      { apply (G (k, m)); [|exact Hj]. apply in_numbered. split; [lia|]. now rewrite Nat.sub_0_r. }
      pose proof (memb_nth k m Ek) as Hm. pose proof (member_elem cell0 m j Lc Hm Hj). pose proof (Hsl k m j Ek Hj) as Ls. destruct Hm as (P1 & _).
      replace (m_size m) with (len (slice mem (soa_addr n (member_off reg k) (m_size m) j i) (m_size m))) at 2 by lia. apply holds_slice; [exact Hg|lia|lia].
Qed.

(** The members of a cell are what its elements are. *)
Lemma memb_elements (a b : bytes) m : length a = Z.to_nat csize -> length b = Z.to_nat csize -> memb_in csize m ->
  (forall j, 0 <= j < m_arity m -> slice a (m_pos m + j * m_size m) (m_size m) = slice b (m_pos m + j * m_size m) (m_size m)) -> get_memb a m = get_memb b m.
Proof using.
  intros La Lb Hm H. pose proof Hm as (P1 & P2 & P3 & P4). unfold get_memb, memb_len in *. assert (0 < m_arity m * m_size m) by now apply Z.mul_pos_pos.
  apply (elements_eq _ _ (m_size m) (m_arity m)); auto; try (apply slice_length; lia).
  intros j Hj. pose proof (mul_step j (m_arity m) (m_size m) Hj ltac:(lia)). rewrite !slice_slice by lia. now apply H.
Qed.
End Layout.
