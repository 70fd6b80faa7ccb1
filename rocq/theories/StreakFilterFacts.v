(** What filters do with rows of cells in a Struct of Arrays. *)
From Verif Require Import Base ListFacts RegionSpec RegionModel RegionStreaks RegionOpsModel CoordModel PatchModel GridModel GridFacts SoAModel SelectorModel SelectorSpec BytesFacts FilterFacts.
From Coq Require Import Lia.

Section Streaks.
Context {B : Type}.
Notation bytes := (list B).
Notation len l := (Z.of_nat (length l)).
Implicit Types (f : filter B) (m src tgt : bytes).

(** Element [j] of the i-th member of a row *)
Definition blk (tp stride el i j : Z) : Z := tp + (j * stride + i) * el.

Lemma blk_bound tp stride el n a i j : 0 <= el -> n <= stride -> 0 <= i < n -> 0 <= j < a ->
  tp <= blk tp stride el i j /\ blk tp stride el i j + el <= tp + ((a - 1) * stride + n) * el.
Proof.
  intros He Hn Hi Hj. unfold blk. assert (H1 : 0 <= j * stride) by (apply Z.mul_nonneg_nonneg; lia).
  assert (H2 : j * stride <= (a - 1) * stride) by (apply Z.mul_le_mono_nonneg_r; lia).
  assert (H3 : 0 <= (j * stride + i) * el) by (apply Z.mul_nonneg_nonneg; lia).
  assert (H4 : (j * stride + i) * el + el <= ((a - 1) * stride + n) * el) by (apply mul_lt; lia). lia.
Qed.

Lemma blk_apart tp stride el n i j i' j' : 0 <= el -> n <= stride -> 0 <= i < n -> 0 <= i' < n -> (i <> i' \/ j <> j') ->
  blk tp stride el i j + el <= blk tp stride el i' j' \/ blk tp stride el i' j' + el <= blk tp stride el i j.
Proof.
  intros He Hn Hi Hi' Hne. unfold blk.
  assert (Hu : j * stride + i < j' * stride + i' \/ j' * stride + i' < j * stride + i).
  { destruct (Z.lt_trichotomy j j') as [H|[->|H]]; [| |].
    - pose proof (mul_lt j j' stride H ltac:(lia)). lia.
    - lia.
    - pose proof (mul_lt j' j stride H ltac:(lia)). lia. }
  destruct Hu as [Hu|Hu]; [left|right]; pose proof (mul_lt _ _ el Hu He); lia.
Qed.

(** All elements of the i-th member *)
Definition gather (m : bytes) (tp stride el a i : Z) : bytes := concat (map (fun j => slice m (blk tp stride el i j) el) (zrange 0 a)).

Lemma concat_slices (g : Z -> bytes) el a : 0 <= el -> 0 <= a -> (forall j, 0 <= j < a -> length (g j) = Z.to_nat el) ->
  len (concat (map g (zrange 0 a))) = a * el /\ forall j, 0 <= j < a -> slice (concat (map g (zrange 0 a))) (j * el) el = g j.
Proof.
  intros He Ha Hg.
  assert (H : forall k lo, 0 <= lo -> k = Z.to_nat (a - lo) -> lo <= a -> len (concat (map g (zrange lo a))) = (a - lo) * el /\
     forall j, lo <= j < a -> holds (concat (map g (zrange lo a))) ((j - lo) * el) (g j)).
  { induction k as [|k IH]; intros lo H1 H2 H3.
    - rewrite zrange_nil by lia. split; [cbn; replace (a - lo) with 0 by lia; lia|lia].
    - rewrite zrange_cons by lia. cbn [map concat]. destruct (IH (lo + 1)) as [L G]; [lia|lia|lia|]. pose proof (Hg lo ltac:(lia)) as Lg.
      split; [rewrite app_length; lia|]. intros j Hj x Hx. rewrite vec_get_app. destruct (Z.eq_dec j lo) as [->|Hjl].
      + replace ((lo - lo) * el + x) with x by lia. destruct (Z.ltb_spec x (len (g lo))); [reflexivity|lia].
      + pose proof (mul_lt 0 (j - lo) el ltac:(lia) He). destruct (Z.ltb_spec ((j - lo) * el + x) (len (g lo))); [lia|].
        rewrite <- (G j ltac:(lia) x Hx). f_equal. lia. }
  destruct (H (Z.to_nat (a - 0)) 0) as [L G]; [lia|reflexivity|lia|]. replace (a - 0) with a in L by lia. split; [exact L|].
  intros j Hj. specialize (G j ltac:(lia)). replace (j - 0) with j in G by lia. specialize (Hg j Hj). pose proof (mul_step j a el Hj He).
  replace el with (len (g j)) at 2 by lia. apply holds_slice; [exact G|lia|lia].
Qed.

Lemma gather_spec (m : bytes) tp stride el n a i : 0 <= el -> n <= stride -> 0 <= i < n -> 0 < a -> 0 <= tp -> tp + ((a - 1) * stride + n) * el <= len m ->
  length (gather m tp stride el a i) = Z.to_nat (a * el) /\
  forall j, 0 <= j < a -> slice (gather m tp stride el a i) (j * el) el = slice m (blk tp stride el i j) el.
Proof.
  intros He Hn Hi Ha Htp Hb. destruct (concat_slices (fun j => slice m (blk tp stride el i j) el) el a He ltac:(lia)) as [L G].
  - intros j Hj. pose proof (blk_bound tp stride el n a i j He Hn Hi Hj). apply slice_length; lia.
  - split; [unfold gather; lia|]. exact G.
Qed.

Lemma gather_one (m : bytes) tp stride el i : gather m tp stride el 1 i = slice m (tp + i * el) el.
Proof. unfold gather. change (zrange 0 1) with [0]. cbn [map concat]. rewrite app_nil_r. f_equal. Qed.

(** Byte strings are determined by their elements. *)
Lemma elements_eq (v w : bytes) el a : 0 < el -> 0 < a -> length v = Z.to_nat (a * el) -> length w = Z.to_nat (a * el) ->
  (forall j, 0 <= j < a -> slice v (j * el) el = slice w (j * el) el) -> v = w.
Proof.
  intros He Ha Lv Lw H. assert (0 < a * el) by now apply Z.mul_pos_pos. apply vec_ext; [lia|]. intros q Hq. set (j := q / el). set (k := q mod el).
  assert (Eq : q = j * el + k) by (unfold j, k; rewrite Z.mul_comm; apply Z.div_mod; lia). assert (Hk : 0 <= k < el) by (apply Z.mod_pos_bound; lia). clearbody j k.
  assert (Hj : 0 <= j < a). { split; [|]; apply Z.nle_gt || apply Z.nlt_ge; intros Hx.
    - pose proof (mul_lt j 0 el ltac:(lia) ltac:(lia)). lia.
    - assert (a * el <= j * el) by (apply Z.mul_le_mono_nonneg_r; lia). lia. }
  pose proof (mul_step j a el Hj ltac:(lia)). specialize (H j Hj). rewrite Eq, <- (get_slice v (j * el) el k), <- (get_slice w (j * el) el k) by lia. now rewrite H.
Qed.

Lemma scatter_loop (g : Z -> bytes -> option bytes) n a el stride tp (val : Z -> Z -> bytes) m : 0 <= el -> n <= stride ->
  (forall i m1, 0 <= i < n -> length m1 = length m ->
    exists m2, g i m1 = Some m2 /\ length m2 = length m1 /\
      (forall q, (forall j, 0 <= j < a -> ~ (blk tp stride el i j <= q < blk tp stride el i j + el)) -> vec_get m2 q = vec_get m1 q) /\
      forall j, 0 <= j < a -> holds m2 (blk tp stride el i j) (val i j)) ->
  (forall i j, 0 <= i < n -> 0 <= j < a -> length (val i j) = Z.to_nat el) ->
  exists m', loop n g m = Some m' /\ length m' = length m /\
    (forall q, (forall i j, 0 <= i < n -> 0 <= j < a -> ~ (blk tp stride el i j <= q < blk tp stride el i j + el)) -> vec_get m' q = vec_get m q) /\
    forall i j, 0 <= i < n -> 0 <= j < a -> holds m' (blk tp stride el i j) (val i j).
Proof.
  intros He Hn Hg Hv.
  destruct (loop_apart g (fun i q => exists j, 0 <= j < a /\ blk tp stride el i j <= q < blk tp stride el i j + el)
    (fun i m' => forall j, 0 <= j < a -> holds m' (blk tp stride el i j) (val i j)) n m) as (m' & E & L & F & G).
  - intros i m1 Hi L1 _. destruct (Hg i m1 Hi L1) as (m2 & E & L & F & G). exists m2. split; [exact E|]. split; [exact L|]. split; [|exact G].
    intros q Hq. apply F. intros j Hj Hx. apply Hq. eauto.
  - intros i m1 m2 Hi L H1 H2 j Hj. eapply holds_ext; [apply (H2 j Hj)|]. intros q Hq. apply H1. exists j. split; [exact Hj|]. rewrite Hv in Hq by auto. lia.
  - intros i i' q Hi Hi' (j & Hj & H1) (j' & Hj' & H2). destruct (blk_apart tp stride el n i j i' j'); try lia.
  - exists m'. split; [exact E|]. split; [exact L|]. split; [|intros i j Hi Hj; now apply G].
    intros q Hq. apply F. intros i Hi (j & Hj & Hx). now apply (Hq i j).
Qed.

(** The elements of one member are distributed. *)
Lemma scatter_one (g : Z -> bytes -> option bytes) n a el stride tp i (val : Z -> bytes) m : 0 <= el -> n <= stride -> 0 <= i < n -> 0 <= tp ->
  tp + ((a - 1) * stride + n) * el <= len m -> (forall j, 0 <= j < a -> length (val j) = Z.to_nat el) ->
  (forall j m1, 0 <= j < a -> length m1 = length m -> exists m2, g j m1 = Some m2 /\ length m2 = length m1 /\ holds m2 (blk tp stride el i j) (val j) /\
     forall q, ~ (blk tp stride el i j <= q < blk tp stride el i j + el) -> vec_get m2 q = vec_get m1 q) ->
  exists m', loop a g m = Some m' /\ length m' = length m /\
    (forall q, (forall j, 0 <= j < a -> ~ (blk tp stride el i j <= q < blk tp stride el i j + el)) -> vec_get m' q = vec_get m q) /\
    forall j, 0 <= j < a -> holds m' (blk tp stride el i j) (val j).
Proof.
  intros He Hn Hi Htp Hb Hv Hg. apply (loop_blocks g (fun j => blk tp stride el i j) a el (fun j _ => val j)); auto.
  - intros j j' Hj Hj'. unfold blk. assert (Hu : j * stride + i < j' * stride + i) by (pose proof (mul_lt j j' stride ltac:(lia) ltac:(lia)); lia).
    pose proof (mul_lt _ _ el Hu He). lia.
  - intros j Hj. pose proof (blk_bound tp stride el n a i j He Hn Hi Hj). lia.
Qed.

Context (junk : bytes).

(** What copyStreakIn makes of a member *)
Definition soa_put (f : filter B) (e m : bytes) : bytes :=
  match f with
  | FSimpleArray ms _ a load _ => load e junk
  | FMember _ _ pos f' => splice m pos (aos_put f' e (slice m pos (msize f')))
  | _ => put f e m
  end.

Lemma soa_put_length f e m : filter_ok f -> length junk = Z.to_nat (msize f) -> length e = Z.to_nat (ext_size f) -> length m = Z.to_nat (msize f) ->
  length (soa_put f e m) = Z.to_nat (msize f).
Proof.
  intros Hok Hj He Hm. destruct f as [size|size arity|ms es load save|ms es arity load save|size dflt pos f].
  - apply (aos_put_length (FDefault size) e m); auto.
  - apply (aos_put_length (FArray size arity) e m); auto.
  - apply (aos_put_length (FSimple ms es load save) e m); auto.
  - apply (aos_put_length (FSimpleArray ms es arity load save) e junk); auto.
  - cbn [filter_ok elem nelem] in Hok. destruct Hok as (_ & _ & H3 & H4 & H5 & H6). unfold msize in *. cbn [elem nelem] in *. rewrite Z.mul_1_l in *. cbn [soa_put].
    pose proof (filter_sizes f H6) as (? & ? & Hms & ?). unfold msize in *.
    pose proof (aos_put_length f e (slice m pos (nelem f * elem f)) H6 He) as La. unfold msize in La. rewrite slice_length in La by lia. specialize (La eq_refl).
    rewrite splice_length; lia.
Qed.

Lemma streak_in_spec f src sp tgt tp num stride : filter_ok f -> length junk = Z.to_nat (msize f) -> 0 <= num <= stride -> 0 <= tp ->
  tp + ((nelem f - 1) * stride + num) * elem f <= len tgt -> 0 <= sp -> sp + num * ext_size f <= len src ->
  exists tgt', streak_in junk f src sp tgt tp num stride = Some tgt' /\ length tgt' = length tgt /\
    (forall q, (forall i j, 0 <= i < num -> 0 <= j < nelem f -> ~ (blk tp stride (elem f) i j <= q < blk tp stride (elem f) i j + elem f)) -> vec_get tgt' q = vec_get tgt q) /\
    forall i j, 0 <= i < num -> 0 <= j < nelem f -> holds tgt' (blk tp stride (elem f) i j)
      (slice (soa_put f (slice src (sp + i * ext_size f) (ext_size f)) (gather tgt tp stride (elem f) (nelem f) i)) (j * elem f) (elem f)).
Proof.
  intros Hok Hjk Hn Htp Ht Hsp Hs. pose proof (filter_sizes _ Hok) as (P1 & P2 & P3 & P4).
  assert (Hlen : forall i j, 0 <= i < num -> 0 <= j < nelem f ->
    length (slice (soa_put f (slice src (sp + i * ext_size f) (ext_size f)) (gather tgt tp stride (elem f) (nelem f) i)) (j * elem f) (elem f)) = Z.to_nat (elem f)).
  { intros i j Hi Hj. pose proof (mul_step i num _ Hi (Z.lt_le_incl _ _ P4)). pose proof (mul_step j (nelem f) (elem f) Hj ltac:(lia)).
    rewrite slice_length; try lia. rewrite soa_put_length; auto; [unfold msize; lia|apply slice_length; lia|].
    apply (gather_spec tgt tp stride (elem f) num (nelem f) i); lia. }
  assert (Hext : forall i, 0 <= i < num -> 0 <= i * ext_size f /\ i * ext_size f + ext_size f <= num * ext_size f) by (intros i Hi; apply mul_step; lia).
  destruct f as [size|size arity|ms es load save|ms es arity load save|size dflt pos f]; unfold msize in *; cbn [filter_ok elem nelem ext_size] in *; cbn [streak_in].
  - assert (Hz : 0 <= num * size) by (apply Z.mul_nonneg_nonneg; lia). replace (((1 - 1) * stride + num) * size) with (num * size) in Ht by lia.
    destruct (copy_spec src sp (num * size) tgt tp) as (t' & E & L & Hh & F); try lia. exists t'. split; [exact E|]. split; [exact L|]. split.
    + intros q Hq. apply F. intros Hx. set (i := (q - tp) / size). assert (Hi : i * size <= q - tp < i * size + size).
      { unfold i. pose proof (Z.div_mod (q - tp) size ltac:(lia)). pose proof (Z.mod_pos_bound (q - tp) size ltac:(lia)). lia. }
      assert (Hr : 0 <= i < num). { clearbody i. split; [|]; apply Z.nle_gt || apply Z.nlt_ge; intros Hy.
        - pose proof (mul_lt i 0 size ltac:(lia) ltac:(lia)). lia.
        - assert (num * size <= i * size) by (apply Z.mul_le_mono_nonneg_r; lia). lia. }
      apply (Hq i 0 Hr ltac:(lia)). unfold blk. lia.
    + intros i j Hi Hj. assert (j = 0) as -> by lia. cbn [soa_put put]. destruct (Hext i Hi). rewrite slice_slice by lia. rewrite Z.add_0_r.
      rewrite <- (slice_slice src sp (num * size)) by lia. intros k Hk. rewrite slice_slice in Hk by lia. rewrite slice_length in Hk by lia.
      rewrite get_slice by (rewrite ?slice_length; lia). rewrite <- (Hh (i * size + k)) by (rewrite slice_length; lia). f_equal. unfold blk. lia.
  - apply (scatter_loop _ num arity size stride tp); auto; try lia.
    + intros i m1 Hi L1. destruct (Hext i Hi) as [X1 X2]. apply (scatter_one _ num arity size stride tp i); auto; try lia.
      intros j m2 Hj L2. destruct (blk_bound tp stride size num arity i j) as [X3 X4]; try lia. pose proof (mul_step j arity size Hj ltac:(lia)).
      destruct (copy_spec src (sp + (i * arity + j) * size) size m2 (tp + (j * stride + i) * size)) as (m3 & E & L & Hh & F); try (unfold blk in *; lia).
      exists m3. split; [exact E|]. split; [exact L|]. split; [|exact F]. cbn [soa_put put]. rewrite slice_slice by lia.
      replace (sp + i * (arity * size) + j * size) with (sp + (i * arity + j) * size) by ring. exact Hh.
  - destruct Hok as (_ & _ & H4 & H5). replace (((1 - 1) * stride + num) * ms) with (num * ms) in Ht by lia.
    destruct (loop_blocks (fun i m => load_at load src (sp + i * es) es m (tp + i * ms) ms) (fun i => tp + i * ms) num ms (fun i b => load (slice src (sp + i * es) es) b) tgt) as (t' & E & L & F & G); [lia| | | | |].
    + intros i j Hi Hj. pose proof (mul_lt i j ms ltac:(lia) ltac:(lia)). lia.
    + intros i Hi. pose proof (mul_step i num ms Hi ltac:(lia)). lia.
    + intros i m1 Hi L1. destruct (Hext i Hi). pose proof (mul_step i num ms Hi ltac:(lia)). apply load_at_spec; try lia. intros e m He Hm. now apply H5.
    + intros i b Hi Hb. destruct (Hext i Hi). apply H5; [exact Hb|]. apply slice_length; lia.
    + exists t'. split; [exact E|]. split; [exact L|]. split.
      * intros q Hq. apply F. intros i Hi. specialize (Hq i 0 Hi ltac:(lia)). unfold blk in Hq. replace (0 * stride + i) with i in Hq by lia. exact Hq.
      * intros i j Hi Hj. assert (j = 0) as -> by lia. specialize (G i Hi). rewrite gather_one. cbn [soa_put put]. destruct (Hext i Hi). pose proof (mul_step i num ms Hi ltac:(lia)).
        rewrite slice_all by (rewrite (proj2 (H5 (slice tgt (tp + i * ms) ms) (slice_length tgt (tp + i * ms) ms ltac:(lia) ltac:(lia) ltac:(lia)))); [lia|]; apply slice_length; lia).
        unfold blk. replace (0 * stride + i) with i by lia. exact G.
  - destruct Hok as (_ & _ & H4 & H5). apply (scatter_loop _ num arity ms stride tp); auto; try lia.
    intros i m1 Hi L1. destruct (Hext i Hi) as [X1 X2].
    assert (He : length (slice src (sp + i * (arity * es)) (arity * es)) = Z.to_nat (arity * es)) by (apply slice_length; lia).
    assert (Hl : length (load (slice src (sp + i * (arity * es)) (arity * es)) junk) = Z.to_nat (arity * ms)) by now apply H5.
    destruct (load_at_spec load src (sp + i * arity * es) (arity * es) junk 0 (arity * ms)) as (buf & Eb & Lb & Hb & Fb); try lia.
    { intros e m Hle Hlm. now apply H5. }
    rewrite Eb. cbn [obind]. replace (sp + i * arity * es) with (sp + i * (arity * es)) in Hb by ring. rewrite (slice_all junk) in Hb by lia.
    assert (buf = load (slice src (sp + i * (arity * es)) (arity * es)) junk) as ->.
    { apply vec_ext; [lia|]. intros q Hq. rewrite <- Hb by lia. f_equal. }
    apply (scatter_one _ num arity ms stride tp i); auto; try lia.
    intros j m2 Hj L2. destruct (blk_bound tp stride ms num arity i j) as [X3 X4]; try lia. pose proof (mul_step j arity ms Hj ltac:(lia)).
    cbn [soa_put]. replace (tp + (i + j * stride) * ms) with (blk tp stride ms i j) by (unfold blk; ring). apply copy_spec; lia.
  - destruct Hok as (_ & _ & H3 & H4 & H5 & H6). replace (((1 - 1) * stride + num) * size) with (num * size) in Ht by lia.
    pose proof (filter_sizes f H6) as (_ & _ & Q3 & _).
    destruct (member_in_spec f size src sp tgt tp num pos) as (t' & E & L & F & G); try assumption; try lia.
    exists t'. split; [exact E|]. split; [exact L|]. split.
    + intros q Hq. apply F. intros i Hi Hx. apply (Hq i 0 Hi ltac:(lia)). unfold blk. lia.
    + intros i j Hi Hj. assert (j = 0) as -> by lia. specialize (G i Hi). rewrite gather_one. cbn [soa_put]. destruct (Hext i Hi). pose proof (mul_step i num size Hi ltac:(lia)).
      replace (blk tp stride size i 0) with (tp + i * size) by (unfold blk; lia). cbn [Z.mul].
      assert (La : length (aos_put f (slice src (sp + i * ext_size f) (ext_size f)) (slice tgt (tp + i * size + pos) (msize f))) = Z.to_nat (msize f)) by (apply aos_put_length; auto; apply slice_length; lia).
      rewrite (slice_slice tgt (tp + i * size) size pos) by lia.
      rewrite slice_all by (rewrite splice_length; rewrite ?slice_length, ?La; lia).
      intros k Hk. rewrite splice_length in Hk by (rewrite ?slice_length, ?La; lia). rewrite slice_length in Hk by lia. rewrite get_splice by (rewrite ?slice_length, ?La; lia).
      destruct (Z.leb_spec pos k), (Z.ltb_spec k (pos + len (aos_put f (slice src (sp + i * ext_size f) (ext_size f)) (slice tgt (tp + i * size + pos) (msize f))))); cbn [andb].
      * rewrite <- (G (k - pos)) by lia. f_equal. lia.
      * rewrite get_slice by lia. apply F. intros i' Hi' Hx. destruct (Z.lt_trichotomy i i') as [Hc|[<-|Hc]]; [pose proof (mul_lt i i' size Hc ltac:(lia)); lia|lia|pose proof (mul_lt i' i size Hc ltac:(lia)); lia].
      * rewrite get_slice by lia. apply F. intros i' Hi' Hx. destruct (Z.lt_trichotomy i i') as [Hc|[<-|Hc]]; [pose proof (mul_lt i i' size Hc ltac:(lia)); lia|lia|pose proof (mul_lt i' i size Hc ltac:(lia)); lia].
      * rewrite get_slice by lia. apply F. intros i' Hi' Hx. destruct (Z.lt_trichotomy i i') as [Hc|[<-|Hc]]; [pose proof (mul_lt i i' size Hc ltac:(lia)); lia|lia|pose proof (mul_lt i' i size Hc ltac:(lia)); lia].
Qed.

Lemma streak_out_spec f src sp tgt tp num stride : filter_ok f -> length junk = Z.to_nat (msize f) -> 0 <= num <= stride -> 0 <= sp ->
  sp + ((nelem f - 1) * stride + num) * elem f <= len src -> 0 <= tp -> tp + num * ext_size f <= len tgt ->
  exists tgt', streak_out junk f src sp tgt tp num stride = Some tgt' /\ length tgt' = length tgt /\
    (forall q, ~ (tp <= q < tp + num * ext_size f) -> vec_get tgt' q = vec_get tgt q) /\
    forall i, 0 <= i < num -> holds tgt' (tp + i * ext_size f) (view f (gather src sp stride (elem f) (nelem f) i)).
Proof.
  assert (W : forall sz n t0 (t1 t2 : bytes), 0 <= sz ->
    (forall q, (forall i, 0 <= i < n -> ~ (t0 + i * sz <= q < t0 + i * sz + sz)) -> vec_get t2 q = vec_get t1 q) ->
    forall q, ~ (t0 <= q < t0 + n * sz) -> vec_get t2 q = vec_get t1 q).
  { intros sz n t0 t1 t2 Hsz H q Hq. apply H. intros i Hi Hx. pose proof (mul_step i n sz Hi Hsz). lia. }
  intros Hok Hjk Hn Hsp Hs Htp Ht. pose proof (filter_sizes _ Hok) as (P1 & P2 & P3 & P4).
  assert (Hlen : forall i, 0 <= i < num -> length (view f (gather src sp stride (elem f) (nelem f) i)) = Z.to_nat (ext_size f)).
  { intros i Hi. apply view_length; [exact Hok|]. apply (gather_spec src sp stride (elem f) num (nelem f) i); lia. }
  assert (Hext : forall i, 0 <= i < num -> 0 <= i * ext_size f /\ i * ext_size f + ext_size f <= num * ext_size f) by (intros i Hi; apply mul_step; lia).
  assert (Hga : forall i, 0 <= i < num -> length (gather src sp stride (elem f) (nelem f) i) = Z.to_nat (nelem f * elem f) /\
     forall j, 0 <= j < nelem f -> slice (gather src sp stride (elem f) (nelem f) i) (j * elem f) (elem f) = slice src (blk sp stride (elem f) i j) (elem f)).
  { intros i Hi. apply (gather_spec src sp stride (elem f) num (nelem f) i); lia. }
  destruct f as [size|size arity|ms es load save|ms es arity load save|size dflt pos f]; unfold msize in *; cbn [filter_ok elem nelem ext_size] in *; cbn [streak_out].
  - assert (Hz : 0 <= num * size) by (apply Z.mul_nonneg_nonneg; lia). replace (((1 - 1) * stride + num) * size) with (num * size) in Hs by lia.
    destruct (copy_spec src sp (num * size) tgt tp) as (t' & E & L & Hh & F); try lia. exists t'. split; [exact E|]. split; [exact L|]. split; [exact F|].
    intros i Hi. rewrite gather_one. cbn [view]. destruct (Hext i Hi). rewrite <- (slice_slice src sp (num * size)) by lia. intros k Hk. rewrite slice_slice in Hk by lia. rewrite slice_length in Hk by lia.
    rewrite get_slice by (rewrite ?slice_length; lia). rewrite <- (Hh (i * size + k)) by (rewrite slice_length; lia). f_equal. lia.
  - destruct (loop_blocks (fun i => loop arity (fun j m => copy src (sp + (j * stride + i) * size) size m (tp + (i * arity + j) * size))) (fun i => tp + i * (arity * size)) num (arity * size) (fun i _ => gather src sp stride size arity i) tgt) as (t' & E & L & F & G); [lia| | | | |].
    + intros i j Hi Hj. pose proof (mul_lt i j (arity * size) ltac:(lia) ltac:(lia)). lia.
    + intros i Hi. destruct (Hext i Hi). lia.
    + intros i m1 Hi L1. destruct (Hext i Hi) as [X1 X2]. destruct (Hga i Hi) as [G1 G2].
      destruct (loop_blocks (fun j m => copy src (sp + (j * stride + i) * size) size m (tp + (i * arity + j) * size)) (fun j => tp + (i * arity + j) * size) arity size (fun j _ => slice src (blk sp stride size i j) size) m1) as (t' & E & L & F & G); [lia| | | | |].
      * intros j j' Hj Hj'. pose proof (mul_lt j j' size ltac:(lia) ltac:(lia)). lia.
      * intros j Hj. pose proof (mul_step j arity size Hj ltac:(lia)). lia.
      * intros j m2 Hj L2. destruct (blk_bound sp stride size num arity i j) as [X3 X4]; try lia. pose proof (mul_step j arity size Hj ltac:(lia)). apply copy_spec; unfold blk in *; lia.
      * intros j b Hj _. destruct (blk_bound sp stride size num arity i j) as [X3 X4]; try lia. apply slice_length; lia.
      * exists t'. split; [exact E|]. split; [exact L|]. split.
        -- assert (Es : slice t' (tp + i * (arity * size)) (arity * size) = gather src sp stride size arity i).
           { apply (elements_eq _ _ size arity); try lia; [apply slice_length; lia|]. intros j Hj. pose proof (mul_step j arity size Hj ltac:(lia)). rewrite slice_slice, G2 by lia.
             destruct (blk_bound sp stride size num arity i j) as [X3 X4]; try lia.
             assert (Lk : len (slice src (blk sp stride size i j) size) = size) by (rewrite slice_length; lia).
             replace (tp + i * (arity * size) + j * size) with (tp + (i * arity + j) * size) by ring. rewrite <- Lk at 2. apply holds_slice; [now apply G|lia|lia]. }
           rewrite <- Es. apply slice_holds; lia.
        -- intros q Hq. apply F. intros j Hj Hx. pose proof (mul_step j arity size Hj ltac:(lia)). lia.
    + intros i b Hi _. apply (proj1 (Hga i Hi)).
    + exists t'. split; [exact E|]. split; [exact L|]. split; [apply W; [lia|exact F]|exact G].
  - destruct Hok as (_ & _ & H4 & H5). replace (((1 - 1) * stride + num) * ms) with (num * ms) in Hs by lia.
    destruct (loop_blocks (fun i m => save_at save src (sp + i * ms) ms m (tp + i * es) es) (fun i => tp + i * es) num es (fun i _ => save (slice src (sp + i * ms) ms)) tgt) as (t' & E & L & F & G); [lia| | | | |].
    + intros i j Hi Hj. pose proof (mul_lt i j es ltac:(lia) ltac:(lia)). lia.
    + intros i Hi. destruct (Hext i Hi). lia.
    + intros i m1 Hi L1. destruct (Hext i Hi). pose proof (mul_step i num ms Hi ltac:(lia)). apply save_at_spec; try lia. intros m Hm. now apply H5.
    + intros i b Hi _. pose proof (mul_step i num ms Hi ltac:(lia)). apply H5. apply slice_length; lia.
    + exists t'. split; [exact E|]. split; [exact L|]. split; [apply W; [lia|exact F]|]. intros i Hi. rewrite gather_one. now apply G.
  - destruct Hok as (_ & _ & H4 & H5).
    destruct (loop_blocks (fun i m => obind (loop arity (fun j b => copy src (sp + (i + j * stride) * ms) ms b (j * ms)) junk) (fun buf => save_at save buf 0 (arity * ms) m (tp + i * arity * es) (arity * es)))
      (fun i => tp + i * (arity * es)) num (arity * es) (fun i _ => save (gather src sp stride ms arity i)) tgt) as (t' & E & L & F & G); [lia| | | | |].
    + intros i j Hi Hj. pose proof (mul_lt i j (arity * es) ltac:(lia) ltac:(lia)). lia.
    + intros i Hi. destruct (Hext i Hi). lia.
    + intros i m1 Hi L1. destruct (Hext i Hi) as [X1 X2]. destruct (Hga i Hi) as [G1 G2].
      destruct (loop_blocks (fun j b => copy src (sp + (i + j * stride) * ms) ms b (j * ms)) (fun j => j * ms) arity ms (fun j _ => slice src (blk sp stride ms i j) ms) junk) as (buf & E & L & F & G); [lia| | | | |].
      * intros j j' Hj Hj'. pose proof (mul_lt j j' ms ltac:(lia) ltac:(lia)). lia.
      * intros j Hj. pose proof (mul_step j arity ms Hj ltac:(lia)). lia.
      * intros j m2 Hj L2. destruct (blk_bound sp stride ms num arity i j) as [X3 X4]; try lia. pose proof (mul_step j arity ms Hj ltac:(lia)).
        replace (sp + (i + j * stride) * ms) with (blk sp stride ms i j) by (unfold blk; ring). apply copy_spec; lia.
      * intros j b Hj _. destruct (blk_bound sp stride ms num arity i j) as [X3 X4]; try lia. apply slice_length; lia.
      * rewrite E. cbn [obind]. assert (buf = gather src sp stride ms arity i) as ->.
        { apply (elements_eq _ _ ms arity); try lia. intros j Hj. pose proof (mul_step j arity ms Hj ltac:(lia)). rewrite G2 by lia.
          destruct (blk_bound sp stride ms num arity i j) as [X3 X4]; try lia. assert (Lk : len (slice src (blk sp stride ms i j) ms) = ms) by (rewrite slice_length; lia).
          rewrite <- Lk at 2. apply holds_slice; [now apply G|lia|lia]. }
        destruct (save_at_spec save (gather src sp stride ms arity i) 0 (arity * ms) m1 (tp + i * arity * es) (arity * es)) as (t' & E' & L' & Hh & F'); try lia.
        { intros m Hm. now apply H5. }
        exists t'. split; [exact E'|]. split; [exact L'|]. rewrite slice_all in Hh by lia. replace (i * (arity * es)) with (i * arity * es) by ring. split; [exact Hh|]. exact F'.
    + intros i b Hi _. apply H5. apply (Hga i Hi).
    + exists t'. split; [exact E|]. split; [exact L|]. split; [apply W; [lia|exact F]|exact G].
  - destruct Hok as (_ & _ & H3 & H4 & H5 & H6). replace (((1 - 1) * stride + num) * size) with (num * size) in Hs by lia. pose proof (filter_sizes f H6) as (_ & _ & Q3 & _).
    destruct (member_out_spec f size src sp tgt tp num pos) as (t' & E & L & F & G); try assumption; try lia.
    exists t'. split; [exact E|]. split; [exact L|]. split; [exact F|]. intros i Hi. specialize (G i Hi). rewrite gather_one. cbn [view]. pose proof (mul_step i num size Hi ltac:(lia)).
    rewrite slice_slice by lia. exact G.
Qed.
End Streaks.
