(** What filters do with rows of cells. *)
From Verif Require Import Base ListFacts RegionSpec RegionModel RegionStreaks RegionOpsModel CoordModel PatchModel GridModel GridFacts SoAModel SelectorModel SelectorSpec BytesFacts.
From Coq Require Import Lia.

Section Filters.
Context {B : Type}.
Notation bytes := (list B).
Notation len l := (Z.of_nat (length l)).
Implicit Types (f : filter B) (m src tgt : bytes).

Lemma mul_step i n c : 0 <= i < n -> 0 <= c -> 0 <= i * c /\ i * c + c <= n * c.
Proof. intros. assert (0 <= i * c) by (apply Z.mul_nonneg_nonneg; lia). assert ((i + 1) * c <= n * c) by (apply Z.mul_le_mono_nonneg_r; lia). lia. Qed.
Lemma mul_lt i j c : i < j -> 0 <= c -> i * c + c <= j * c.
Proof. intros. assert ((i + 1) * c <= j * c) by (apply Z.mul_le_mono_nonneg_r; lia). lia. Qed.

(** Steps which write one block each *)
Lemma loop_blocks (f : Z -> bytes -> option bytes) (p : Z -> Z) (n sz : Z) (val : Z -> bytes -> bytes) m : 0 <= sz ->
  (forall i j, 0 <= i < j -> j < n -> p i + sz <= p j) -> (forall i, 0 <= i < n -> 0 <= p i /\ p i + sz <= len m) ->
  (forall i m1, 0 <= i < n -> length m1 = length m ->
    exists m2, f i m1 = Some m2 /\ length m2 = length m1 /\ holds m2 (p i) (val i (slice m1 (p i) sz)) /\
      forall q, ~ (p i <= q < p i + sz) -> vec_get m2 q = vec_get m1 q) ->
  (forall i b, 0 <= i < n -> length b = Z.to_nat sz -> length (val i b) = Z.to_nat sz) ->
  exists m', loop n f m = Some m' /\ length m' = length m /\
    (forall q, (forall i, 0 <= i < n -> ~ (p i <= q < p i + sz)) -> vec_get m' q = vec_get m q) /\
    forall i, 0 <= i < n -> holds m' (p i) (val i (slice m (p i) sz)).
Proof.
  intros Hsz Hp Hb Hf Hv.
  apply (loop_apart f (fun i q => p i <= q < p i + sz) (fun i m' => holds m' (p i) (val i (slice m (p i) sz)))).
  - intros i m1 Hi L1 H1. destruct (Hf i m1 Hi L1) as (m2 & E & L & Hh & F). exists m2. split; [exact E|]. split; [exact L|]. split; [exact F|].
    rewrite (slice_ext m m1) in Hh; auto; destruct (Hb i Hi); lia.
  - intros i m1 m2 Hi L H1 H2. eapply holds_ext; [exact H2|]. intros q Hq. apply H1. rewrite Hv in Hq; [lia|exact Hi|]. destruct (Hb i Hi). apply slice_length; lia.
  - intros i j q Hi Hj H1 H2. specialize (Hp i j Hi Hj). lia.
Qed.

Lemma load_at_spec load src sp es (dst : bytes) dp ms : 0 <= es -> 0 <= ms -> 0 <= sp -> sp + es <= len src -> 0 <= dp -> dp + ms <= len dst ->
  (forall e m, length e = Z.to_nat es -> length m = Z.to_nat ms -> length (load e m) = Z.to_nat ms) ->
  exists dst', load_at load src sp es dst dp ms = Some dst' /\ length dst' = length dst /\ holds dst' dp (load (slice src sp es) (slice dst dp ms)) /\
    forall q, ~ (dp <= q < dp + ms) -> vec_get dst' q = vec_get dst q.
Proof.
  intros. unfold load_at. rewrite !read_slice by lia. cbn [obind].
  destruct (write_spec (Z.to_nat ms) dst dp (load (slice src sp es) (slice dst dp ms))) as (m' & E & L & Hh & F); [|lia|lia|].
  - apply H5; apply slice_length; lia.
  - exists m'. split; [exact E|]. split; [exact L|]. split; [exact Hh|]. intros q Hq. apply F. lia.
Qed.

Lemma save_at_spec save src sp ms (dst : bytes) dp es : 0 <= es -> 0 <= ms -> 0 <= sp -> sp + ms <= len src -> 0 <= dp -> dp + es <= len dst ->
  (forall m, length m = Z.to_nat ms -> length (save m) = Z.to_nat es) ->
  exists dst', save_at save src sp ms dst dp es = Some dst' /\ length dst' = length dst /\ holds dst' dp (save (slice src sp ms)) /\
    forall q, ~ (dp <= q < dp + es) -> vec_get dst' q = vec_get dst q.
Proof.
  intros. unfold save_at. rewrite !read_slice by lia. cbn [obind].
  destruct (write_spec (Z.to_nat es) dst dp (save (slice src sp ms))) as (m' & E & L & Hh & F); [|lia|lia|].
  - apply H5; apply slice_length; lia.
  - exists m'. split; [exact E|]. split; [exact L|]. split; [exact Hh|]. intros q Hq. apply F. lia.
Qed.

(** ** Sizes *)

Lemma filter_sizes f : filter_ok f -> 0 < elem f /\ 0 < nelem f /\ 0 < msize f /\ 0 < ext_size f.
Proof.
  assert (Hm : forall a b : Z, 0 < a -> 0 < b -> 0 < a * b) by (intros; now apply Z.mul_pos_pos).
  induction f; cbn [filter_ok elem nelem]; intros (H1 & H2 & H3); unfold msize; cbn [elem nelem ext_size]; repeat split; try lia; try (apply Hm; tauto); try tauto; apply IHf; tauto.
Qed.

Lemma view_length f : forall m, filter_ok f -> length m = Z.to_nat (msize f) -> length (view f m) = Z.to_nat (ext_size f).
Proof.
  induction f; intros m Hok Hm; cbn [filter_ok elem nelem] in Hok; destruct Hok as (H1 & H2 & H3); unfold msize in Hm; cbn [elem nelem] in Hm; cbn [view ext_size].
  - now rewrite Z.mul_1_l in Hm.
  - exact Hm.
  - rewrite Z.mul_1_l in Hm. now apply H3.
  - now apply H3.
  - destruct H3 as (H3 & H4 & H5 & H6). apply IHf; [exact H6|]. pose proof (filter_sizes f H6). apply slice_length; lia.
Qed.

(** What copyMemberIn makes of a member *)
Fixpoint aos_put (f : filter B) (e m : bytes) : bytes :=
  match f with
  | FMember _ dflt pos f' => splice dflt pos (aos_put f' e (slice dflt pos (msize f')))
  | _ => put f e m
  end.

Lemma aos_put_length f : forall e m, filter_ok f -> length e = Z.to_nat (ext_size f) -> length m = Z.to_nat (msize f) ->
  length (aos_put f e m) = Z.to_nat (msize f).
Proof.
  induction f; intros e m Hok He Hm; cbn [filter_ok elem nelem] in Hok; destruct Hok as (H1 & H2 & H3); unfold msize in *; cbn [elem nelem] in *; cbn [aos_put put ext_size] in *.
  - now rewrite Z.mul_1_l.
  - exact He.
  - rewrite Z.mul_1_l in *. now apply H3.
  - now apply H3.
  - destruct H3 as (H3 & H4 & H5 & H6). pose proof (filter_sizes f H6) as (? & ? & Hms & ?). unfold msize in *. specialize (IHf e (slice dflt pos (nelem f * elem f)) H6 He). rewrite slice_length in IHf by lia.
    specialize (IHf eq_refl). rewrite splice_length; lia.
Qed.

Lemma concat_repeat (d : bytes) sz n : length d = Z.to_nat sz -> 0 <= sz -> 0 <= n -> len (concat (repeat d (Z.to_nat n))) = n * sz /\
  forall i, 0 <= i < n -> slice (concat (repeat d (Z.to_nat n))) (i * sz) sz = d.
Proof.
  intros Hd Hs Hn. assert (Hlen : forall k, len (concat (repeat d k)) = Z.of_nat k * sz).
  { induction k as [|k IH]; [reflexivity|]. cbn [repeat concat]. rewrite app_length. lia. }
  split; [rewrite Hlen; lia|]. intros i Hi. assert (Hh : holds (concat (repeat d (Z.to_nat n))) (i * sz) d).
  { remember (Z.to_nat n) as k eqn:Ek. revert i n Hn Hi Ek. induction k as [|k IH]; intros i n Hn Hi Ek; [lia|]. cbn [repeat concat]. intros x Hx. rewrite vec_get_app.
    pose proof (mul_step i n sz Hi Hs). destruct (Z.eq_dec i 0) as [->|Hi0].
    - destruct (Z.ltb_spec (0 * sz + x) (len d)); [|lia]. f_equal.
    - pose proof (mul_lt 0 i sz ltac:(lia) Hs). destruct (Z.ltb_spec (i * sz + x) (len d)); [lia|]. rewrite <- (IH (i - 1) (n - 1)) by lia. f_equal. lia. }
  pose proof (mul_step i n sz Hi Hs). replace sz with (len d) at 2 by lia. apply holds_slice; [exact Hh|lia|]. rewrite Hlen. lia.
Qed.

(** ** Array of Structs *)

Lemma put_len f src sp num : filter_ok f -> 0 <= sp -> sp + num * ext_size f <= len src -> forall i b, 0 <= i < num ->
  length b = Z.to_nat (msize f) -> length (aos_put f (slice src (sp + i * ext_size f) (ext_size f)) b) = Z.to_nat (msize f).
Proof.
  intros Hok Hsp Hs i b Hi Hb. pose proof (filter_sizes f Hok) as (P1 & P2 & P3 & P4). apply aos_put_length; [exact Hok| |exact Hb].
  pose proof (mul_step i num _ Hi (Z.lt_le_incl _ _ P4)). apply slice_length; lia.
Qed.

Lemma view_len f csize src sp num mp : filter_ok f -> 0 <= mp -> mp + msize f <= csize -> 0 <= sp -> sp + num * csize <= len src -> forall i, 0 <= i < num ->
  length (view f (slice src (sp + i * csize + mp) (msize f))) = Z.to_nat (ext_size f).
Proof.
  intros Hok Hmp Hms Hsp Hs i Hi. pose proof (filter_sizes f Hok) as (P1 & P2 & P3 & P4). apply view_length; [exact Hok|].
  pose proof (mul_step i num csize Hi ltac:(lia)). apply slice_length; lia.
Qed.

Lemma member_in_spec f : forall csize src sp tgt tp num mp, filter_ok f -> 0 <= mp -> mp + msize f <= csize -> 0 <= num ->
  0 <= tp -> tp + num * csize <= len tgt -> 0 <= sp -> sp + num * ext_size f <= len src ->
  exists tgt', member_in f csize src sp tgt tp num mp = Some tgt' /\ length tgt' = length tgt /\
    (forall q, (forall i, 0 <= i < num -> ~ (tp + i * csize + mp <= q < tp + i * csize + mp + msize f)) -> vec_get tgt' q = vec_get tgt q) /\
    forall i, 0 <= i < num -> holds tgt' (tp + i * csize + mp)
      (aos_put f (slice src (sp + i * ext_size f) (ext_size f)) (slice tgt (tp + i * csize + mp) (msize f))).
Proof.
  induction f; intros csize src sp tgt tp num mp Hok Hmp Hms Hn Htp Ht Hsp Hs; pose proof (filter_sizes _ Hok) as (P1 & P2 & P3 & P4);
    assert (Hcs : 0 <= csize) by lia;
    pose proof (put_len _ src sp num Hok Hsp Hs) as Hap;
    cbn [member_in]; cbn [filter_ok elem nelem] in Hok; destruct Hok as (H1 & H2 & H3).
  - apply (loop_blocks _ (fun i => tp + i * csize + mp) num (msize (B := B) (FDefault size)) (fun i b => aos_put (FDefault size) (slice src (sp + i * size) size) b)); auto; try lia.
    + intros i j Hi Hj. pose proof (mul_lt i j csize ltac:(lia) Hcs). lia.
    + intros i Hi. pose proof (mul_step i num csize Hi Hcs). lia.
    + intros i m1 Hi L1. unfold msize in *. cbn [elem nelem aos_put put ext_size] in *. pose proof (mul_step i num csize Hi Hcs). pose proof (mul_step i num size Hi ltac:(lia)). rewrite Z.mul_1_l in *.
      apply copy_spec; lia.
  - apply (loop_blocks _ (fun i => tp + i * csize + mp) num (msize (B := B) (FArray size arity)) (fun i b => aos_put (FArray size arity) (slice src (sp + i * (arity * size)) (arity * size)) b)); auto; try lia.
    + intros i j Hi Hj. pose proof (mul_lt i j csize ltac:(lia) Hcs). lia.
    + intros i Hi. pose proof (mul_step i num csize Hi Hcs). lia.
    + intros i m1 Hi L1. unfold msize in *. cbn [elem nelem aos_put put ext_size] in *. pose proof (mul_step i num csize Hi Hcs). pose proof (mul_step i num (arity * size) Hi ltac:(lia)).
      replace (i * arity * size) with (i * (arity * size)) by ring. apply copy_spec; lia.
  - apply (loop_blocks _ (fun i => tp + i * csize + mp) num (msize (FSimple ms es load save)) (fun i b => aos_put (FSimple ms es load save) (slice src (sp + i * es) es) b)); auto; try lia.
    + intros i j Hi Hj. pose proof (mul_lt i j csize ltac:(lia) Hcs). lia.
    + intros i Hi. pose proof (mul_step i num csize Hi Hcs). lia.
    + intros i m1 Hi L1. unfold msize in *. cbn [elem nelem aos_put put ext_size] in *. pose proof (mul_step i num csize Hi Hcs). pose proof (mul_step i num es Hi ltac:(lia)). rewrite Z.mul_1_l in *.
      apply load_at_spec; try lia. intros e m He Hm. now apply H3.
  - apply (loop_blocks _ (fun i => tp + i * csize + mp) num (msize (FSimpleArray ms es arity load save)) (fun i b => aos_put (FSimpleArray ms es arity load save) (slice src (sp + i * (arity * es)) (arity * es)) b)); auto; try lia.
    + intros i j Hi Hj. pose proof (mul_lt i j csize ltac:(lia) Hcs). lia.
    + intros i Hi. pose proof (mul_step i num csize Hi Hcs). lia.
    + intros i m1 Hi L1. unfold msize in *. cbn [elem nelem aos_put put ext_size] in *. pose proof (mul_step i num csize Hi Hcs). pose proof (mul_step i num (arity * es) Hi ltac:(lia)).
      replace (i * arity * es) with (i * (arity * es)) by ring. apply load_at_spec; try lia. intros e m He Hm. now apply H3.
  - destruct H3 as (H3 & H4 & H5 & H6). cbn [ext_size] in *. unfold msize in Hms, P3, Hap. cbn [elem nelem] in *. rewrite Z.mul_1_l in *.
    destruct (concat_repeat dflt size num H3 ltac:(lia) Hn) as [Lr Sr].
    destruct (IHf size src sp (concat (repeat dflt (Z.to_nat num))) 0 num pos H6 H4 H5 Hn) as (buf & Eb & Lb & Fb & Gb); try lia.
    rewrite Eb. cbn [obind].
    assert (Hbuf : forall i, 0 <= i < num -> slice buf (i * size) size = splice dflt pos (aos_put f (slice src (sp + i * ext_size f) (ext_size f)) (slice dflt pos (msize f)))).
    { intros i Hi. pose proof (filter_sizes f H6) as (Q1 & Q2 & Q3 & Q4). pose proof (mul_step i num size Hi ltac:(lia)). pose proof (mul_step i num (ext_size f) Hi ltac:(lia)).
      assert (Ld : length (aos_put f (slice src (sp + i * ext_size f) (ext_size f)) (slice dflt pos (msize f))) = Z.to_nat (msize f)) by (apply aos_put_length; auto; apply slice_length; lia).
      apply splice_char; rewrite ?slice_length; try lia.
      - intros k Hk. rewrite get_slice by lia. specialize (Gb i Hi k). cbn [Z.add] in Gb.
        replace (slice (concat (repeat dflt (Z.to_nat num))) (i * size + pos) (msize f)) with (slice dflt pos (msize f)) in Gb.
        + rewrite <- Gb by lia. f_equal. lia.
        + rewrite <- (Sr i Hi) at 1. apply slice_slice; lia.
      - intros q Hq. rewrite Ld in Hq. destruct (Z_lt_dec q 0) as [Hq0|Hq0]; [rewrite !vec_get_out; auto; lia|].
        destruct (Z_lt_dec q size) as [Hq1|Hq1]; [|rewrite !vec_get_out; auto; try lia; rewrite slice_length; lia].
        rewrite get_slice by lia. rewrite <- (Sr i Hi) at 1. rewrite get_slice by lia. apply Fb. intros j Hj. intros Hx.
        destruct (Z.eq_dec i j) as [->|Hij]; [lia|]. destruct (Z_lt_dec i j).
        + pose proof (mul_lt i j size ltac:(lia) ltac:(lia)). lia.
        + pose proof (mul_lt j i size ltac:(lia) ltac:(lia)). lia. }
    unfold msize. cbn [elem nelem]. rewrite !Z.mul_1_l.
    destruct (loop_blocks (fun i m => copy buf (i * size) size m (tp + i * csize + mp)) (fun i => tp + i * csize + mp) num size (fun i _ => slice buf (i * size) size) tgt) as (tgt' & E & L & F & G); try lia.
    + intros i j Hi Hj. pose proof (mul_lt i j csize ltac:(lia) Hcs). lia.
    + intros i Hi. pose proof (mul_step i num csize Hi Hcs). lia.
    + intros i m1 Hi L1. pose proof (mul_step i num csize Hi Hcs). pose proof (mul_step i num size Hi ltac:(lia)). apply copy_spec; lia.
    + intros i b Hi _. pose proof (mul_step i num size Hi ltac:(lia)). apply slice_length; lia.
    + exists tgt'. split; [exact E|]. split; [exact L|]. split; [exact F|]. intros i Hi. cbn [aos_put]. rewrite <- (Hbuf i Hi). now apply G.
Qed.

Lemma member_out_spec f : forall csize src sp tgt tp num mp, filter_ok f -> 0 <= mp -> mp + msize f <= csize -> 0 <= num ->
  0 <= sp -> sp + num * csize <= len src -> 0 <= tp -> tp + num * ext_size f <= len tgt ->
  exists tgt', member_out f csize src sp tgt tp num mp = Some tgt' /\ length tgt' = length tgt /\
    (forall q, ~ (tp <= q < tp + num * ext_size f) -> vec_get tgt' q = vec_get tgt q) /\
    forall i, 0 <= i < num -> holds tgt' (tp + i * ext_size f) (view f (slice src (sp + i * csize + mp) (msize f))).
Proof.
  assert (W : forall sz n t0 (t1 t2 : bytes), 0 <= sz ->
    (forall q, (forall i, 0 <= i < n -> ~ (t0 + i * sz <= q < t0 + i * sz + sz)) -> vec_get t2 q = vec_get t1 q) ->
    forall q, ~ (t0 <= q < t0 + n * sz) -> vec_get t2 q = vec_get t1 q).
  { intros sz n t0 t1 t2 Hsz H q Hq. apply H. intros i Hi Hx. pose proof (mul_step i n sz Hi Hsz). lia. }
  induction f; intros csize src sp tgt tp num mp Hok Hmp Hms Hn Hsp Hs Htp Ht; pose proof (filter_sizes _ Hok) as (P1 & P2 & P3 & P4);
    assert (Hcs : 0 <= csize) by lia;
    pose proof (view_len _ csize src sp num mp Hok Hmp Hms Hsp Hs) as Hap;
    cbn [member_out]; cbn [filter_ok elem nelem] in Hok; destruct Hok as (H1 & H2 & H3).
  - destruct (loop_blocks (fun i m => copy src (sp + i * csize + mp) size m (tp + i * size)) (fun i => tp + i * size) num size (fun i _ => view (FDefault size) (slice src (sp + i * csize + mp) (msize (B := B) (FDefault size)))) tgt) as (t' & E & L & F & G); try lia.
    + intros i j Hi Hj. pose proof (mul_lt i j size ltac:(lia) ltac:(lia)). lia.
    + intros i Hi. cbn [ext_size] in *. pose proof (mul_step i num size Hi ltac:(lia)). lia.
    + intros i m1 Hi L1. unfold msize in *. cbn [elem nelem view ext_size] in *. pose proof (mul_step i num csize Hi Hcs). pose proof (mul_step i num size Hi ltac:(lia)). rewrite Z.mul_1_l in *.
      apply copy_spec; lia.
    + intros i b Hi _. now apply Hap.
    + exists t'. split; [exact E|]. split; [exact L|]. split; [apply W; [cbn; lia|exact F]|exact G].
  - assert (El : forall m, loop num (fun i m => copy src (sp + i * csize + mp) (arity * size) m (tp + i * arity * size)) m = loop num (fun i m => copy src (sp + i * csize + mp) (arity * size) m (tp + i * (arity * size))) m).
    { intros m. unfold loop. generalize (zrange 0 num) as l. intros l. revert m. induction l as [|i l IH]; intros m; [reflexivity|]. cbn [each]. rewrite Z.mul_assoc. destruct (copy _ _ _ _ _); [apply IH|reflexivity]. }
    rewrite El. clear El.
    destruct (loop_blocks (fun i m => copy src (sp + i * csize + mp) (arity * size) m (tp + i * (arity * size))) (fun i => tp + i * (arity * size)) num (arity * size) (fun i _ => view (FArray size arity) (slice src (sp + i * csize + mp) (msize (B := B) (FArray size arity)))) tgt) as (t' & E & L & F & G).
    + cbn [ext_size] in *. lia.
    + intros i j Hi Hj. cbn [ext_size] in *. pose proof (mul_lt i j (arity * size) ltac:(lia) ltac:(lia)). lia.
    + intros i Hi. cbn [ext_size] in *. pose proof (mul_step i num (arity * size) Hi ltac:(lia)). lia.
    + intros i m1 Hi L1. unfold msize in *. cbn [elem nelem view ext_size] in *. pose proof (mul_step i num csize Hi Hcs). pose proof (mul_step i num (arity * size) Hi ltac:(lia)).
      apply copy_spec; lia.
    + intros i b Hi _. now apply Hap.
    + exists t'. split; [exact E|]. split; [exact L|]. split; [apply W; [cbn [ext_size]; cbn [ext_size] in P4; lia|exact F]|exact G].
  - destruct (loop_blocks (fun i m => save_at save src (sp + i * csize + mp) ms m (tp + i * es) es) (fun i => tp + i * es) num es (fun i _ => view (FSimple ms es load save) (slice src (sp + i * csize + mp) (msize (FSimple ms es load save)))) tgt) as (t' & E & L & F & G); try lia.
    + intros i j Hi Hj. pose proof (mul_lt i j es ltac:(lia) ltac:(lia)). lia.
    + intros i Hi. cbn [ext_size] in *. pose proof (mul_step i num es Hi ltac:(lia)). lia.
    + intros i m1 Hi L1. unfold msize in *. cbn [elem nelem view ext_size] in *. pose proof (mul_step i num csize Hi Hcs). pose proof (mul_step i num es Hi ltac:(lia)). rewrite Z.mul_1_l in *.
      apply save_at_spec; try lia. intros m Hm. now apply H3.
    + intros i b Hi _. now apply Hap.
    + exists t'. split; [exact E|]. split; [exact L|]. split; [apply W; [cbn; lia|exact F]|exact G].
  - assert (El : forall m, loop num (fun i m => save_at save src (sp + i * csize + mp) (arity * ms) m (tp + i * arity * es) (arity * es)) m = loop num (fun i m => save_at save src (sp + i * csize + mp) (arity * ms) m (tp + i * (arity * es)) (arity * es)) m).
    { intros m. unfold loop. generalize (zrange 0 num) as l. intros l. revert m. induction l as [|i l IH]; intros m; [reflexivity|]. cbn [each]. rewrite Z.mul_assoc. destruct (save_at _ _ _ _ _ _ _); [apply IH|reflexivity]. }
    rewrite El. clear El.
    destruct (loop_blocks (fun i m => save_at save src (sp + i * csize + mp) (arity * ms) m (tp + i * (arity * es)) (arity * es)) (fun i => tp + i * (arity * es)) num (arity * es) (fun i _ => view (FSimpleArray ms es arity load save) (slice src (sp + i * csize + mp) (msize (FSimpleArray ms es arity load save)))) tgt) as (t' & E & L & F & G).
    + cbn [ext_size] in *. lia.
    + intros i j Hi Hj. cbn [ext_size] in *. pose proof (mul_lt i j (arity * es) ltac:(lia) ltac:(lia)). lia.
    + intros i Hi. cbn [ext_size] in *. pose proof (mul_step i num (arity * es) Hi ltac:(lia)). lia.
    + intros i m1 Hi L1. unfold msize in *. cbn [elem nelem view ext_size] in *. pose proof (mul_step i num csize Hi Hcs). pose proof (mul_step i num (arity * es) Hi ltac:(lia)).
      apply save_at_spec; try lia. intros m Hm. now apply H3.
    + intros i b Hi _. now apply Hap.
    + exists t'. split; [exact E|]. split; [exact L|]. split; [apply W; [cbn [ext_size]; cbn [ext_size] in P4; lia|exact F]|exact G].
  - destruct H3 as (H3 & H4 & H5 & H6). cbn [ext_size] in *. unfold msize in Hms, P3, Hap. cbn [elem nelem] in *. rewrite Z.mul_1_l in *.
    destruct (concat_repeat dflt size num H3 ltac:(lia) Hn) as [Lr _].
    destruct (loop_blocks (fun i m => copy src (sp + i * csize + mp) size m (i * size)) (fun i => i * size) num size (fun i _ => slice src (sp + i * csize + mp) size) (concat (repeat dflt (Z.to_nat num)))) as (buf & Eb & Lb & Fb & Gb); try lia.
    + intros i j Hi Hj. pose proof (mul_lt i j size ltac:(lia) ltac:(lia)). lia.
    + intros i Hi. pose proof (mul_step i num size Hi ltac:(lia)). lia.
    + intros i m1 Hi L1. pose proof (mul_step i num csize Hi Hcs). pose proof (mul_step i num size Hi ltac:(lia)). apply copy_spec; lia.
    + intros i b Hi _. pose proof (mul_step i num csize Hi Hcs). apply slice_length; lia.
    + rewrite Eb. cbn [obind]. destruct (IHf size buf 0 tgt tp num pos H6 H4 H5 Hn) as (t' & E & L & F & G); try lia.
      exists t'. split; [exact E|]. split; [exact L|]. split; [exact F|]. intros i Hi. specialize (G i Hi). cbn [view]. change (msize (FMember size dflt pos f)) with (1 * size). rewrite Z.mul_1_l.
      replace (slice (slice src (sp + i * csize + mp) size) pos (msize f)) with (slice buf (0 + i * size + pos) (msize f)); [exact G|].
      pose proof (filter_sizes f H6) as (_ & _ & Q3 & _). pose proof (mul_step i num csize Hi Hcs). pose proof (mul_step i num size Hi ltac:(lia)).
      rewrite <- (slice_slice buf (0 + i * size) size) by lia. f_equal. cbn [Z.add].
      replace size with (len (slice src (sp + i * csize + mp) size)) at 2 by (rewrite slice_length; lia). apply holds_slice; [now apply Gb|lia|rewrite slice_length; lia].
Qed.
End Filters.
