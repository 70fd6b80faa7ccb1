(** Accessing a member of all cells in a row. *)
From Verif Require Import Base ListFacts RegionSpec RegionModel RegionStreaks RegionOpsModel CoordModel PatchModel GridModel GridFacts SoAModel SelectorModel SelectorSpec BytesFacts FilterFacts StreakFilterFacts LayoutFacts.
From Coq Require Import Lia.

Section Rows.
Context {B : Type}.
Notation bytes := (list B).
Notation len l := (Z.of_nat (length l)).

(** Cells after an update by external values, which are found at [sp] *)
Fixpoint news (upd : bytes -> bytes -> bytes) (src : bytes) (ext sp : Z) (olds : list bytes) : list bytes :=
  match olds with [] => [] | c :: olds' => upd (slice src sp ext) c :: news upd src ext (sp + ext) olds' end.

Lemma news_length upd src ext : forall olds sp, length (news upd src ext sp olds) = length olds.
Proof. induction olds; intros; cbn; auto. Qed.

Lemma news_get upd src ext : forall olds sp i, vec_get (news upd src ext sp olds) i = option_map (upd (slice src (sp + i * ext) ext)) (vec_get olds i).
Proof.
  induction olds as [|c olds IH]; intros sp i; cbn [news].
  - unfold vec_get. destruct (i <? 0); [reflexivity|]. now destruct (Z.to_nat i).
  - destruct (Z.eq_dec i 0) as [->|Hi]; [cbn; now rewrite Z.add_0_r|]. destruct (Z_lt_dec i 0) as [Hn|Hn].
    + unfold vec_get. destruct (Z.ltb_spec i 0); [reflexivity|lia].
    + rewrite !vec_get_cons by lia. rewrite IH. replace (sp + ext + (i - 1) * ext) with (sp + i * ext) by ring. reflexivity.
Qed.

Lemma news_app upd src ext : forall a sp b, news upd src ext sp (a ++ b) = news upd src ext sp a ++ news upd src ext (sp + ext * len a) b.
Proof.
  induction a as [|c a IH]; intros sp b; cbn [app news length]; [f_equal; lia|]. f_equal. rewrite IH. do 2 f_equal. lia.
Qed.

(** Rows of cells: replacing some *)
Lemma row_write (cells : list bytes) i0 num vs : 0 <= i0 -> 0 <= num -> i0 + num <= len cells -> length vs = Z.to_nat num ->
  exists cells', vec_write cells i0 (Z.to_nat num) vs = Some cells' /\ length cells' = length cells /\
    forall i, vec_get cells' i = if (i0 <=? i) && (i <? i0 + num) then vec_get vs (i - i0) else vec_get cells i.
Proof.
  intros H1 H2 H3 Lv. destruct (write_spec (Z.to_nat num) cells i0 vs Lv H1 ltac:(lia)) as (cells' & E & L & Hh & F). exists cells'. split; [exact E|]. split; [exact L|].
  intros i. destruct (Z.leb_spec i0 i), (Z.ltb_spec i (i0 + num)); cbn [andb]; try (apply F; lia). rewrite <- Hh by lia. f_equal. lia.
Qed.

Lemma concat_cells csize (cells : list bytes) : 0 <= csize -> Forall (fun c => length c = Z.to_nat csize) cells ->
  len (concat cells) = len cells * csize /\ forall i c, vec_get cells i = Some c -> slice (concat cells) (i * csize) csize = c.
Proof.
  intros Hc Hf. assert (H : len (concat cells) = len cells * csize /\ forall i c, vec_get cells i = Some c -> holds (concat cells) (i * csize) c).
  { induction Hf as [|x cells Hx Hf IH]; [split; [reflexivity|]; intros i c H; unfold vec_get in H; destruct (i <? 0); [discriminate|destruct (Z.to_nat i); discriminate]|].
    destruct IH as [L G]. cbn [concat length]. split; [rewrite app_length; lia|]. intros i c Hi k Hk. rewrite vec_get_app.
    assert (Hr : 0 <= i) by (assert (Hex : exists v, vec_get (x :: cells) i = Some v) by eauto; apply vec_get_in in Hex; lia).
    destruct (Z.eq_dec i 0) as [->|Hi0].
    - injection Hi as <-. destruct (Z.ltb_spec (0 * csize + k) (len x)); [|lia]. f_equal.
    - rewrite vec_get_cons in Hi by lia. pose proof (mul_lt 0 i csize ltac:(lia) Hc). destruct (Z.ltb_spec (i * csize + k) (len x)); [lia|].
      rewrite <- (G (i - 1) c Hi k Hk). f_equal. lia. }
  destruct H as [L G]. split; [exact L|]. intros i c Hi. assert (Hr : 0 <= i < len cells) by (apply vec_get_in; eauto).
  assert (Lc : length c = Z.to_nat csize). { rewrite Forall_forall in Hf. apply Hf. unfold vec_get in Hi. destruct (i <? 0); [discriminate|]. now apply nth_error_In in Hi. }
  pose proof (mul_step i (len cells) csize Hr Hc). replace csize with (len c) at 2 by lia. apply holds_slice; [now apply G|lia|lia].
Qed.

Lemma cut_concat csize (cells : list bytes) : 0 <= csize -> Forall (fun c => length c = Z.to_nat csize) cells -> cut csize (length cells) (concat cells) = cells.
Proof.
  intros Hc. induction 1 as [|x cells Hx Hf IH]; [reflexivity|]. cbn [length cut concat]. rewrite <- Hx at 1 2.
  rewrite firstn_app, Nat.sub_diag, firstn_all, firstn_O, app_nil_r, skipn_app, Nat.sub_diag, skipn_all, skipn_O. cbn [app]. now rewrite IH.
Qed.

Lemma get_length csize (cells : list bytes) i c : Forall (fun c => length c = Z.to_nat csize) cells -> vec_get cells i = Some c -> length c = Z.to_nat csize.
Proof. intros Hf Hi. rewrite Forall_forall in Hf. apply Hf. unfold vec_get in Hi. destruct (i <? 0); [discriminate|]. now apply nth_error_In in Hi. Qed.

Lemma forall_get csize (cells : list bytes) : (forall i c, vec_get cells i = Some c -> length c = Z.to_nat csize) -> Forall (fun c => length c = Z.to_nat csize) cells.
Proof.
  intros H. apply Forall_forall. intros c Hc. apply In_nth_error in Hc. destruct Hc as (k & Hk). apply (H (Z.of_nat k)). unfold vec_get.
  destruct (Z.ltb_spec (Z.of_nat k) 0); [lia|]. now rewrite Nat2Z.id.
Qed.

(** The values of a row, one after the other *)
Lemma rows_out (vs : list bytes) ext (tgt tgt' : bytes) tp : 0 < ext -> 0 <= tp -> Forall (fun v => length v = Z.to_nat ext) vs -> tp + len vs * ext <= len tgt ->
  length tgt' = length tgt -> (forall q, ~ (tp <= q < tp + len vs * ext) -> vec_get tgt' q = vec_get tgt q) ->
  (forall i v, vec_get vs i = Some v -> holds tgt' (tp + i * ext) v) -> tgt' = splice tgt tp (concat vs).
Proof.
  intros He Htp Hv Hb L F G. destruct (concat_cells ext vs ltac:(lia) Hv) as [Lc Hc]. destruct vs as [|v0 vs'] eqn:Ev.
  { apply splice_char; cbn [concat length] in *; try lia; [intros k Hk; cbn in Hk; lia|]. intros q Hq. apply F. lia. }
  rewrite <- Ev in *. clear Ev v0 vs'. apply splice_char; try lia.
  - assert (Es : slice tgt' tp (len vs * ext) = concat vs).
    { destruct (Z.eq_dec (len vs) 0) as [E0|E0]; [destruct vs; [reflexivity|cbn in E0; lia]|].
      assert (0 <= len vs * ext) by (apply Z.mul_nonneg_nonneg; lia).
      apply (elements_eq _ _ ext (len vs)); try lia; [rewrite slice_length; lia|]. intros j Hj. pose proof (mul_step j (len vs) ext Hj ltac:(lia)).
      apply vec_get_in in Hj. destruct Hj as (v & Hj). rewrite (Hc j v Hj), slice_slice by lia. pose proof (get_length ext vs j v Hv Hj).
      replace ext with (len v) at 2 by lia. apply holds_slice; [now apply G|lia|lia]. }
    rewrite <- Es. assert (0 <= len vs * ext) by (apply Z.mul_nonneg_nonneg; lia). apply slice_holds; lia.
  - intros q Hq. apply F. lia.
Qed.

Lemma splice_app (t : bytes) p a b : 0 <= p -> p + len a + len b <= len t -> splice (splice t p a) (p + len a) b = splice t p (a ++ b).
Proof.
  intros H1 H2. symmetry. apply splice_char; rewrite ?splice_length; rewrite ?splice_length; try lia; rewrite ?app_length; try lia.
  - intros k Hk. rewrite get_splice by (rewrite ?app_length; lia). rewrite app_length. destruct (Z.leb_spec p (p + len a + k)), (Z.ltb_spec (p + len a + k) (p + Z.of_nat (length a + length b))); try lia.
    cbn [andb]. rewrite vec_get_app. destruct (Z.ltb_spec (p + len a + k - p) (len a)); [lia|]. f_equal. lia.
  - intros q Hq. rewrite !get_splice by (rewrite ?app_length; lia). rewrite app_length. destruct (Z.leb_spec p q); cbn [andb]; [|reflexivity].
    destruct (Z.ltb_spec q (p + Z.of_nat (length a + length b))), (Z.ltb_spec q (p + len a)); try lia; try reflexivity. rewrite vec_get_app. destruct (Z.ltb_spec (q - p) (len a)); [reflexivity|lia].
Qed.

(** ** Array of Structs *)

Section AoS.
Context (csize : Z) (f : filter B) (pos : Z).
Context (Hok : filter_ok f) (Hpos : 0 <= pos) (Hms : pos + msize f <= csize).

Definition aos_upd (e c : bytes) : bytes := splice c pos (aos_put f e (slice c pos (msize f))).

Lemma aos_upd_length e c : length c = Z.to_nat csize -> length e = Z.to_nat (ext_size f) -> length (aos_upd e c) = Z.to_nat csize.
Proof using Hok Hpos Hms.
  intros Lc Le. unfold aos_upd. pose proof (filter_sizes f Hok) as (_ & _ & P3 & _). pose proof (aos_put_length f e (slice c pos (msize f)) Hok Le) as La.
  rewrite slice_length in La by lia. specialize (La eq_refl). rewrite splice_length; lia.
Qed.

Lemma aos_row_in cells src sp i0 num olds : Forall (fun c => length c = Z.to_nat csize) cells -> 0 <= i0 -> 0 <= num -> i0 + num <= len cells ->
  0 <= sp -> sp + num * ext_size f <= len src -> vec_read cells i0 (Z.to_nat num) = Some olds ->
  exists mem' cells', member_in f csize src sp (concat cells) (csize * i0) num pos = Some mem' /\
    vec_write cells i0 (Z.to_nat num) (news aos_upd src (ext_size f) sp olds) = Some cells' /\
    cut csize (length cells) mem' = cells' /\ length cells' = length cells /\ Forall (fun c => length c = Z.to_nat csize) cells'.
Proof using Hok Hpos Hms.
  intros Hf Hi0 Hn Hb Hsp Hs Hr. pose proof (filter_sizes f Hok) as (_ & _ & P3 & P4). assert (Hcs : 0 <= csize) by lia.
  apply read_holds in Hr. destruct Hr as [Lo Ho]. destruct (concat_cells csize cells Hcs Hf) as [Lm Gm].
  assert (Hbm : csize * i0 + num * csize <= len (concat cells)). { rewrite Lm. assert ((i0 + num) * csize <= len cells * csize) by (apply Z.mul_le_mono_nonneg_r; lia). lia. }
  assert (Hi0c : 0 <= csize * i0) by (apply Z.mul_nonneg_nonneg; lia).
  destruct (member_in_spec f csize src sp (concat cells) (csize * i0) num pos) as (mem' & E & L & F & G); try assumption.
  destruct (row_write cells i0 num (news aos_upd src (ext_size f) sp olds)) as (cells' & E' & L' & G'); try lia; [rewrite news_length; lia|].
  assert (Hnew : forall i, i0 <= i < i0 + num -> exists c, vec_get cells i = Some c /\ vec_get cells' i = Some (aos_upd (slice src (sp + (i - i0) * ext_size f) (ext_size f)) c)).
  { intros i Hi. assert (Hc : 0 <= i < len cells) by lia. apply vec_get_in in Hc. destruct Hc as (c & Hc). exists c. split; [exact Hc|]. rewrite G', news_get.
    destruct (Z.leb_spec i0 i), (Z.ltb_spec i (i0 + num)); try lia. cbn [andb]. rewrite <- Ho by lia. replace (i0 + (i - i0)) with i by lia. rewrite Hc. reflexivity. }
  assert (Hf' : Forall (fun c => length c = Z.to_nat csize) cells').
  { apply forall_get. intros i c Hi. rewrite G' in Hi. destruct (Z.leb_spec i0 i), (Z.ltb_spec i (i0 + num)); cbn [andb] in Hi; try (now apply (get_length csize cells i)).
    destruct (Hnew i ltac:(lia)) as (c0 & H1 & H2). rewrite G' in H2. destruct (Z.leb_spec i0 i), (Z.ltb_spec i (i0 + num)); try lia. cbn [andb] in H2. rewrite Hi in H2. injection H2 as ->.
    pose proof (mul_step (i - i0) num (ext_size f) ltac:(lia) ltac:(lia)). apply aos_upd_length; [now apply (get_length csize cells i)|]. apply slice_length; lia. }
  destruct (concat_cells csize cells' Hcs Hf') as [Lm' Gm'].
  exists mem', cells'. split; [exact E|]. split; [exact E'|]. split; [|split; [exact L'|exact Hf']].
  enough (mem' = concat cells') as -> by (rewrite <- L'; now apply cut_concat).
  destruct (Z.eq_dec (len cells) 0) as [E0|E0].
  { apply vec_ext; [lia|]. intros q Hq. exfalso. rewrite E0 in Lm. lia. }
  apply (elements_eq _ _ csize (len cells)); try lia. intros j Hj. pose proof (mul_step j (len cells) csize Hj Hcs).
  assert (Hj2 := Hj). apply vec_get_in in Hj2. destruct Hj2 as (c & Hc). pose proof (get_length csize cells j c Hf Hc) as Lcj.
  destruct (Z.leb_spec i0 j) as [Hj1|Hj1], (Z.ltb_spec j (i0 + num)) as [Hj2|Hj2].
  - destruct (Hnew j ltac:(lia)) as (c0 & H1 & H2). assert (c0 = c) as -> by congruence. rewrite (Gm' j _ H2).
    pose proof (mul_step (j - i0) num (ext_size f) ltac:(lia) ltac:(lia)). pose proof (mul_step (j - i0) num csize ltac:(lia) Hcs).
    assert (La : length (aos_put f (slice src (sp + (j - i0) * ext_size f) (ext_size f)) (slice c pos (msize f))) = Z.to_nat (msize f)) by (apply aos_put_length; auto; apply slice_length; lia).
    apply splice_char; rewrite ?La; try lia; [rewrite slice_length; lia| |].
    + intros k Hk. rewrite La in Hk. rewrite get_slice by lia. specialize (G (j - i0) ltac:(lia)). 
      replace (csize * i0 + (j - i0) * csize + pos) with (j * csize + pos) in G by ring.
      rewrite <- (slice_slice (concat cells) (j * csize) csize pos (msize f)) in G by lia. rewrite (Gm j c Hc) in G. rewrite <- G by lia. f_equal. lia.
    + intros q Hq. destruct (Z_lt_dec q 0); [rewrite !vec_get_out; auto; lia|]. destruct (Z_lt_dec q csize); [|rewrite !vec_get_out; auto; rewrite ?slice_length; lia].
      rewrite get_slice by lia. rewrite <- (Gm j c Hc). rewrite get_slice by lia. apply F. intros i Hi Hx.
      destruct (Z.lt_trichotomy (i0 + i) j) as [Hl|[Hl|Hl]].
      * pose proof (mul_lt (i0 + i) j csize Hl Hcs). lia.
      * subst j. lia.
      * pose proof (mul_lt j (i0 + i) csize Hl Hcs). lia.
  - assert (Hc' : vec_get cells' j = Some c). { rewrite G'. destruct (Z.leb_spec i0 j), (Z.ltb_spec j (i0 + num)); try lia. exact Hc. }
    rewrite (Gm' j c Hc'), <- (Gm j c Hc). apply slice_ext; try lia. intros q Hq. apply F. intros i Hi Hx. pose proof (mul_lt (i0 + i) j csize ltac:(lia) Hcs). lia.
  - assert (Hc' : vec_get cells' j = Some c). { rewrite G'. destruct (Z.leb_spec i0 j), (Z.ltb_spec j (i0 + num)); try lia. exact Hc. }
    rewrite (Gm' j c Hc'), <- (Gm j c Hc). apply slice_ext; try lia. intros q Hq. apply F. intros i Hi Hx. pose proof (mul_lt j (i0 + i) csize ltac:(lia) Hcs). lia.
  - exfalso. lia.
Qed.

Lemma aos_row_out cells tgt tp i0 num olds : Forall (fun c => length c = Z.to_nat csize) cells -> 0 <= i0 -> 0 <= num -> i0 + num <= len cells ->
  0 <= tp -> tp + num * ext_size f <= len tgt -> vec_read cells i0 (Z.to_nat num) = Some olds ->
  member_out f csize (concat cells) (csize * i0) tgt tp num pos = Some (splice tgt tp (concat (map (fun c => view f (slice c pos (msize f))) olds))).
Proof using Hok Hpos Hms.
  intros Hf Hi0 Hn Hb Htp Ht Hr. pose proof (filter_sizes f Hok) as (_ & _ & P3 & P4). assert (Hcs : 0 <= csize) by lia.
  apply read_holds in Hr. destruct Hr as [Lo Ho]. destruct (concat_cells csize cells Hcs Hf) as [Lm Gm].
  assert (Hbm : csize * i0 + num * csize <= len (concat cells)). { rewrite Lm. assert ((i0 + num) * csize <= len cells * csize) by (apply Z.mul_le_mono_nonneg_r; lia). lia. }
  assert (Hi0c : 0 <= csize * i0) by (apply Z.mul_nonneg_nonneg; lia).
  destruct (member_out_spec f csize (concat cells) (csize * i0) tgt tp num pos) as (tgt' & E & L & F & G); try assumption. rewrite E. f_equal.
  assert (Hl : forall i, 0 <= i < num -> exists c, vec_get olds i = Some c /\ length c = Z.to_nat csize /\ slice (concat cells) (csize * i0 + i * csize + pos) (msize f) = slice c pos (msize f)).
  { intros i Hi. assert (Hi' : 0 <= i < len olds) by lia. apply vec_get_in in Hi'. destruct Hi' as (c & Hc). exists c. split; [exact Hc|]. rewrite <- Ho in Hc by lia.
    split; [now apply (get_length csize cells (i0 + i))|]. replace (csize * i0 + i * csize + pos) with ((i0 + i) * csize + pos) by ring.
    pose proof (mul_step (i0 + i) (len cells) csize ltac:(lia) Hcs). rewrite <- (slice_slice (concat cells) ((i0 + i) * csize) csize) by lia. now rewrite (Gm _ c Hc). }
  assert (Hvl : len (map (fun c => view f (slice c pos (msize f))) olds) = num) by (rewrite map_length; lia).
  assert (Hv : forall i v, vec_get (map (fun c => view f (slice c pos (msize f))) olds) i = Some v ->
    exists c, 0 <= i < num /\ length c = Z.to_nat csize /\ v = view f (slice c pos (msize f)) /\ slice (concat cells) (csize * i0 + i * csize + pos) (msize f) = slice c pos (msize f)).
  { intros i v Hi. assert (Hr : 0 <= i < num) by (rewrite <- Hvl; apply vec_get_in; eauto). destruct (Hl i Hr) as (c & H1 & H2 & H3). exists c. split; [exact Hr|]. split; [exact H2|]. split; [|exact H3].
    unfold vec_get in *. destruct (i <? 0); [discriminate|]. rewrite nth_error_map, H1 in Hi. cbn in Hi. congruence. }
  apply (rows_out _ (ext_size f)); auto; rewrite ?Hvl; auto.
  - apply forall_get. intros i v Hi. destruct (Hv i v Hi) as (c & _ & H2 & -> & _). apply view_length; [exact Hok|]. apply slice_length; lia.
  - intros i v Hi. destruct (Hv i v Hi) as (c & H1 & H2 & -> & H4). specialize (G i H1). now rewrite H4 in G.
Qed.
End AoS.

(** ** Struct of Arrays *)

Section SoA.
Context (csize : Z) (reg : list memb) (Hreg : reg_ok csize reg) (k : nat) (m : memb) (Hk : nth_error reg k = Some m).
Context (f : filter B) (Hok : filter_ok f) (Hel : elem f = m_size m) (Hne : nelem f = m_arity m).
Context (junk : bytes) (Hjk : length junk = Z.to_nat (msize f)).
Notation off := (member_off reg k).

Definition soa_upd (e c : bytes) : bytes := splice c (m_pos m) (soa_put junk f e (get_memb c m)).

Lemma msize_len : msize f = memb_len m.
Proof using Hel Hne. unfold msize, memb_len. now rewrite Hel, Hne. Qed.

Lemma memb_length (c : bytes) : length c = Z.to_nat csize -> length (get_memb c m) = Z.to_nat (memb_len m) /\ 0 < memb_len m.
Proof using All.
  intros Lc. pose proof (memb_nth csize reg Hreg k m Hk) as (P1 & P2 & P3 & P4). clear junk Hjk. pose proof (filter_sizes f Hok) as (_ & _ & Q3 & _). rewrite msize_len in Q3.
  split; [apply slice_length; lia|exact Q3].
Qed.

Lemma soa_put_len (e c : bytes) : length c = Z.to_nat csize -> length e = Z.to_nat (ext_size f) -> length (soa_put junk f e (get_memb c m)) = Z.to_nat (memb_len m).
Proof using All. intros Lc Le. rewrite <- msize_len. apply soa_put_length; auto. rewrite msize_len. now apply memb_length. Qed.

Lemma soa_upd_length e c : length c = Z.to_nat csize -> length e = Z.to_nat (ext_size f) -> length (soa_upd e c) = Z.to_nat csize.
Proof using All.
  intros Lc Le. unfold soa_upd. pose proof (memb_nth csize reg Hreg k m Hk) as (P1 & P2 & P3 & P4). pose proof (soa_put_len e c Lc Le). destruct (memb_length c Lc). rewrite splice_length; lia.
Qed.

(** The row at [i0] *)
Lemma row_addr n i0 i j : blk (n * off + i0 * m_size m) n (m_size m) i j = soa_addr n off (m_size m) j (i0 + i).
Proof using. unfold blk, soa_addr. ring. Qed.

Lemma row_bounds n i0 num : 0 <= i0 -> 0 <= num -> i0 + num <= n ->
  0 <= n * off + i0 * m_size m /\ n * off + i0 * m_size m + ((m_arity m - 1) * n + num) * m_size m <= n * cell_bytes reg.
Proof using All.
  intros H1 H2 H3. pose proof (memb_nth csize reg Hreg k m Hk) as (P1 & P2 & P3 & P4). destruct (off_bound csize reg k m (proj1 Hreg) Hk) as [O1 O2].
  assert (0 <= n * off) by (apply Z.mul_nonneg_nonneg; lia). assert (0 <= i0 * m_size m) by (apply Z.mul_nonneg_nonneg; lia).
  assert (n * (off + memb_len m) <= n * cell_bytes reg) by (apply Z.mul_le_mono_nonneg_l; lia).
  assert ((i0 + num) * m_size m <= n * m_size m) by (apply Z.mul_le_mono_nonneg_r; lia).
  unfold memb_len in *. split; [lia|].
  replace (n * off + i0 * m_size m + ((m_arity m - 1) * n + num) * m_size m) with (n * (off + m_arity m * m_size m) + ((i0 + num) * m_size m - n * m_size m)) by ring. lia.
Qed.

Lemma row_gather (mem : bytes) (cells : list bytes) i0 num i (c : bytes) : soa_holds csize reg mem cells -> 0 <= i0 -> 0 <= num -> i0 + num <= len cells -> 0 <= i < num -> vec_get cells (i0 + i) = Some c ->
  gather mem (len cells * off + i0 * m_size m) (len cells) (m_size m) (m_arity m) i = get_memb c m.
Proof using All.
  intros (H1 & H2 & H3) Hi0 Hn Hb Hi Hc. pose proof (memb_nth csize reg Hreg k m Hk) as (P1 & P2 & P3 & P4). destruct (row_bounds (len cells) i0 num Hi0 Hn Hb) as [B1 B2].
  pose proof (get_length csize cells _ c H2 Hc) as Lc. destruct (memb_length c Lc) as [Lg _].
  destruct (gather_spec mem (len cells * off + i0 * m_size m) (len cells) (m_size m) num (m_arity m) i) as [G1 G2]; try lia.
  apply (elements_eq _ _ (m_size m) (m_arity m)); auto. intros j Hj. rewrite G2 by exact Hj. rewrite row_addr. rewrite (H3 (i0 + i) c k m j Hc Hk Hj).
  pose proof (mul_step j (m_arity m) (m_size m) Hj ltac:(lia)). unfold get_memb, memb_len in *. now rewrite slice_slice by lia.
Qed.

Lemma soa_row_out mem cells tgt tp i0 num olds : soa_holds csize reg mem cells -> 0 <= i0 -> 0 <= num -> i0 + num <= len cells ->
  0 <= tp -> tp + num * ext_size f <= len tgt -> vec_read cells i0 (Z.to_nat num) = Some olds ->
  streak_out junk f mem (len cells * off + i0 * m_size m) tgt tp num (len cells) = Some (splice tgt tp (concat (map (fun c => view f (get_memb c m)) olds))).
Proof using All.
  intros Hh Hi0 Hn Hb Htp Ht Hr. pose proof Hh as (H1 & H2 & H3). pose proof (filter_sizes f Hok) as (_ & _ & P3 & P4).
  apply read_holds in Hr. destruct Hr as [Lo Ho]. destruct (row_bounds (len cells) i0 num Hi0 Hn Hb) as [B1 B2].
  destruct (streak_out_spec junk f mem (len cells * off + i0 * m_size m) tgt tp num (len cells)) as (tgt' & E & L & F & G); rewrite ?Hel, ?Hne; try assumption; try lia. rewrite E. f_equal.
  rewrite Hel, Hne in G.
  assert (Hvl : len (map (fun c => view f (get_memb c m)) olds) = num) by (rewrite map_length; lia).
  assert (Hv : forall i v, vec_get (map (fun c => view f (get_memb c m)) olds) i = Some v ->
    exists c, 0 <= i < num /\ length c = Z.to_nat csize /\ v = view f (get_memb c m) /\ vec_get cells (i0 + i) = Some c).
  { intros i v Hi. assert (Hr : 0 <= i < num) by (rewrite <- Hvl; apply vec_get_in; eauto). assert (Hi' : 0 <= i < len olds) by lia. apply vec_get_in in Hi'. destruct Hi' as (c & Hc).
    exists c. split; [exact Hr|]. assert (Hc2 := Hc). rewrite <- Ho in Hc2 by lia. split; [now apply (get_length csize cells (i0 + i))|]. split; [|exact Hc2].
    unfold vec_get in Hc, Hi. destruct (i <? 0); [discriminate|]. rewrite nth_error_map, Hc in Hi. cbn in Hi. congruence. }
  apply (rows_out _ (ext_size f)); auto; rewrite ?Hvl; auto.
  - apply forall_get. intros i v Hi. destruct (Hv i v Hi) as (c & _ & Lc & -> & _). apply view_length; [exact Hok|]. rewrite msize_len. now apply memb_length.
  - intros i v Hi. destruct (Hv i v Hi) as (c & Hi' & Lc & -> & Hc). specialize (G i Hi'). rewrite (row_gather mem cells i0 num i c Hh Hi0 Hn Hb Hi' Hc) in G. exact G.
Qed.

Lemma soa_row_in mem cells src sp i0 num olds : soa_holds csize reg mem cells -> 0 <= i0 -> 0 <= num -> i0 + num <= len cells ->
  0 <= sp -> sp + num * ext_size f <= len src -> vec_read cells i0 (Z.to_nat num) = Some olds ->
  exists mem' cells', streak_in junk f src sp mem (len cells * off + i0 * m_size m) num (len cells) = Some mem' /\
    vec_write cells i0 (Z.to_nat num) (news soa_upd src (ext_size f) sp olds) = Some cells' /\ length cells' = length cells /\ soa_holds csize reg mem' cells'.
Proof using All.
  intros Hh Hi0 Hn Hb Hsp Hs Hr. pose proof Hh as (H1 & H2 & H3). pose proof (filter_sizes f Hok) as (_ & _ & P3 & P4). pose proof (memb_nth csize reg Hreg k m Hk) as (M1 & M2 & M3 & M4).
  apply read_holds in Hr. destruct Hr as [Lo Ho]. destruct (row_bounds (len cells) i0 num Hi0 Hn Hb) as [B1 B2].
  destruct (streak_in_spec junk f src sp mem (len cells * off + i0 * m_size m) num (len cells)) as (mem' & E & L & F & G); rewrite ?Hel, ?Hne; try assumption; try lia.
  rewrite Hel, Hne in *.
  destruct (row_write cells i0 num (news soa_upd src (ext_size f) sp olds)) as (cells' & E' & L' & G'); try lia; [rewrite news_length; lia|].
  assert (Hnew : forall i, i0 <= i < i0 + num -> exists c, vec_get cells i = Some c /\ length c = Z.to_nat csize /\ vec_get cells' i = Some (soa_upd (slice src (sp + (i - i0) * ext_size f) (ext_size f)) c)).
  { intros i Hi. assert (Hc : 0 <= i < len cells) by lia. apply vec_get_in in Hc. destruct Hc as (c & Hc). exists c. split; [exact Hc|]. split; [now apply (get_length csize cells i)|]. rewrite G', news_get.
    destruct (Z.leb_spec i0 i), (Z.ltb_spec i (i0 + num)); try lia. cbn [andb]. rewrite <- Ho by lia. replace (i0 + (i - i0)) with i by lia. rewrite Hc. reflexivity. }
  assert (Hle : forall i, i0 <= i < i0 + num -> length (slice src (sp + (i - i0) * ext_size f) (ext_size f)) = Z.to_nat (ext_size f)).
  { intros i Hi. pose proof (mul_step (i - i0) num (ext_size f) ltac:(lia) ltac:(lia)). apply slice_length; lia. }
  exists mem', cells'. split; [exact E|]. split; [exact E'|]. split; [exact L'|]. unfold soa_holds. rewrite L'. split; [lia|]. split.
  - apply forall_get. intros i c Hi. destruct (Z_lt_dec i i0) as [Hlt|Hlt]; [|destruct (Z_lt_dec i (i0 + num)) as [Hlt2|Hlt2]].
    + rewrite G' in Hi. destruct (Z.leb_spec i0 i); [lia|]. now apply (get_length csize cells i).
    + destruct (Hnew i ltac:(lia)) as (c0 & _ & Lc & Ec). assert (c = soa_upd (slice src (sp + (i - i0) * ext_size f) (ext_size f)) c0) as -> by congruence. apply soa_upd_length; auto. apply Hle. lia.
    + rewrite G' in Hi. destruct (Z.ltb_spec i (i0 + num)); [lia|]. rewrite andb_false_r in Hi. now apply (get_length csize cells i).
  - intros i c k' m' j Hc Hk' Hj. pose proof (memb_nth csize reg Hreg k' m' Hk') as Hm'. pose proof Hm' as (N1 & N2 & N3 & N4).
    assert (Hi : 0 <= i < len cells) by (rewrite <- L'; apply vec_get_in; eauto).
    destruct (addr_bound csize reg Hreg (len cells) k' m' i j Hk' Hi Hj) as (A1 & _ & _ & A2).
    assert (Hkeep : forall c0, vec_get cells i = Some c0 -> ~ (i0 <= i < i0 + num /\ k' = k) ->
      slice mem' (soa_addr (len cells) (member_off reg k') (m_size m') j i) (m_size m') = slice c0 (m_pos m' + j * m_size m') (m_size m')).
    { intros c0 Hc0 Hnot. rewrite <- (H3 i c0 k' m' j Hc0 Hk' Hj). apply slice_ext; try lia. intros q Hq. apply F. intros i' j' Hi' Hj' Hx. rewrite row_addr in Hx.
      destruct (addr_apart csize reg Hreg (len cells) k' m' i j k m (i0 + i') j' Hk' Hk Hi ltac:(lia) Hj Hj'); try lia. }
    destruct (Z_lt_dec i i0) as [Hlt|Hlt]; [|destruct (Z_lt_dec i (i0 + num)) as [Hlt2|Hlt2]].
    + apply Hkeep; [|lia]. rewrite G' in Hc. destruct (Z.leb_spec i0 i); [lia|]. exact Hc.
    + destruct (Hnew i ltac:(lia)) as (c0 & Hc0 & Lc & Ec). assert (c = soa_upd (slice src (sp + (i - i0) * ext_size f) (ext_size f)) c0) as -> by congruence. clear Hc.
      pose proof (soa_put_len (slice src (sp + (i - i0) * ext_size f) (ext_size f)) c0 Lc (Hle i ltac:(lia))) as Lp. destruct (memb_length c0 Lc) as [Lg Lg0].
      pose proof (soa_upd_length (slice src (sp + (i - i0) * ext_size f) (ext_size f)) c0 Lc (Hle i ltac:(lia))) as Lu.
      destruct (Nat.eq_dec k' k) as [->|Hkk].
      * assert (m' = m) as -> by congruence. specialize (G (i - i0) j ltac:(lia) Hj). rewrite row_addr in G. replace (i0 + (i - i0)) with i in G by lia.
        rewrite (row_gather mem cells i0 num (i - i0) c0 Hh Hi0 Hn Hb ltac:(lia)) in G by (replace (i0 + (i - i0)) with i by lia; exact Hc0).
        pose proof (mul_step j (m_arity m) (m_size m) Hj ltac:(lia)). unfold memb_len in *.
        assert (Ls : len (slice (soa_put junk f (slice src (sp + (i - i0) * ext_size f) (ext_size f)) (get_memb c0 m)) (j * m_size m) (m_size m)) = m_size m) by (rewrite slice_length; lia).
        replace (slice mem' (soa_addr (len cells) off (m_size m) j i) (m_size m)) with (slice (soa_put junk f (slice src (sp + (i - i0) * ext_size f) (ext_size f)) (get_memb c0 m)) (j * m_size m) (m_size m)).
        2:{ symmetry. rewrite <- Ls at 2. apply holds_slice; [exact G|lia|lia]. }
        apply vec_ext; [rewrite !slice_length; lia|]. intros q Hq. rewrite Ls in Hq. rewrite !get_slice by lia. unfold soa_upd. rewrite get_splice by lia.
        destruct (Z.leb_spec (m_pos m) (m_pos m + j * m_size m + q)), (Z.ltb_spec (m_pos m + j * m_size m + q) (m_pos m + len (soa_put junk f (slice src (sp + (i - i0) * ext_size f) (ext_size f)) (get_memb c0 m)))); try lia.
        cbn [andb]. f_equal. lia.
      * rewrite (Hkeep c0 Hc0) by tauto. pose proof (mul_step j (m_arity m') (m_size m') Hj ltac:(lia)). pose proof (apart_nth reg (proj2 Hreg) k' k m' m Hkk Hk' Hk) as Ha. unfold memb_apart, memb_len in *.
        apply slice_ext; try lia. intros q Hq. unfold soa_upd. rewrite get_splice by lia.
        destruct (Z.leb_spec (m_pos m) q), (Z.ltb_spec q (m_pos m + len (soa_put junk f (slice src (sp + (i - i0) * ext_size f) (ext_size f)) (get_memb c0 m)))); cbn [andb]; try reflexivity. lia.
    + apply Hkeep; [|lia]. rewrite G' in Hc. destruct (Z.ltb_spec i (i0 + num)); [lia|]. rewrite andb_false_r in Hc. exact Hc.
Qed.
End SoA.
End Rows.
