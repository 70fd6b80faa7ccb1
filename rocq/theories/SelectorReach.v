(** Accessing members of the cells of a Region. *)
From Verif Require Import Base ListFacts RegionSpec RegionModel RegionRep RegionIterModel RegionStreaks RegionOpsModel HaloSpec CoordModel CoordSpec CoordFacts TopologyFacts PatchModel ConfigFacts GridModel GridSpec GridFacts DisplacedFacts GridReach SoAModel SoASpec SoAFacts SoARep SoAReach SelectorModel SelectorSpec BytesFacts FilterFacts StreakFilterFacts LayoutFacts MemberRows SelectorFacts.
From Coq Require Import Lia.

(** ** The Streaks used by DisplacedGrid *)

Definition rel_streak (org : coord) (s : streak) : streak := mkStreak (zsub (s_pre s) org) (s_x s - last org 0) (s_e s - last org 0).

Lemma run_head r off fin : forall fuel it l, it_run fuel r off 0 it fin = Some l ->
  match l with [] => it_eqb it fin = true | s :: _ => it_eqb it fin = false /\ s = it_streak it end.
Proof.
  destruct fuel as [|fuel]; intros it l H; cbn [it_run] in H; destruct (it_eqb it fin) eqn:E; try discriminate; try (injection H as <-; reflexivity).
  destruct (it_next r off 0 it) as [it'|]; [|discriminate H]. destruct (it_run fuel r off 0 it' fin) as [l'|]; [|discriminate H]. injection H as <-. auto.
Qed.

Lemma shift_rel org s : length org = S (length (s_pre s)) -> forall r : indices, length r = S (length (s_pre s)) -> s_shift (zsub (zero_off r) org) 0 s = rel_streak org s.
Proof.
  intros Ho r Hr. unfold s_shift, rel_streak. destruct (snoc_parts org (length (s_pre s)) 0 Ho) as [Eo Lo].
  assert (Ez : zero_off r = repeat 0 (length (s_pre s)) ++ [0]).
  { unfold zero_off. clear - Hr. change [0] with (repeat 0 1). rewrite <- repeat_app. replace (length (s_pre s) + 1)%nat with (length r) by lia. clear. induction r; cbn; congruence. }
  rewrite Ez. clear Ez. set (o1 := removelast org) in *. set (o2 := last org 0) in *. clearbody o1 o2. subst org. rewrite zsub_snoc by (rewrite repeat_length; lia). rewrite !last_last.
  rewrite zadd_long by (rewrite zsub_length by (rewrite repeat_length; lia); lia). rewrite zsub_long by lia.
  f_equal; try lia. clear - Lo. revert Lo. generalize (s_pre s). intros l. revert o1. induction l as [|x l IH]; intros [|y o] H; try discriminate; [reflexivity|]. cbn. now rewrite IH by (now injection H).
Qed.

Section Displaced.
Context (t : topology) (correct : bool) (b : box) (topo : coord) (Hs : setup_ok t correct b topo).
Context (d0 : nat) (Hd : length t = S d0) (r : indices) (Hr : rvalid d0 r) (Hin : forall c, inr d0 r c -> in_box b c).
Notation dim := (b_dim b).
Notation org := (b_origin b).

Lemma member_streaks : exists l, reg_streaks r = Some l /\ Forall (fun s => length (s_pre s) = d0 /\ boxed_streak b s) l /\
  norm_streaks_org t correct topo r org = Some (map (rel_streak org) l).
Proof using Hs Hd Hr Hin.
  destruct Hs as (Hne & Ho & Hld & Hp & Hle). destruct (region_streaks t d0 Hd r Hr (repeat 0 (S d0)) (repeat_length _ _)) as (l & Hok & El & Eo & Hl). exists l. split; [exact El|].
  assert (Hbx : Forall (fun s => length (s_pre s) = d0 /\ boxed_streak b s) l).
  { apply Forall_forall. intros s Hsl. destruct Hok as [_ Hf]. rewrite Forall_forall in Hf. destruct (Hf s Hsl) as [Hf1 Hf2]. split; [exact Hf1|]. split; [exact Hf2|].
    apply Forall_forall. intros c Hc. apply Hin. apply (Hl s c Hsl Hc). }
  split; [exact Hbx|]. pose proof (valid_length d0 r Hr) as Hrl. rewrite Forall_forall in Hbx.
  assert (Hzo : length (zsub (zero_off r) org) = S d0) by (rewrite zsub_length; unfold zero_off; rewrite ?map_length; lia).
  assert (Em : map (s_shift (zsub (zero_off r) org) 0) l = map (rel_streak org) l).
  { apply map_ext_in. intros s Hsl. destruct (Hbx s Hsl) as [Hp' _]. apply shift_rel; lia. }
  specialize (Eo _ Hzo). rewrite Em in Eo. unfold reg_streaks, reg_streaks_off in El, Eo. unfold norm_streaks_org.
  destruct (it_begin r (zero_off r) 0) as [b0|] eqn:Eb; [|discriminate]. destruct (it_begin r (zsub (zero_off r) org) 0) as [b2|] eqn:Eb2; [|discriminate].
  assert (Hpos : it_pos b0 = it_pos b2).
  { unfold it_begin in Eb, Eb2. destruct (reg_is_empty r); [congruence|]. destruct (it_construct r _ (zero_off r) 0); [|discriminate]. destruct (it_construct r _ (zsub (zero_off r) org) 0); [|discriminate].
    assert (it_pos b0 = map (fun _ => O) r) as -> by (injection Eb as <-; reflexivity). injection Eb2 as <-. reflexivity. }
  set (b' := mkIter (it_pos b0) (mkStreak (zsub (s_pre (it_streak b0)) org) (s_x (it_streak b0) - last org 0) (s_e (it_streak b0) - last org 0))).
  pose proof (run_head _ _ _ _ _ _ El) as Hh. pose proof (run_head _ _ _ _ _ _ Eo) as Hh2.
  destruct l as [|s0 l0].
  { cbn [map]. assert (He : it_eqb (norm_iter t correct topo b') (it_end r) = true) by exact Hh. destruct (length (last r [])); cbn [nit_run]; rewrite He; reflexivity. }
  cbn [map] in Hh2. destruct Hh as [_ Hh], Hh2 as [_ Hh2].
  assert (Ebb : b' = b2). { unfold b'. rewrite <- Hh, Hpos. destruct b2 as [p2 st2]. cbn [it_streak it_pos] in *. rewrite <- Hh2. reflexivity. }
  cbv zeta. fold b'. rewrite Ebb. destruct (bool_cases correct) as [Ec|Ec]; rewrite Ec in *.
  - specialize (Hle eq_refl). pose proof (forall2_length _ _ _ Hle) as Hlt. pose proof (forall2_le_pos _ _ Hp Hle) as Hpt.
    assert (Hor : forall s, In s (s0 :: l0) -> length (s_pre (rel_streak org s)) = (length topo - 1)%nat /\ in_grid topo (s_origin (rel_streak org s))).
    { intros s Hsl. destruct (Hbx s Hsl) as [Hp' [Hx Hb]]. unfold rel_streak, s_origin. cbn [s_pre s_x]. destruct (snoc_parts org d0 0 ltac:(lia)) as [Eorg Lorg].
      rewrite Forall_forall in Hb. specialize (Hb (s_pre s ++ [s_x s]) (in_streak_coords s (s_x s) ltac:(lia))). apply in_box_zsub in Hb; [|lia]. destruct Hb as [_ Hb].
      rewrite Eorg in Hb |- *. rewrite last_last. rewrite zsub_snoc in Hb by lia. rewrite zsub_long by lia. split; [rewrite zsub_length by lia; lia|]. now apply (in_grid_le dim). }
    assert (Hid : forall s, In s (s0 :: l0) -> norm_streak t true topo (rel_streak org s) = rel_streak org s).
    { intros s Hsl. destruct (Hor s Hsl) as [_ Hg]. unfold norm_streak. cbv zeta.
      assert (E : normalize t (s_origin (rel_streak org s)) topo = s_origin (rel_streak org s)).
      { apply (proj1 (normalize_spec t topo _ ltac:(lia) Hpt (grid_one_period topo Hpt _ Hg))). apply grid_wraps_self; auto. lia. }
      rewrite E. unfold s_origin. rewrite removelast_last, last_last. destruct (rel_streak org s) as [p x e]. cbn [s_pre s_x s_e]. f_equal. lia. }
    rewrite (nit_run_spec t topo ltac:(lia) Hpt) with (it2 := b2) (l := map (rel_streak org) (s0 :: l0)).
    + f_equal. rewrite map_map. apply map_ext_in. exact Hid.
    + intros ->. cbn in Hlt. destruct t; [congruence|cbn in *; lia].
    + exact Eo.
    + apply Forall_forall. intros s Hsl. apply in_map_iff in Hsl. destruct Hsl as (s1 & <- & Hs1). destruct (Hor s1 Hs1) as [H1 H2]. split; [exact H1|]. split; [now apply grid_one_period|].
      exists (s_origin (rel_streak org s1)). apply grid_wraps_self; auto. lia.
    + reflexivity.
    + intros s l' _. reflexivity.
  - rewrite nit_run_false. destruct b2. exact Eo.
Qed.

End Displaced.

(** ** From the values written to what can be observed *)

Section Observe.
Context {B : Type}.
Notation bytes := (list B).
Notation len l := (Z.of_nat (length l)).

Lemma get_nth {A} (l : list A) i : vec_get l (Z.of_nat i) = nth_error l i.
Proof. unfold vec_get. destruct (Z.ltb_spec (Z.of_nat i) 0); [lia|]. now rewrite Nat2Z.id. Qed.

Lemma news_assigns kind upd (f : filter B) m src (F : place -> bytes) (den : coord -> place) cs (get get' : coord -> option bytes) (dom : coord -> Prop) :
  NoDup (map den cs) ->
  (forall c, In c cs \/ dom c -> get c = Some (F (den c)) /\ get' c = Some (last_written F (combine (map den cs) (news upd src (ext_size f) 0 (map F (map den cs)))) (den c))) ->
  (forall c, dom c -> ~ In c cs -> ~ In (den c) (map den cs)) ->
  (forall i c, nth_error cs i = Some c -> assigned kind m f (slice src (Z.of_nat i * ext_size f) (ext_size f)) (F (den c)) (upd (slice src (Z.of_nat i * ext_size f) (ext_size f)) (F (den c)))) ->
  assigns kind get get' dom m f cs src.
Proof.
  intros Hnd Hg Hd Ha. split.
  - intros i c Hi. destruct (Hg c (or_introl (nth_error_In _ _ Hi))) as [G1 G2]. exists (F (den c)), (upd (slice src (Z.of_nat i * ext_size f) (ext_size f)) (F (den c))).
    split; [exact G1|]. split; [|now apply Ha]. rewrite G2. f_equal. apply (last_written_at (map den cs) F _ i); auto; [now apply map_nth_error|].
    rewrite <- get_nth, news_get, get_nth. rewrite (map_nth_error F _ _ (map_nth_error den _ _ Hi)). reflexivity.
  - intros c Hc Hn. destruct (Hg c (or_intror Hc)) as [G1 G2]. rewrite G1, G2. f_equal. apply written_others. now apply Hd.
Qed.

Lemma assigns_saved kind (get get' : coord -> option bytes) dom m (f : filter B) csize cs src out : memb_in csize m -> filter_ok f -> faithful f ->
  (forall c v, In c cs -> get c = Some v -> length v = Z.to_nat csize) -> len cs * ext_size f <= len src ->
  assigns kind get get' dom m f cs src -> saved get' m f cs out -> out = slice src 0 (len cs * ext_size f).
Proof.
  intros Hm Hok Hf Hl Hs [Ha _] (vals & Hv & ->). pose proof (filter_sizes f Hok) as (_ & _ & _ & P4). destruct Hm as (M1 & M2 & M3 & M4).
  pose proof (forall2_length _ _ _ Hv) as Lv.
  assert (Hi : forall i v, nth_error vals i = Some v -> view f (get_memb v m) = slice src (Z.of_nat i * ext_size f) (ext_size f)).
  { intros i v Hi. assert (Hc : exists c, nth_error cs i = Some c). { destruct (nth_error cs i) eqn:E; [eauto|]. apply nth_error_None in E. assert (i < length vals)%nat by (apply nth_error_Some; congruence). lia. }
    destruct Hc as (c & Hc). destruct (Ha i c Hc) as (old & new & G1 & G2 & w & -> & Lw & _ & Hw). specialize (Hl c old (nth_error_In _ _ Hc) G1).
    assert (get' c = Some v) as G3. { clear - Hv Hc Hi. revert i Hc Hi. induction Hv as [|a b l l' H _ IH]; intros [|i] H1 H2; cbn in *; try discriminate; [congruence|eauto]. }
    assert (v = splice old (m_pos m) w) as -> by congruence. unfold get_memb. assert (0 < memb_len m) by (unfold memb_len; now apply Z.mul_pos_pos). rewrite slice_splice' by lia. now apply Hw. }
  rewrite flat_map_concat_map. rewrite Lv in *. clear Ha Hv Hl Lv get get'.
  destruct (Z.eq_dec (len vals) 0) as [E0|E0]; [destruct vals; [reflexivity|cbn in E0; lia]|].
  assert (Hvl : Forall (fun v => length v = Z.to_nat (ext_size f)) (map (fun v => view f (get_memb v m)) vals)).
  { apply forall_get. intros i v Hiv. assert (Hr : 0 <= i < len (map (fun v => view f (get_memb v m)) vals)) by (apply vec_get_in; eauto). rewrite map_length in Hr.
    replace i with (Z.of_nat (Z.to_nat i)) in Hiv by lia. rewrite get_nth, nth_error_map in Hiv. destruct (nth_error vals (Z.to_nat i)) as [v0|] eqn:Ev; [|discriminate]. cbn in Hiv. injection Hiv as <-.
    rewrite (Hi _ _ Ev). pose proof (mul_step (Z.of_nat (Z.to_nat i)) (len vals) (ext_size f) ltac:(lia) ltac:(lia)). apply slice_length; lia. }
  destruct (concat_cells (ext_size f) _ ltac:(lia) Hvl) as [Lc Gc]. rewrite map_length in Lc. assert (0 <= len vals * ext_size f) by (apply Z.mul_nonneg_nonneg; lia).
  apply (elements_eq _ _ (ext_size f) (len vals)); try lia; [rewrite slice_length; lia|]. intros j Hj. pose proof (mul_step j (len vals) (ext_size f) Hj ltac:(lia)).
  assert (Hv : exists v, nth_error vals (Z.to_nat j) = Some v). { destruct (nth_error vals (Z.to_nat j)) eqn:E; [eauto|]. apply nth_error_None in E. lia. }
  destruct Hv as (v & Hv). rewrite slice_slice by lia. specialize (Hi _ _ Hv). rewrite Z2Nat.id in Hi by lia. cbn [Z.add]. rewrite <- Hi. apply Gc.
  replace j with (Z.of_nat (Z.to_nat j)) by lia. rewrite get_nth. now apply (map_nth_error (fun v => view f (get_memb v m))).
Qed.

Lemma aos_assigned csize m (f : filter B) e old : memb_in csize m -> filter_ok f -> elem f = m_size m -> nelem f = m_arity m -> length old = Z.to_nat csize -> length e = Z.to_nat (ext_size f) ->
  assigned whole m f e old (aos_upd f (m_pos m) e old).
Proof.
  intros (M1 & M2 & M3 & M4) Hok He Hn Lo Le. assert (Hms : msize f = memb_len m) by (unfold msize, memb_len; now rewrite He, Hn). pose proof (filter_sizes f Hok) as (_ & _ & P3 & _).
  assert (Lg : length (get_memb old m) = Z.to_nat (msize f)) by (unfold get_memb; rewrite slice_length; lia).
  exists (aos_put f e (get_memb old m)). split; [unfold aos_upd, get_memb; now rewrite Hms|]. split; [rewrite <- Hms; now apply aos_put_length|]. split; [apply whole_put|]. intros Hf. now apply aos_put_faithful.
Qed.

Lemma soa_assigned junk csize m (f : filter B) e old : memb_in csize m -> filter_ok f -> elem f = m_size m -> nelem f = m_arity m -> length old = Z.to_nat csize -> length e = Z.to_nat (ext_size f) ->
  length junk = Z.to_nat (msize f) -> assigned shallow m f e old (soa_upd m f junk e old).
Proof.
  intros (M1 & M2 & M3 & M4) Hok He Hn Lo Le Lj. assert (Hms : msize f = memb_len m) by (unfold msize, memb_len; now rewrite He, Hn). pose proof (filter_sizes f Hok) as (_ & _ & P3 & _).
  assert (Lg : length (get_memb old m) = Z.to_nat (msize f)) by (unfold get_memb; rewrite slice_length; lia).
  exists (soa_put junk f e (get_memb old m)). split; [reflexivity|]. split; [rewrite <- Hms; now apply soa_put_length|]. split; [intros Hsh; apply shallow_put; auto; lia|]. intros Hf. now apply soa_put_faithful.
Qed.

(** ** Grid *)

Section OnGrid.
Context (t : topology) (dim : coord) (Hl : length t = length dim) (Hp : allpos dim) (Hne : dim <> []).
Context (csize : Z) (reg : option (list memb)) (m : memb) (sel : selector B) (Hsel : sel_made reg m sel) (Hm : memb_in csize m).
Notation fl := (sl_filter sel).
Notation cells_ok g := (Forall (fun c => length c = Z.to_nat csize) (g_cells g)).

Lemma cell_length (g : vgrid bytes) f c : rep dim g f -> cells_ok g -> in_grid dim c -> length (f (Some c)) = Z.to_nat csize.
Proof using. intros (_ & _ & _ & H) Hf Hc. exact (get_length csize _ _ _ Hf (H c Hc)). Qed.

(** Streaks inside of the grid *)
Lemma save_observed (g : vgrid bytes) f ss tgt : rep dim g f -> cells_ok g -> Forall (inside_streak dim) ss -> len (flat_map streak_coords ss) * ext_size fl <= len tgt ->
  exists out, aos_save t csize sel g ss tgt 0 = Some (splice tgt 0 out) /\ out = flat_map (fun c => view fl (get_memb (f (Some c)) m)) (flat_map streak_coords ss).
Proof using Hl Hp Hne Hsel Hm.
  intros Hr Hc Hss Hb. rewrite (aos_save_spec t dim Hl Hp Hne csize reg m sel Hsel Hm g f Hr Hc ss tgt 0 Hss ltac:(lia) ltac:(lia)). rewrite <- flat_map_concat_map. eauto.
Qed.

Lemma load_assigned (g : vgrid bytes) f ss src i c : rep dim g f -> cells_ok g -> Forall (inside_streak dim) ss -> len (flat_map streak_coords ss) * ext_size fl <= len src ->
  nth_error (flat_map streak_coords ss) i = Some c ->
  assigned whole m fl (slice src (Z.of_nat i * ext_size fl) (ext_size fl)) (f (Some c)) (aos_upd fl (m_pos m) (slice src (Z.of_nat i * ext_size fl) (ext_size fl)) (f (Some c))).
Proof using All.
  intros Hr Hc Hss Hb Hi. destruct (sel_made_spec reg m sel Hsel) as (_ & _ & _ & S4 & S5 & S6 & _). pose proof (filter_sizes fl S4) as (_ & _ & _ & P4).
  assert (Hlt : (i < length (flat_map streak_coords ss))%nat) by (apply nth_error_Some; congruence). pose proof (mul_step (Z.of_nat i) (len (flat_map streak_coords ss)) (ext_size fl) ltac:(lia) ltac:(lia)).
  apply (aos_assigned csize); auto.
  - apply (cell_length g f c Hr Hc). apply nth_error_In in Hi. apply in_flat_map in Hi. destruct Hi as (s & Hs & Hi). rewrite Forall_forall in Hss. destruct (Hss s Hs) as [_ Hin]. rewrite Forall_forall in Hin. auto.
  - apply slice_length; lia.
Qed.
End OnGrid.
End Observe.
