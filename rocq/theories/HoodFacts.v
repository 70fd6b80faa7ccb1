(** Facts on the traversal of SELL-C-SIGMA matrices. *)
From Coq Require Import Sorted Permutation.
From Verif Require Import Base ListFacts RegionSpec RegionModel RegionRep RegionOpsModel RegionIterModel RegionStreaks GridModel PatchModel HaloSpec SellModel SellSpec SellFacts HoodModel.

Section Facts.
Context {V : Type} (C : Z) (HC : 1 <= C).

Lemma div_mod_next i : 0 <= i -> ((i + 1) / C, (i + 1) mod C) = if i mod C + 1 =? C then (i / C + 1, 0) else (i / C, i mod C + 1).
Proof using HC.
  intros Hi. pose proof (Z.div_mod i C ltac:(lia)) as E. pose proof (Z.mod_pos_bound i C ltac:(lia)) as B.
  destruct (Z.eqb_spec (i mod C + 1) C) as [Eq|Ne]; f_equal; symmetry.
  - apply (Z.div_unique (i + 1) C (i / C + 1) 0); lia.
  - apply (Z.mod_unique (i + 1) C (i / C + 1) 0); lia.
  - apply (Z.div_unique (i + 1) C (i / C) (i mod C + 1)); lia.
  - apply (Z.mod_unique (i + 1) C (i / C) (i mod C + 1)); lia.
Qed.

(** ** Cell by cell *)

Lemma ah_make_div x : 0 <= x -> ah_make C x = mkAHood x (x / C) (x mod C).
Proof using HC. intros Hx. unfold ah_make. rewrite Z.quot_div_nonneg, Z.rem_mod_nonneg by lia. reflexivity. Qed.

Lemma ah_next_make x : 0 <= x -> ah_next C (ah_make C x) = ah_make C (x + 1).
Proof using HC.
  intros Hx. rewrite !ah_make_div by lia. unfold ah_next. cbn [ah_x ah_chunk ah_off].
  pose proof (div_mod_next x Hx) as E. pose proof (Z.mod_pos_bound x C ltac:(lia)) as B.
  destruct (Z.eqb_spec (x mod C + 1) C) as [Eq|Ne]; injection E as -> ->.
  - replace (C <=? x mod C + 1) with true; [reflexivity|]. symmetry. apply Z.leb_le. lia.
  - replace (C <=? x mod C + 1) with false; [reflexivity|]. symmetry. apply Z.leb_gt. lia.
Qed.

Section Aos.
Context (s : sell V) (size : Z) (R : Z -> list (Z * V)).
Context (Hrow : forall q, 0 <= q < size -> sell_row C s q = Some (R q) /\ exists k, vec_get (sl_rowlen s) q = Some k /\ 0 <= k).

Lemma aos_cells_spec n : forall i, 0 <= i -> i + Z.of_nat n <= size ->
  aos_cells C s size (ah_make C i) i n = Some (map (fun q => (q, R q)) (zrange i (i + Z.of_nat n))).
Proof using HC Hrow.
  induction n as [|n IH]; intros i Hi Hn; [now rewrite zrange_nil by lia|]. cbn [aos_cells].
  assert (El : ah_entries C s (ah_make C i) = Some (R i)).
  { destruct (Hrow i ltac:(lia)) as [E (k & Ek & Hk)]. unfold ah_entries, ah_make, sell_row in *. cbn [ah_x ah_chunk ah_off].
    destruct (vec_get (sl_chunkoff s) (Z.quot i C)) as [o|]; [|discriminate]. cbn [obind] in *. rewrite Ek in *. cbn [obind] in *.
    destruct (Z.ltb_spec k 0); [lia|exact E]. }
  rewrite El. cbn [obind]. unfold write_cell. destruct (Z.leb_spec 0 i); [|lia]. destruct (Z.ltb_spec i size); [|lia]. cbn [andb obind].
  rewrite ah_next_make by lia. rewrite IH by lia. cbn [option_map]. rewrite (zrange_cons i) by lia. cbn [map]. do 4 f_equal. lia.
Qed.
End Aos.

(** ** Chunk by chunk *)

Lemma sh_make_div x : 0 <= x -> sh_make C x = mkSHood (x / C) (x mod C).
Proof using HC. intros Hx. unfold sh_make. rewrite Z.quot_div_nonneg, Z.rem_mod_nonneg by lia. reflexivity. Qed.

Lemma sh_inc_make x : 0 <= x -> sh_inc C (sh_make C x) = sh_make C (x + 1).
Proof using HC.
  intros Hx. rewrite !sh_make_div by lia. unfold sh_inc, sh_next. cbn [sh_chunk sh_intra].
  pose proof (div_mod_next x Hx) as E. pose proof (Z.mod_pos_bound x C ltac:(lia)) as B.
  rewrite Z.rem_mod_nonneg by lia.
  destruct (Z.eqb_spec (x mod C + 1) C) as [Eq|Ne]; injection E as -> ->.
  - rewrite Eq, Z.mod_same by lia. reflexivity.
  - rewrite Z.mod_small by lia. destruct (Z.eqb_spec (x mod C + 1) 0); [lia|reflexivity].
Qed.

Lemma sh_next_make x : 0 <= x -> sh_next (sh_make C x) = sh_make C (x + C).
Proof using HC.
  intros Hx. rewrite !sh_make_div by lia. unfold sh_next. cbn [sh_chunk sh_intra].
  replace (x + C) with (x + 1 * C) by lia. rewrite Z.div_add, Z.mod_add by lia. reflexivity.
Qed.

Lemma land_mod k x : 0 <= k -> C = 2 ^ k -> Z.land x (C - 1) = x mod C.
Proof using. clear HC. intros Hk ->. rewrite <- Z.land_ones by exact Hk. rewrite Z.ones_equiv. reflexivity. Qed.

Section Soa.
Context (s : sell V) (size n : Z) (R : Z -> list (Z * V)) (Hsize : n <= size).
Context (Hlane : forall q, 0 <= q < n -> sh_lane C s (q / C) (q mod C) = Some (R q)).

Let ws (a b : Z) : list (hood_write (V := V)) := map (fun q => (q, R q)) (zrange a b).

Lemma ws_cons a b : a < b -> ws a b = (a, R a) :: ws (a + 1) b.
Proof using. clear Hlane Hsize HC. intros H. unfold ws. now rewrite zrange_cons by exact H. Qed.

Lemma ws_app a b c : a <= b <= c -> ws a c = ws a b ++ ws b c.
Proof using. clear Hlane Hsize HC. intros H. unfold ws. now rewrite (zrange_app a b c H), map_app. Qed.

Lemma ws_nil a b : b <= a -> ws a b = [].
Proof using. clear Hlane Hsize HC. intros H. unfold ws. now rewrite zrange_nil. Qed.

Lemma scalar_loop_spec stop fuel : stop <= n -> forall i, 0 <= i <= stop -> stop - i <= Z.of_nat fuel ->
  scalar_loop C s size stop fuel i (sh_make C i) = Some (ws i stop, stop, sh_make C stop).
Proof using HC Hlane Hsize.
  intros Hst. induction fuel as [|fuel IH]; intros i Hi Hf; cbn [scalar_loop].
  - destruct (Z.leb_spec stop i); [|lia]. assert (i = stop) by lia. subst i. now rewrite ws_nil by lia.
  - destruct (Z.leb_spec stop i) as [Hl|Hl]; [assert (i = stop) by lia; subst i; now rewrite ws_nil by lia|].
    assert (El : sh_lane C s (sh_chunk (sh_make C i)) (sh_intra (sh_make C i)) = Some (R i)).
    { rewrite sh_make_div by lia. cbn [sh_chunk sh_intra]. apply Hlane. lia. }
    rewrite El. cbn [obind]. unfold write_cell. destruct (Z.leb_spec 0 i); [|lia]. destruct (Z.ltb_spec i size); [|lia]. cbn [andb obind].
    rewrite sh_inc_make by lia. rewrite IH by lia. cbn [option_map]. rewrite (ws_cons i) by lia. reflexivity.
Qed.

Lemma sh_lanes_spec j i : 0 <= j -> i = j * C -> i + C <= n -> forall m k, 0 <= k -> k + Z.of_nat m = C ->
  sh_lanes C s size j i k m = Some (ws (i + k) (i + C)).
Proof using HC Hlane Hsize.
  intros Hj Ei Hi. induction m as [|m IH]; intros k Hk Hm; cbn [sh_lanes].
  - rewrite ws_nil by lia. reflexivity.
  - assert (El : sh_lane C s j k = Some (R (i + k))).
    { rewrite <- Hlane by lia. f_equal.
      - apply (Z.div_unique (i + k) C j k); lia.
      - apply (Z.mod_unique (i + k) C j k); lia. }
    rewrite El. cbn [obind]. unfold write_cell. destruct (Z.leb_spec 0 (i + k)); [|lia]. destruct (Z.ltb_spec (i + k) size); [|lia]. cbn [andb obind].
    rewrite IH by lia. cbn [option_map]. rewrite (ws_cons (i + k)) by lia. now rewrite Z.add_assoc.
Qed.

Lemma vector_loop_spec stop fuel : stop <= n -> forall i, 0 <= i <= stop -> (C | i) -> (C | stop) -> stop - i <= Z.of_nat fuel ->
  vector_loop C s size stop fuel i (sh_make C i) = Some (ws i stop, stop, sh_make C stop).
Proof using HC Hlane Hsize.
  intros Hst. induction fuel as [|fuel IH]; intros i Hi [j Ei] [j' Es] Hf; cbn [vector_loop].
  - destruct (Z.leb_spec stop i); [|lia]. assert (Eis : i = stop) by lia. rewrite <- Eis. now rewrite ws_nil by lia.
  - destruct (Z.leb_spec stop i) as [Hl|Hl]; [assert (Eis : i = stop) by lia; rewrite <- Eis; now rewrite ws_nil by lia|].
    assert (Hj : 0 <= j) by (clear - HC Hi Ei; nia). assert (Hjj : i + C <= stop).
    { assert (j < j') by (clear - HC Hl Ei Es; nia). assert ((j + 1) * C <= j' * C) by (apply Z.mul_le_mono_nonneg_r; lia). lia. }
    assert (Ec : sh_chunk (sh_make C i) = j). { rewrite sh_make_div by lia. cbn [sh_chunk]. rewrite Ei. apply Z.div_mul. lia. }
    rewrite Ec, (sh_lanes_spec j i Hj Ei ltac:(lia) (Z.to_nat C) 0) by lia. cbn [obind]. rewrite Z.add_0_r.
    rewrite sh_next_make by lia. rewrite (IH (i + C)).
    + cbn [option_map]. rewrite (ws_app i (i + C) stop) by lia. reflexivity.
    + lia.
    + exists (j + 1). lia.
    + now exists j'.
    + lia.
Qed.

Lemma loop_peeler_spec k a e : 0 <= k -> C = 2 ^ k -> 0 <= a < e -> e <= n -> (a mod C = 0 \/ (a / C + 1) * C <= e) ->
  loop_peeler C s size a e (sh_make C a) = Some (ws a e).
Proof using HC Hlane Hsize.
  intros Hk Ek Ha He Hb. unfold loop_peeler, next_stop, last_stop. cbv zeta. rewrite !(land_mod k) by assumption.
  pose proof (Z.div_mod a C ltac:(lia)) as Ea. pose proof (Z.mod_pos_bound a C ltac:(lia)) as Ba.
  pose proof (Z.div_mod e C ltac:(lia)) as Ee. pose proof (Z.mod_pos_bound e C ltac:(lia)) as Be.
  set (nx := if a mod C =? 0 then a else a + (C - a mod C)).
  assert (Hnx : a <= nx <= e /\ (C | nx)).
  { unfold nx. destruct (Z.eqb_spec (a mod C) 0) as [Ez|Ez].
    - split; [lia|]. exists (a / C). lia.
    - split; [lia|]. exists (a / C + 1). lia. }
  assert (Hls : e - e mod C = e / C * C) by lia. rewrite Hls.
  assert (Hle : nx <= e / C * C).
  { destruct Hnx as [[_ Hx] [j Ej]]. assert (j < e / C + 1) by (clear - HC Hx Ej Ee Be; nia). rewrite Ej. apply Z.mul_le_mono_nonneg_r; lia. }
  clearbody nx. destruct Hnx as [Hnx Hdv].
  rewrite scalar_loop_spec by lia. cbn [obind].
  rewrite vector_loop_spec; [|lia|lia|exact Hdv|now exists (e / C)|lia]. cbn [obind].
  rewrite scalar_loop_spec by lia. cbn [obind].
  rewrite (ws_app a nx e) by lia. rewrite (ws_app nx (e / C * C) e) by lia. reflexivity.
Qed.
End Soa.

(** ** All Streaks *)

Lemma all_streaks_spec (f : streak -> option (list (hood_write (V := V)))) (R : Z -> list (Z * V)) ss :
  (forall k, In k ss -> s_pre k = [] /\ f k = Some (map (fun q => (q, R q)) (zrange (s_x k) (s_e k)))) ->
  exists ws, all_streaks f ss = Some ws /\ map (fun w => [fst w]) ws = flat_map streak_coords ss /\ (forall q l, In (q, l) ws -> l = R q).
Proof using.
  clear. induction ss as [|k ss IH]; intros H; cbn [all_streaks flat_map].
  - exists []. split; [reflexivity|]. split; [reflexivity|]. intros q l [].
  - destruct (H k (or_introl eq_refl)) as [Ep Ef]. destruct IH as (ws & E1 & E2 & E3); [intros; apply H; now right|].
    rewrite Ef, E1. cbn [obind option_map]. eexists. split; [reflexivity|]. split.
    + rewrite map_app. f_equal; [|exact E2]. rewrite map_map. unfold streak_coords. now rewrite Ep.
    + intros q l Hi. apply in_app_or in Hi. destruct Hi as [Hi|Hi]; [|now apply E3].
      apply in_map_iff in Hi. destruct Hi as (q' & E & _). injection E as -> <-. reflexivity.
Qed.

(** A Streak of a one-dimensional Region is maximal: the cell behind it isn't
    part of the Region. *)
Lemma streak_maximal l k : streaks_ok 0 l -> In k l -> ~ in_streaks l [s_e k] /\ ~ in_streaks l [s_x k - 1] /\ s_pre k = [] /\ s_x k < s_e k.
Proof using.
  clear. intros [Hs Hf] Hk. rewrite Forall_forall in Hf.
  assert (Hin : forall x, in_streaks l [x] -> exists k', In k' l /\ s_pre k' = [] /\ s_x k' <= x < s_e k').
  { intros x (k' & Hk' & Hi). exists k'. split; [exact Hk'|]. destruct (Hf k' Hk') as [Hl _]. destruct (s_pre k') eqn:Ep; [|discriminate].
    split; [reflexivity|]. apply (in_streak_snoc k' [] x) in Hi. tauto. }
  destruct (Hf k Hk) as [Hl Hx]. assert (Ep : s_pre k = []) by (destruct (s_pre k); [reflexivity|discriminate]).
  assert (Hd : forall k', In k' l -> s_pre k' = [] -> k' = k \/ s_e k' < s_x k \/ s_e k < s_x k').
  { intros k' Hk' Ep'. clear Hin Hf. revert Hs Hk Hk'. induction 1 as [|y l Hs IH Hy]; [intros []|]. rewrite Forall_forall in Hy.
    assert (Hb : forall u v, s_pre u = [] -> s_pre v = [] -> streak_before u v -> s_e u < s_x v).
    { intros u v Eu Ev [Hc|[_ Hc]]; [rewrite Eu, Ev in Hc; destruct Hc|exact Hc]. }
    intros [->|Hk] [->|Hk']; [now left| | |now apply IH].
    - right. right. apply Hb; auto.
    - right. left. apply Hb; auto. }
  split; [|split; [|split; [exact Ep|exact Hx]]].
  - intros Hi. destruct (Hin _ Hi) as (k' & Hk' & Ep' & B). destruct (Hd k' Hk' Ep') as [->|[D|D]]; lia.
  - intros Hi. destruct (Hin _ Hi) as (k' & Hk' & Ep' & B). destruct (Hd k' Hk' Ep') as [->|[D|D]]; lia.
Qed.
End Facts.
