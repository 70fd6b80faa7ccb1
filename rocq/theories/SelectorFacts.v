(** Accessing members of grids: from rows to Regions. *)
From Verif Require Import Base ListFacts RegionSpec RegionModel RegionRep RegionIterModel RegionStreaks RegionOpsModel HaloSpec CoordModel CoordSpec CoordFacts PatchModel GridModel GridSpec GridFacts DisplacedFacts GridReach SoAModel SoASpec SoAFacts SoARep SoAReach SelectorModel SelectorSpec BytesFacts FilterFacts StreakFilterFacts LayoutFacts MemberRows.
From Coq Require Import Lia FinFun.

Section Selectors.
Context {B : Type}.
Notation bytes := (list B).
Notation len l := (Z.of_nat (length l)).

(** ** Selectors *)

Lemma sel_offset_spec r m o : sel_offset (Some r) m = Some o -> exists k, nth_error r k = Some m /\ o = member_off r k.
Proof. unfold sel_offset. apply ptr_offset_spec. Qed.

Lemma sel_made_spec reg m (sel : selector B) : sel_made reg m sel ->
  sl_pos sel = m_pos m /\ sl_size sel = m_size m /\ sl_ext sel = ext_size (sl_filter sel) /\ filter_ok (sl_filter sel) /\
  elem (sl_filter sel) = m_size m /\ nelem (sl_filter sel) = m_arity m /\
  forall r, reg = Some r -> exists k, nth_error r k = Some m /\ sl_off sel = member_off r k.
Proof.
  intros H. destruct H as [pos size sel Hs E|pos size a sel Hs Ha E|m f sel Hok He Hn E|pos size dflt pos2 size2 sel Hd Hp Hs2 Hb E|
    pos size dflt pos2 size2 a sel Hd Hp Hs2 Ha Hb E|pos size dflt pos2 size2 dflt2 pos3 size3 sel Hd Hd2 Hp Hb Hp3 Hs3 Hb3 E];
    unfold sel_member, sel_array, sel_filter, sel_nested, sel_nested_array, sel_nested2 in E;
    match type of E with option_map _ ?x = _ => destruct x as [o|] eqn:Eo; [|discriminate] end; cbn [option_map] in E;
    match type of E with Some ?x = Some ?y => assert (y = x) as -> by congruence end; cbn [sl_pos sl_size sl_ext sl_filter sl_off m_pos m_size m_arity ext_size elem nelem];
    try (assert (Hq : size2 * a = a * size2) by ring);
    (split; [reflexivity|]); (split; [reflexivity|]); (split; [lia|]); (split; [|split; [auto|split; [auto|]]]);
    try (intros r ->; now apply sel_offset_spec); cbn [filter_ok elem nelem]; unfold msize; cbn [elem nelem]; rewrite ?Z.mul_1_l; try (repeat split; auto; lia); try exact Hok.
Qed.

Lemma slice_splice' (l : bytes) p v n : 0 <= p -> p + len v <= len l -> n = len v -> slice (splice l p v) p n = v.
Proof. intros H1 H2 ->. now apply slice_splice. Qed.

(** What filters do on different kinds of grids, and what they should do *)
Lemma whole_put f e (m : bytes) : whole f -> aos_put f e m = put f e m.
Proof. destruct f; cbn; tauto. Qed.

Lemma aos_put_faithful f : forall e m, filter_ok f -> faithful f -> length e = Z.to_nat (ext_size f) -> length m = Z.to_nat (msize f) -> view (B := B) f (aos_put f e m) = e.
Proof.
  induction f as [size|size a|ms es load save|ms es a load save|size dflt pos f IH]; intros e m Hok Hf Le Lm; cbn [aos_put put view faithful] in *; auto.
  - apply Hf; auto. rewrite Lm. unfold msize. cbn [elem nelem]. now rewrite Z.mul_1_l.
  - cbn [filter_ok] in Hok. destruct Hok as (_ & _ & Hd & Hp & Hb & Hok). cbn [ext_size] in Le.
    assert (Ls : length (slice dflt pos (msize f)) = Z.to_nat (msize f)) by (pose proof (filter_sizes f Hok) as (_ & _ & ? & _); apply slice_length; lia).
    pose proof (aos_put_length f e _ Hok Le Ls) as La. pose proof (filter_sizes f Hok) as (_ & _ & Hms & _).
    rewrite slice_splice' by lia. now apply IH.
Qed.

Section Junk.
Context (junk : bytes).

Lemma shallow_put f e m : filter_ok f -> shallow f -> length junk = length m -> soa_put junk f e m = put f e m.
Proof.
  intros Hok Hs Lj. destruct f as [size|size a|ms es load save|ms es a load save|size dflt pos f]; cbn [soa_put put shallow overwrites] in *; auto. now rewrite whole_put.
Qed.

Lemma soa_put_faithful f e m : filter_ok f -> faithful f -> length junk = Z.to_nat (msize f) -> length e = Z.to_nat (ext_size f) -> length m = Z.to_nat (msize f) -> view f (soa_put junk f e m) = e.
Proof.
  intros Hok Hf Lj Le Lm. destruct f as [size|size a|ms es load save|ms es a load save|size dflt pos f]; cbn [soa_put view faithful put] in *; auto.
  - apply Hf; auto. rewrite Lm. unfold msize. cbn [elem nelem]. now rewrite Z.mul_1_l.
  - cbn [filter_ok] in Hok. destruct Hok as (_ & _ & Hd & Hp & Hb & Hok). cbn [ext_size] in Le. unfold msize in Lm. cbn [elem nelem] in Lm. rewrite Z.mul_1_l in Lm.
    pose proof (filter_sizes f Hok) as (_ & _ & Hms & _).
    assert (Ls : length (slice m pos (msize f)) = Z.to_nat (msize f)) by (apply slice_length; lia).
    pose proof (aos_put_length f e _ Hok Le Ls) as La.
    rewrite slice_splice' by lia. now apply aos_put_faithful.
Qed.
End Junk.

(** ** Vectors *)

Lemma read_bounds {A} (l : list A) i n vs : (0 < n)%nat -> vec_read l i n = Some vs -> 0 <= i /\ i + Z.of_nat n <= len l.
Proof.
  intros Hn H. apply read_holds in H. destruct H as [L H].
  assert (H0 : exists v, vec_get vs 0 = Some v) by (apply vec_get_in; lia). destruct H0 as (v & H0).
  assert (H1 : exists v, vec_get vs (Z.of_nat n - 1) = Some v) by (apply vec_get_in; lia). destruct H1 as (v1 & H1).
  rewrite <- H in H0 by lia. rewrite <- H in H1 by lia.
  assert (0 <= i + 0 < len l) by (apply vec_get_in; eauto). assert (0 <= i + (Z.of_nat n - 1) < len l) by (apply vec_get_in; eauto). lia.
Qed.

Lemma splice_nil (l : bytes) p : splice l p [] = l.
Proof. unfold splice. cbn [app length]. rewrite Nat.add_0_r. apply firstn_skipn. Qed.

(** Values written to places which are all different *)
Lemma written_others {A} (F : place -> A) ps (vs : list A) q : ~ In q ps -> last_written F (combine ps vs) q = F q.
Proof. intros H. apply last_written_other. intros [p v] Hi E. cbn in E. subst p. apply in_combine_l in Hi. contradiction. Qed.

Lemma nodup_tail {A} (a b : list A) : NoDup (a ++ b) -> NoDup b.
Proof. induction a as [|x a IH]; cbn; auto. intros H. inversion H; auto. Qed.

Lemma news_join upd src ext sp (f : place -> bytes) a b q : NoDup (a ++ b) ->
  let f1 := last_written f (combine a (news upd src ext sp (map f a))) in
  last_written f1 (combine b (news upd src ext (sp + ext * len a) (map f1 b))) q = last_written f (combine (a ++ b) (news upd src ext sp (map f (a ++ b)))) q.
Proof.
  intros Hnd f1. assert (Eb : map f1 b = map f b).
  { apply map_ext_in. intros p Hp. unfold f1. apply written_others. intros Ha. clear f1. induction a as [|x a IH]; [contradiction|]. cbn in Hnd. inversion Hnd as [|? ? H1 H2]; subst. destruct Ha as [->|Ha]; [apply H1, in_or_app; now right|auto]. }
  rewrite Eb. rewrite map_app, news_app, combine_app_l, last_written_app, map_length.
  replace (combine a (news upd src ext sp (map f a) ++ news upd src ext (sp + ext * len a) (map f b))) with (combine a (news upd src ext sp (map f a))).
  - fold f1. f_equal. f_equal. rewrite skipn_app, news_length, map_length, Nat.sub_diag. rewrite skipn_all2 by (rewrite news_length, map_length; lia). reflexivity.
  - assert (Hc : forall (x : list place) (v w : list bytes), length v = length x -> combine x v = combine x (v ++ w)).
    { clear. induction x as [|p x IH]; intros [|y v] w E; try discriminate; [reflexivity|]. cbn. f_equal. apply IH. now injection E. }
    apply Hc. now rewrite news_length, map_length.
Qed.

(** ** Grid *)

Section AoS.
Context (t : topology) (dim : coord) (Hl : length t = length dim) (Hp : allpos dim) (Hne : dim <> []).
Context (csize : Z) (reg : option (list memb)) (m : memb) (sel : selector B) (Hsel : sel_made reg m sel) (Hm : memb_in csize m).
Notation fl := (sl_filter sel).
Definition inside_streak (s : streak) : Prop := s_x s < s_e s /\ Forall (in_grid dim) (streak_coords s).

Lemma grid_row (g : vgrid bytes) f s : rep dim g f -> inside_streak s ->
  exists i0, cell_ptr t csize g (s_origin s) = Some (csize * i0) /\
    vec_read (g_cells g) i0 (Z.to_nat (s_e s - s_x s)) = Some (map (fun c => f (Some c)) (streak_coords s)) /\
    forall vs, grid_set_streak t g s vs = option_map (fun l => mkVGrid (g_dim g) l (g_edge g)) (vec_write (g_cells g) i0 (Z.to_nat (s_e s - s_x s)) vs).
Proof using Hl Hp Hne.
  intros Hr [Hx Hin]. pose proof Hr as (H1 & _). rewrite Forall_forall in Hin.
  assert (Hg : forall x, s_x s <= x < s_e s -> in_grid dim (s_pre s ++ [x])) by (intros x Hx'; apply Hin, in_streak_coords; lia).
  assert (Ho : in_grid dim (s_origin s)) by (apply Hg; lia).
  assert (Hno : forall t', length t' = length dim -> out_of_bounds t' (s_origin s) dim = false).
  { intros t' Hl'. destruct (out_of_bounds t' (s_origin s) dim) eqn:E; [|reflexivity]. apply denotes_oob in E; auto. rewrite denotes_self in E by auto. discriminate. }
  assert (Hb : box_in_bounds_streak (mkBox (map (fun _ => 0) dim) dim) s = true).
  { unfold box_in_bounds_streak. cbn [b_origin b_dim]. pose proof (in_grid_length _ _ Ho) as Hlo. change (map (fun _ : Z => 0) dim) with (zeros dim). rewrite zsub_zeros by exact Hlo.
    rewrite (Hno (cube (length (s_origin s)))) by (unfold cube; rewrite repeat_length; exact Hlo). cbn [negb andb].
    destruct (dim_snoc dim Hne) as (dp & n & E). specialize (Hg (s_e s - 1) ltac:(lia)). pose proof (in_grid_length _ _ Hg) as Hlg. unfold zeros. rewrite E in *. rewrite map_app. cbn [map]. rewrite !last_last.
    rewrite !app_length in Hlg. cbn in Hlg. apply grid_snoc in Hg; [|lia]. apply Z.leb_le. lia. }
  pose proof (rep_get_streak t dim Hl Hp Hne g f s Hr ltac:(lia)) as Hget.
  assert (Hcl : Forall (close_by dim) (streak_coords s)) by (apply Forall_forall; intros c Hc; apply in_grid_close; auto).
  specialize (Hget Hcl). unfold grid_get_streak, grid_set_streak, cell_ptr, grid_box in *. rewrite H1 in *. rewrite Hb, (Hno t Hl) in *. destruct (Z.ltb_spec (s_e s) (s_x s)); [lia|].
  eexists. split; [reflexivity|]. split; [|reflexivity]. rewrite Hget. f_equal. apply map_ext_in. intros c Hc. rewrite denotes_self; auto.
Qed.

Lemma aos_save_spec (g : vgrid bytes) f : rep dim g f -> Forall (fun c => length c = Z.to_nat csize) (g_cells g) -> forall ss tgt tp, Forall inside_streak ss -> 0 <= tp ->
  tp + len (flat_map streak_coords ss) * ext_size fl <= len tgt ->
  aos_save t csize sel g ss tgt tp = Some (splice tgt tp (concat (map (fun c => view fl (get_memb (f (Some c)) m)) (flat_map streak_coords ss)))).
Proof using Hl Hp Hne Hsel Hm.
  intros Hr Hc. destruct (sel_made_spec reg m sel Hsel) as (S1 & _ & S3 & S4 & S5 & S6 & _). pose proof (filter_sizes fl S4) as (_ & _ & P3 & P4). pose proof Hm as (M1 & M2 & M3 & M4).
  assert (Hms : msize fl = memb_len m) by (unfold msize, memb_len; now rewrite S5, S6).
  induction ss as [|s ss IH]; intros tgt tp Hss Htp Hb; [cbn [flat_map map concat aos_save]; now rewrite splice_nil|].
  inversion Hss as [|? ? Hs Hss']; subst. destruct (grid_row g f s Hr Hs) as (i0 & E1 & E2 & _). destruct Hs as [Hx Hin]. cbn [aos_save flat_map]. rewrite E1. cbn [obind].
  assert (Hn0 : (0 < Z.to_nat (s_e s - s_x s))%nat) by lia. destruct (read_bounds _ _ _ _ Hn0 E2) as [B1 B2]. cbn [flat_map] in Hb. rewrite app_length in Hb. rewrite streak_coords_length in Hb.
  rewrite S1, S3. assert (Hpo : 0 <= Z.of_nat (length (flat_map streak_coords ss)) * ext_size fl) by (apply Z.mul_nonneg_nonneg; lia).
  rewrite (aos_row_out csize fl (m_pos m) S4 M3 ltac:(lia) (g_cells g) tgt tp i0 (s_e s - s_x s) (map (fun c => f (Some c)) (streak_coords s)) Hc B1 ltac:(lia) ltac:(lia) Htp ltac:(lia) E2). cbn [obind].
  set (vs := map _ (map _ (streak_coords s))).
  assert (Hv : vs = map (fun c => view fl (get_memb (f (Some c)) m)) (streak_coords s)) by (unfold vs; rewrite map_map, Hms; reflexivity).
  assert (Hvl : Forall (fun v => length v = Z.to_nat (ext_size fl)) vs).
  { rewrite Hv. apply Forall_forall. intros v Hv'. apply in_map_iff in Hv'. destruct Hv' as (c & <- & Hcs). apply view_length; [exact S4|].
    rewrite Hms. apply slice_length; try lia. enough (length (f (Some c)) = Z.to_nat csize) by lia. rewrite Forall_forall in Hc, Hin.
    destruct Hr as (_ & _ & _ & Hr). specialize (Hr c (Hin c Hcs)). apply (get_length csize (g_cells g) _ _ ltac:(now apply Forall_forall) Hr). }
  destruct (concat_cells (ext_size fl) vs ltac:(lia) Hvl) as [Lv _].
  assert (Hn : len vs = s_e s - s_x s) by (rewrite Hv, map_length, streak_coords_length; lia).
  rewrite Hn in Lv. rewrite IH; [|exact Hss'|apply Z.add_nonneg_nonneg; [lia|apply Z.mul_nonneg_nonneg; lia]|].
  - f_equal. rewrite map_app, concat_app, <- Hv. rewrite <- splice_app; [|exact Htp|].
    + f_equal. lia.
    + rewrite <- (map_length (fun c => view fl (get_memb (f (Some c)) m))) in Hpo.
      assert (Hvl2 : Forall (fun v => length v = Z.to_nat (ext_size fl)) (map (fun c => view fl (get_memb (f (Some c)) m)) (flat_map streak_coords ss))).
      { apply Forall_forall. intros v Hv'. apply in_map_iff in Hv'. destruct Hv' as (c & <- & Hcs). apply view_length; [exact S4|].
        rewrite Hms. apply slice_length; try lia. enough (length (f (Some c)) = Z.to_nat csize) by lia. apply in_flat_map in Hcs. destruct Hcs as (s' & Hs' & Hcs).
        rewrite Forall_forall in Hss'. destruct (Hss' s' Hs') as [_ Hin']. rewrite Forall_forall in Hin'.
        destruct Hr as (_ & _ & _ & Hr). specialize (Hr c (Hin' c Hcs)). apply (get_length csize (g_cells g) _ _ Hc Hr). }
      destruct (concat_cells (ext_size fl) _ ltac:(lia) Hvl2) as [Lv2 _]. rewrite map_length in Lv2. lia.
  - rewrite splice_length by lia. lia.
Qed.

Lemma aos_load_spec (P : vgrid bytes -> Prop) (Q : streak -> Prop)
  (HP : forall g s vs g', P g -> Q s -> length vs = length (streak_coords s) -> grid_set_streak t g s vs = Some g' -> P g') src : forall ss g f sp, rep dim g f ->
  Forall (fun c => length c = Z.to_nat csize) (g_cells g) -> Forall inside_streak ss -> Forall Q ss -> P g -> 0 <= sp -> sp + len (flat_map streak_coords ss) * ext_size fl <= len src ->
  NoDup (flat_map streak_coords ss) ->
  exists g', aos_load t csize sel src ss sp g = Some g' /\ P g' /\ Forall (fun c => length c = Z.to_nat csize) (g_cells g') /\
    rep dim g' (last_written f (combine (map Some (flat_map streak_coords ss)) (news (aos_upd fl (m_pos m)) src (ext_size fl) sp (map f (map Some (flat_map streak_coords ss)))))).
Proof using Hl Hp Hne Hsel Hm.
  destruct (sel_made_spec reg m sel Hsel) as (S1 & _ & S3 & S4 & S5 & S6 & _). pose proof (filter_sizes fl S4) as (_ & _ & P3 & P4). pose proof Hm as (M1 & M2 & M3 & M4).
  assert (Hms : msize fl = memb_len m) by (unfold msize, memb_len; now rewrite S5, S6).
  induction ss as [|s ss IH]; intros g f sp Hr Hc Hss HQ HPg Hsp Hb Hnd; [exists g; cbn [aos_load flat_map map news combine]; now split|].
  inversion Hss as [|? ? Hs Hss']; subst. inversion HQ as [|? ? HQs HQ']; subst. destruct (grid_row g f s Hr Hs) as (i0 & E1 & E2 & E3). pose proof Hs as [Hx Hin]. cbn [aos_load flat_map]. rewrite E1. cbn [obind].
  assert (Hn0 : (0 < Z.to_nat (s_e s - s_x s))%nat) by lia. destruct (read_bounds _ _ _ _ Hn0 E2) as [B1 B2]. cbn [flat_map] in Hb, Hnd. rewrite app_length in Hb. rewrite streak_coords_length in Hb.
  rewrite S1, S3. assert (Hpo : 0 <= Z.of_nat (length (flat_map streak_coords ss)) * ext_size fl) by (apply Z.mul_nonneg_nonneg; lia).
  destruct (aos_row_in csize fl (m_pos m) S4 M3 ltac:(lia) (g_cells g) src sp i0 (s_e s - s_x s) (map (fun c => f (Some c)) (streak_coords s)) Hc B1 ltac:(lia) ltac:(lia) Hsp ltac:(lia) E2) as (mem' & cells' & F1 & F2 & F3 & F4 & F5).
  rewrite F1. cbn [obind]. rewrite F3. set (vs := news _ _ _ _ _) in F2. set (g1 := mkVGrid (g_dim g) cells' (g_edge g)).
  assert (Lvs : length vs = length (streak_coords s)) by (unfold vs; rewrite news_length, map_length; reflexivity).
  assert (Eg1 : grid_set_streak t g s vs = Some g1) by (rewrite E3, F2; reflexivity).
  assert (Hcl : Forall (close_by dim) (streak_coords s)) by (apply Forall_forall; intros c Hcc; rewrite Forall_forall in Hin; apply in_grid_close; auto).
  destruct (rep_set_streak t dim Hl Hp Hne g f s vs Hr ltac:(lia) Hcl ltac:(lia)) as (g1' & Eg1' & R1). assert (g1' = g1) as -> by congruence. clear Eg1'.
  assert (Ed : map (denotes t dim) (streak_coords s) = map Some (streak_coords s)).
  { apply map_ext_in. intros c Hcc. rewrite Forall_forall in Hin. apply denotes_self; auto. }
  rewrite Ed in R1. destruct (IH g1 _ (sp + ext_size fl * (s_e s - s_x s)) R1) as (g' & G1 & G2 & G3 & G4); auto.
  - eapply HP; eauto.
  - apply Z.add_nonneg_nonneg; [lia|]. apply Z.mul_nonneg_nonneg; lia.
  - lia.
  - now apply nodup_tail in Hnd.
  - exists g'. split; [exact G1|]. split; [exact G2|]. split; [exact G3|]. apply (rep_ext dim g' _ _ G4). intros q.
    rewrite (map_app Some (streak_coords s)). rewrite <- news_join by (rewrite <- map_app; apply FinFun.Injective_map_NoDup; [intros ? ? E; congruence|exact Hnd]). cbv zeta.
    rewrite !map_length, streak_coords_length. replace (Z.of_nat (Z.to_nat (s_e s - s_x s))) with (s_e s - s_x s) by lia.
    unfold vs. rewrite <- (map_map Some f). reflexivity.
Qed.
End AoS.

(** ** SoAGrid *)

Lemma zadd_comm' : forall a c, zadd a c = zadd c a.
Proof. induction a as [|x a IH]; intros [|y c]; cbn; auto. rewrite IH. f_equal. lia. Qed.


Section SoA.
Context (t : topology) (correct : bool) (R : Z) (sizes : coord -> option coord).
Context (Hl3 : (length t <= 3)%nat) (Hne : t <> []) (HR : 0 <= R) (Hsz : sizes_ok sizes).
Context (b : box) (topo : coord).
Context (Hld : length (b_dim b) = length t) (Hlo : length (b_origin b) = length t) (Hp : allpos (b_dim b)).
Context (Htopo : correct = true -> Forall2 Z.le (b_dim b) topo).
Context (csize : Z) (reg : list memb) (Hreg : reg_ok csize reg) (m : memb) (sel : selector B) (Hsel : sel_made (Some reg) m sel).
Notation fl := (sl_filter sel).
Context (junk : bytes) (Hjk : length junk = Z.to_nat (msize fl)).
Definition boxed_streak (s : streak) : Prop := s_x s < s_e s /\ Forall (in_box b) (streak_coords s).
Notation den := (ddenotes t correct b topo).

Lemma soa_row (g : sgrid bytes) f s : srep t R sizes b topo g f -> boxed_streak s ->
  exists ext i0, sizes (sg_act g) = Some ext /\ prod ext = len (sg_mem g) /\ soa_ptr ext sel g s = len (sg_mem g) * sl_off sel + i0 * sl_size sel /\
    vec_read (sg_mem g) i0 (Z.to_nat (s_e s - s_x s)) = Some (map (fun c => f (den c)) (streak_coords s)) /\
    forall vs, sg_set_streak t correct sizes g s vs = option_map (sg_with g) (vec_write (sg_mem g) i0 (Z.to_nat (s_e s - s_x s)) vs).
Proof using All.
  intros Rg [Hx Hin]. pose proof Rg as (H1 & _ & H3 & H4 & _ & ez & ey & ex & F & H6 & H7 & _).
  pose proof (srep_get_streak t R sizes Hl3 Hne HR Hsz b topo Hld Hlo Hp correct Htopo g f s Rg ltac:(lia) Hin) as Hget.
  destruct (sizes_3 t R sizes Hl3 Hne HR Hsz (b_dim b) _ (eq_sym Hld) Hp H6) as (ez' & ey' & ex' & gz & gy & gx & Ee & _ & L1 & L2 & L3). assert (ez' = ez /\ ey' = ey /\ ex' = ex) as (-> & -> & ->) by (repeat split; congruence).
  assert (Ho : sg_coord t correct g (s_origin s) = zsub (s_origin s) (b_origin b)).
  { apply (sg_coord_box t R sizes Hl3 Hne HR Hsz b topo Hld Hlo Hp correct Htopo g f); auto. rewrite Forall_forall in Hin. apply Hin, in_streak_coords. lia. }
  unfold sg_get_streak, sg_set_streak in *. destruct (Z.ltb_spec (s_e s) (s_x s)); [lia|]. rewrite H4, H6 in *. cbn [obind] in *. rewrite Ho in *.
  assert (Epr : prod [ez; ey; ex] = len (sg_mem g)).
  { destruct H7 as (e & _ & H7 & _). cbn [g_cells] in H7. assert (0 < prod [ez; ey; ex]) by (apply prod_pos; repeat constructor; lia). lia. }
  exists [ez; ey; ex], (sg_index g [ez; ey; ex] (zsub (s_origin s) (b_origin b))). split; [reflexivity|]. split; [exact Epr|]. split; [|split; [exact Hget|reflexivity]].
  unfold soa_ptr, soa_gen_index, sg_index. rewrite H1, Epr, zadd_comm'. reflexivity.
Qed.


Lemma soa_save_spec (g : sgrid bytes) f mem : srep t R sizes b topo g f -> soa_holds csize reg mem (sg_mem g) -> forall ss ext tgt tp, sizes (sg_act g) = Some ext -> Forall boxed_streak ss -> 0 <= tp ->
  tp + len (flat_map streak_coords ss) * ext_size fl <= len tgt ->
  soa_save junk ext sel g mem ss tgt tp = Some (splice tgt tp (concat (map (fun c => view fl (get_memb (f (den c)) m)) (flat_map streak_coords ss)))).
Proof using All.
  intros Rg Hh. destruct (sel_made_spec (Some reg) m sel Hsel) as (S1 & S2 & S3 & S4 & S5 & S6 & S7). destruct (S7 reg eq_refl) as (k & Hk & S8). pose proof (filter_sizes fl S4) as (_ & _ & P3 & P4).
  pose proof (memb_nth csize reg Hreg k m Hk) as (M1 & M2 & M3 & M4).
  assert (Hms : msize fl = memb_len m) by (unfold msize, memb_len; now rewrite S5, S6).
  assert (Hvl : forall ss, Forall boxed_streak ss -> Forall (fun v => length v = Z.to_nat (ext_size fl)) (map (fun c => view fl (get_memb (f (den c)) m)) (flat_map streak_coords ss))).
  { intros ss Hss. apply Forall_forall. intros v Hv'. apply in_map_iff in Hv'. destruct Hv' as (c & <- & Hcs). apply view_length; [exact S4|].
    apply in_flat_map in Hcs. destruct Hcs as (s' & Hs' & Hcs). rewrite Forall_forall in Hss. specialize (Hss s' Hs'). destruct (soa_row g f s' Rg Hss) as (_ & i0 & _ & _ & _ & E2 & _).
    rewrite Hms. apply slice_length; try lia. enough (length (f (den c)) = Z.to_nat csize) by lia. destruct Hh as (_ & Hc & _).
    apply read_holds in E2. destruct E2 as [_ E2]. apply (in_map (fun c => f (den c))) in Hcs. apply In_nth_error in Hcs. destruct Hcs as (n & Hn).
    assert (Hlt : (n < length (map (fun c => f (den c)) (streak_coords s')))%nat) by (apply nth_error_Some; congruence).
    specialize (E2 (Z.of_nat n) ltac:(lia)). unfold vec_get in E2 at 2. destruct (Z.ltb_spec (Z.of_nat n) 0); [lia|]. rewrite Nat2Z.id, Hn in E2. now apply (get_length csize _ _ _ Hc E2). }
  induction ss as [|s ss IH]; intros ext tgt tp Hext Hss Htp Hb; [cbn [flat_map map concat soa_save]; now rewrite splice_nil|].
  inversion Hss as [|? ? Hs Hss']; subst. destruct (soa_row g f s Rg Hs) as (ext' & i0 & E0 & Epr & E1 & E2 & _). assert (ext' = ext) as -> by congruence. pose proof Hs as [Hx Hin]. cbn [soa_save flat_map].
  assert (Hn0 : (0 < Z.to_nat (s_e s - s_x s))%nat) by lia. destruct (read_bounds _ _ _ _ Hn0 E2) as [B1 B2]. cbn [flat_map] in Hb. rewrite app_length in Hb. rewrite streak_coords_length in Hb.
  assert (Hpo : 0 <= Z.of_nat (length (flat_map streak_coords ss)) * ext_size fl) by (apply Z.mul_nonneg_nonneg; lia).
  rewrite E1, Epr, S2, S3, S8.
  rewrite (soa_row_out csize reg Hreg k m Hk fl S4 S5 S6 junk Hjk mem (sg_mem g) tgt tp i0 (s_e s - s_x s) (map (fun c => f (den c)) (streak_coords s)) Hh B1 ltac:(lia) ltac:(lia) Htp ltac:(lia) E2). cbn [obind].
  rewrite map_map. pose proof (Hvl [s] ltac:(constructor; [exact Hs|constructor])) as Hv1. cbn [flat_map] in Hv1. rewrite app_nil_r in Hv1. pose proof (Hvl ss Hss') as Hv2.
  destruct (concat_cells (ext_size fl) _ ltac:(lia) Hv1) as [Lv1 _]. destruct (concat_cells (ext_size fl) _ ltac:(lia) Hv2) as [Lv2 _]. rewrite map_length in Lv1, Lv2. rewrite streak_coords_length in Lv1.
  replace (Z.of_nat (Z.to_nat (s_e s - s_x s))) with (s_e s - s_x s) in Lv1 by lia.
  rewrite IH; [|exact Hext|exact Hss'|apply Z.add_nonneg_nonneg; [lia|apply Z.mul_nonneg_nonneg; lia]|].
  - f_equal. rewrite map_app, concat_app. rewrite <- splice_app; [|exact Htp|lia]. f_equal. lia.
  - rewrite splice_length by lia. lia.
Qed.

Lemma soa_load_with ext (g : sgrid bytes) cells src : forall ss sp mem, soa_load junk ext sel (sg_with g cells) src ss sp mem = soa_load junk ext sel g src ss sp mem.
Proof using. induction ss as [|s ss IH]; intros sp mem; [reflexivity|]. cbn [soa_load]. change (soa_ptr ext sel (sg_with g cells) s) with (soa_ptr ext sel g s). destruct (streak_in _ _ _ _ _ _ _ _); cbn [obind]; auto. Qed.

Lemma soa_load_spec (P : sgrid bytes -> Prop)
  (HP : forall g s vs g', P g -> boxed_streak s -> length vs = length (streak_coords s) -> sg_set_streak t correct sizes g s vs = Some g' -> P g') src : forall ss g f mem ext sp, srep t R sizes b topo g f ->
  soa_holds csize reg mem (sg_mem g) -> sizes (sg_act g) = Some ext -> Forall boxed_streak ss -> P g -> 0 <= sp -> sp + len (flat_map streak_coords ss) * ext_size fl <= len src ->
  NoDup (map den (flat_map streak_coords ss)) ->
  exists mem' g', soa_load junk ext sel g src ss sp mem = Some mem' /\ P g' /\ soa_holds csize reg mem' (sg_mem g') /\
    srep t R sizes b topo g' (last_written f (combine (map den (flat_map streak_coords ss)) (news (soa_upd m fl junk) src (ext_size fl) sp (map f (map den (flat_map streak_coords ss)))))).
Proof using All.
  destruct (sel_made_spec (Some reg) m sel Hsel) as (S1 & S2 & S3 & S4 & S5 & S6 & S7). destruct (S7 reg eq_refl) as (k & Hk & S8). pose proof (filter_sizes fl S4) as (_ & _ & P3 & P4).
  induction ss as [|s ss IH]; intros g f mem ext sp Rg Hh Hext Hss HPg Hsp Hb Hnd; [exists mem, g; cbn [soa_load flat_map map news combine]; auto|].
  inversion Hss as [|? ? Hs Hss']; subst. destruct (soa_row g f s Rg Hs) as (ext' & i0 & E0 & Epr & E1 & E2 & E3). assert (ext' = ext) as -> by congruence. pose proof Hs as [Hx Hin]. cbn [soa_load flat_map].
  assert (Hn0 : (0 < Z.to_nat (s_e s - s_x s))%nat) by lia. destruct (read_bounds _ _ _ _ Hn0 E2) as [B1 B2]. cbn [flat_map] in Hb, Hnd. rewrite app_length in Hb. rewrite streak_coords_length in Hb.
  assert (Hpo : 0 <= Z.of_nat (length (flat_map streak_coords ss)) * ext_size fl) by (apply Z.mul_nonneg_nonneg; lia).
  rewrite E1, Epr, S2, S3, S8.
  destruct (soa_row_in csize reg Hreg k m Hk fl S4 S5 S6 junk Hjk mem (sg_mem g) src sp i0 (s_e s - s_x s) (map (fun c => f (den c)) (streak_coords s)) Hh B1 ltac:(lia) ltac:(lia) Hsp ltac:(lia) E2) as (mem1 & cells' & F1 & F2 & F3 & F4).
  rewrite F1. cbn [obind]. set (vs := news _ _ _ _ _) in F2. set (g1 := sg_with g cells').
  assert (Lvs : length vs = length (streak_coords s)) by (unfold vs; rewrite news_length, map_length; reflexivity).
  assert (Eg1 : sg_set_streak t correct sizes g s vs = Some g1) by (rewrite E3, F2; reflexivity).
  destruct (srep_set_streak t R sizes Hl3 Hne HR Hsz b topo Hld Hlo Hp correct Htopo g f s vs Rg ltac:(lia) Hin ltac:(lia)) as (g1' & Eg1' & R1). assert (g1' = g1) as -> by congruence. clear Eg1'.
  destruct (IH g1 _ mem1 ext (sp + ext_size fl * (s_e s - s_x s)) R1) as (mem' & g' & G1 & G2 & G3 & G4); auto.
  - eapply HP; eauto.
  - apply Z.add_nonneg_nonneg; [lia|]. apply Z.mul_nonneg_nonneg; lia.
  - lia.
  - rewrite map_app in Hnd. now apply nodup_tail in Hnd.
  - exists mem', g'. split; [unfold g1 in G1; rewrite soa_load_with in G1; exact G1|]. split; [exact G2|]. split; [exact G3|]. apply (srep_ext t R sizes b topo g' _ _ G4). intros q.
    rewrite map_app in Hnd |- *. rewrite <- news_join by exact Hnd. cbv zeta.
    rewrite (map_length den), streak_coords_length. replace (Z.of_nat (Z.to_nat (s_e s - s_x s))) with (s_e s - s_x s) by lia.
    unfold vs. rewrite <- (map_map den f). reflexivity.
Qed.
End SoA.
End Selectors.
