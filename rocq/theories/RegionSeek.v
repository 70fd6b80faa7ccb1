(** Facts on [streakIteratorOnOrAfter] in one and two dimensions. *)
From Verif Require Import Base ListFacts RegionSpec RegionModel RegionTree RegionFlat RegionEnc RegionRep
  RegionIterModel RegionIter RegionStreaks CoordModel RegionOpsModel RegionOps RegionSeekModel.
From Coq Require Import Sorted.

Lemma locate_run d r l i s : rvalid d r -> reg_streaks r = Some l -> nth_error l i = Some s ->
  it_construct r (it_locate r i) (zero_off r) 0 = Some s /\
  it_run (length l - i) r (zero_off r) 0 (mkIter (it_locate r i) s) (it_end r) = Some (skipn i l).
Proof.
  intros Hr Hl Hi.
  assert (Hne : r <> []) by (apply length_nonnil with d; now apply valid_length).
  assert (Hrun := fun t Hw E => run_all r (zero_off r) 0 (eq_rect _ widx (widx_tree d t Hw) _ (eq_sym E)) Hne).
  destruct Hr as (t & Hw & E). specialize (Hrun t Hw E).
  assert (Hwi : widx r) by (rewrite E; now apply widx_tree).
  assert (Hzl : length (zero_off r) = length r) by (rewrite zero_off_repeat, repeat_length; auto).
  assert (Hlr : length r = S d) by (rewrite E, enc_length, lvl_length; auto).
  destruct Hrun as (l' & Hl' & Hlen & Hnth); auto.
  { intros k Hk. rewrite E in Hk |- *. rewrite enc_last, (last_lvl d t []), map_length in Hk.
    destruct (nth_error (tstr d t []) k) as [s0|] eqn:E0; [|apply nth_error_None in E0; lia].
    rewrite (strk_tree d t _ 0 k s0); auto; [congruence|]. rewrite <- E, Hzl; auto. }
  unfold reg_streaks in Hl. rewrite Hl in Hl'. injection Hl' as <-.
  assert (Hik : (i < length l)%nat) by (apply nth_error_Some; congruence).
  assert (Hs : strk r (zero_off r) 0 i = Some s) by (rewrite Hnth by lia; exact Hi).
  split; [exact Hs|].
  destruct (run_from r (zero_off r) 0 Hwi Hne Hzl (length l - i) i s) as (l2 & H2 & Hlen2 & Hn2); auto; [lia|lia|].
  rewrite H2. f_equal. apply nth_error_ext; [rewrite skipn_length; lia|].
  intros j Hj. rewrite <- Hn2 by lia. rewrite Hnth by lia.
  rewrite <- (firstn_skipn i l) at 1. rewrite nth_error_app2 by (rewrite firstn_length; lia).
  f_equal. rewrite firstn_length. lia.
Qed.

Lemma lower_bound_ctx (A l1 l2 C : vec) c :
  (forall e, In e l1 -> fst e < c) -> (forall e, In e l2 -> c <= fst e) ->
  lower_bound (A ++ (l1 ++ l2) ++ C) (length A) (length A + length (l1 ++ l2)) c = (length A + length l1)%nat.
Proof.
  intros H1 H2. unfold lower_bound. f_equal.
  rewrite skipn_app_exact by auto. rewrite firstn_app_exact by lia.
  apply count_while_app; intros e He; [apply H1 in He|apply H2 in He]; lia.
Qed.

Lemma split_lower {A} (l : list (Z * A)) c : StronglySorted klt l ->
  exists l1 l2, l = l1 ++ l2 /\ (forall e, In e l1 -> fst e < c) /\ (forall e, In e l2 -> c <= fst e).
Proof.
  intros H. destruct (split_sorted l (c - 1) H) as (l1 & l2 & -> & H1 & H2). exists l1, l2. split; auto.
  split; intros e He; [specialize (H1 e He)|specialize (H2 e He)]; lia.
Qed.

(** An iterator at the [k]-th streak, or at the end. *)
Definition it_at (r : indices) (k : nat) (it : siter) : Prop :=
  (exists s, (k < length (last r []))%nat /\ strk r (zero_off r) 0 k = Some s /\ it = mkIter (it_locate r k) s) \/
  (k = length (last r []) /\ it_pos it = it_pos (it_end r)).

(** The outcome of a successful search. *)
Definition seek_ok (r : indices) (c : coord) : Prop :=
  exists it ss1 ss2, reg_on_or_after r c = Some it /\ reg_streaks r = Some (ss1 ++ ss2) /\
    it_run (length ss2) r (zero_off r) 0 it (it_end r) = Some ss2 /\
    (forall s, In s ss1 -> coord_lt (s_origin s) c) /\ (forall s, In s ss2 -> ~ coord_lt (s_origin s) c) /\ it_at r (length ss1) it.

Lemma valid_run d r l : rvalid d r -> reg_streaks r = Some l ->
  length l = length (last r []) /\ widx r /\ r <> [] /\ length (zero_off r) = length r.
Proof.
  intros Hv Hl. assert (Hne : r <> []) by (apply length_nonnil with d; now apply valid_length).
  destruct (streaks_valid d r Hv) as (l' & _ & _ & El & _ & Hp). rewrite Hl in El. injection El as <-.
  split; [rewrite <- Hp; now rewrite map_length|]. destruct Hv as (t & Hw & E). split; [rewrite E; now apply widx_tree|]. split; [exact Hne|]. rewrite zero_off_repeat, repeat_length. reflexivity.
Qed.

(** The loop between two iterators visits the streaks in between. *)
Lemma run_between d r l : rvalid d r -> reg_streaks r = Some l -> forall m i j it fin fuel, it_at r i it -> it_at r j fin -> j = (i + m)%nat -> (j <= length l)%nat -> (m <= fuel)%nat ->
  it_run fuel r (zero_off r) 0 it fin = Some (firstn m (skipn i l)).
Proof.
  intros Hv Hl. destruct (valid_run d r l Hv Hl) as (HL & Hw & Hne & Hz).
  induction m as [|m IH]; intros i j it fin fuel Hi Hj Ej Hjl Hf.
  - assert (Hp : it_pos it = it_pos fin).
    { replace j with i in Hj by lia. destruct Hi as [(s & H1 & _ & ->)|(H1 & ->)], Hj as [(s' & H2 & _ & ->)|(H2 & ->)]; try lia; reflexivity. }
    apply it_eqb_spec in Hp. destruct fuel; cbn [it_run]; rewrite Hp; reflexivity.
  - destruct Hi as [(s & H1 & Hs & ->)|(H1 & _)]; [|lia].
    assert (Hp : it_eqb (mkIter (it_locate r i) s) fin = false).
    { apply Bool.not_true_is_false. intros E. apply it_eqb_spec in E. cbn [it_pos] in E. apply (f_equal (fun l => last l O)) in E. rewrite locate_last in E by auto.
      destruct Hj as [(s' & H2 & _ & ->)|(H2 & E2)]; [cbn [it_pos] in E; rewrite locate_last in E by auto; lia|].
      rewrite E2 in E. cbn [it_end it_pos] in E. rewrite last_map_length in E by auto. lia. }
    destruct fuel as [|fuel]; [lia|]. cbn [it_run]. rewrite Hp.
    assert (Hnth : exists l', skipn i l = s :: l' /\ l' = skipn (S i) l).
    { destruct (nth_error l i) as [s'|] eqn:E; [|apply nth_error_None in E; lia]. destruct (locate_run d r l i s' Hv Hl E) as [Hc _].
      unfold strk in Hs. rewrite Hc in Hs. injection Hs as ->. apply nth_error_split in E. destruct E as (a & b & -> & Ha). exists b. split.
      - rewrite skipn_app_exact by auto. reflexivity.
      - replace (a ++ s :: b) with ((a ++ [s]) ++ b) by (now rewrite <- app_assoc). rewrite skipn_app_exact; auto. rewrite app_length. cbn. lia. }
    destruct Hnth as (l' & -> & El'). cbn [firstn].
    destruct (Nat.eq_dec (S i) (length (last r []))) as [Hend|Hend].
    + unfold it_next. cbn [it_pos it_streak]. rewrite locate_last by auto. replace (S i =? length (last r []))%nat with true by lia. cbn [it_streak].
      rewrite (IH (S i) j _ fin fuel); auto; try lia; [now rewrite El'|]. right. split; [lia|reflexivity].
    + destruct (it_next_locate r i (zero_off r) 0 s Hw Hne ltac:(lia) Hz Hs) as (s' & Hs' & ->). rewrite (IH (S i) j _ fin fuel); auto; try lia; [now rewrite El'|].
      left. exists s'. split; [lia|]. split; [exact Hs'|reflexivity].
Qed.

Lemma begin_at d r l : rvalid d r -> reg_streaks r = Some l -> exists it, it_begin r (zero_off r) 0 = Some it /\ it_at r 0 it.
Proof.
  intros Hv Hl. destruct (valid_run d r l Hv Hl) as (HL & Hw & Hne & Hz).
  destruct (it_begin r (zero_off r) 0) as [it|] eqn:E; [|unfold reg_streaks, reg_streaks_off in Hl; rewrite E in Hl; discriminate].
  exists it. split; [reflexivity|]. destruct l as [|s l].
  - right. cbn in HL. split; [lia|]. unfold reg_streaks, reg_streaks_off in Hl. rewrite E, <- HL in Hl. cbn [it_run] in Hl.
    destruct (it_eqb it (it_end r)) eqn:Eb; [|discriminate]. now apply it_eqb_spec.
  - left. cbn in HL. destruct (locate_run d r _ 0 s Hv Hl eq_refl) as [Hc _]. exists s. split; [lia|]. split; [exact Hc|].
    assert (Hlast : last r [] <> []) by (intros H; rewrite H in HL; discriminate). destruct (locate_zero r Hw Hlast) as [Hz0 _].
    unfold it_begin in E. rewrite <- Hz0 in E. replace (reg_is_empty r) with false in E by (unfold reg_is_empty; destruct (last r []); [congruence|reflexivity]). rewrite Hc in E. now injection E as <-.
Qed.

Lemma end_at r : it_at r (length (last r [])) (it_end r).
Proof. right. auto. Qed.

(** Reaching position [length ss1] directly ... *)
Lemma seek_at d r c ss1 s ss2 : rvalid d r -> reg_streaks r = Some (ss1 ++ s :: ss2) ->
  seek r c 0 (length (hd [] r)) = Some (Some (it_locate r (length ss1), false)) ->
  (forall s, In s ss1 -> coord_lt (s_origin s) c) -> (forall s', In s' (s :: ss2) -> ~ coord_lt (s_origin s') c) ->
  seek_ok r c.
Proof.
  intros Hv Hl Hs H1 H2. destruct (locate_run d r _ (length ss1) s Hv Hl) as [Hc Hrun].
  { rewrite nth_error_app2, Nat.sub_diag; auto. }
  eexists. exists ss1, (s :: ss2). unfold reg_on_or_after. rewrite Hs, Hc. cbn [obind].
  split; [reflexivity|]. split; auto.
  rewrite app_length in Hrun. replace (length ss1 + length (s :: ss2) - length ss1)%nat with (length (s :: ss2)) in Hrun by lia.
  split; [rewrite Hrun; now rewrite skipn_app_exact by auto|]. split; [exact H1|]. split; [exact H2|].
  left. exists s. destruct (valid_run d r _ Hv Hl) as (HL & _). rewrite app_length in HL. cbn in HL. split; [lia|]. split; [exact Hc|reflexivity].
Qed.

(** ... or from the streak before it ... *)
Lemma seek_next d r c ss1 s ss2 : rvalid d r -> reg_streaks r = Some ((ss1 ++ [s]) ++ ss2) ->
  seek r c 0 (length (hd [] r)) = Some (Some (it_locate r (length ss1), true)) ->
  (forall s', In s' (ss1 ++ [s]) -> coord_lt (s_origin s') c) -> (forall s', In s' ss2 -> ~ coord_lt (s_origin s') c) ->
  seek_ok r c.
Proof.
  intros Hv Hl Hs H1 H2. rewrite <- app_assoc in Hl. cbn [app] in Hl.
  destruct (locate_run d r _ (length ss1) s Hv Hl) as [Hc Hrun].
  { rewrite nth_error_app2, Nat.sub_diag; auto. }
  rewrite app_length in Hrun. replace (length ss1 + length (s :: ss2) - length ss1)%nat with (length (s :: ss2)) in Hrun by lia.
  rewrite skipn_app_exact in Hrun by auto. cbn [length it_run] in Hrun.
  destruct (it_eqb _ _); [discriminate|].
  destruct (it_next r (zero_off r) 0 (mkIter (it_locate r (length ss1)) s)) as [it'|] eqn:E; [|discriminate].
  destruct (it_run (length ss2) r (zero_off r) 0 it' (it_end r)) as [l'|] eqn:E'; [|discriminate].
  cbn [it_streak] in Hrun. injection Hrun as ->.
  exists it', (ss1 ++ [s]), ss2. unfold reg_on_or_after. rewrite Hs, Hc. cbn [obind]. split; auto.
  split; [now rewrite <- app_assoc|]. split; [exact E'|]. split; [exact H1|]. split; [exact H2|].
  destruct (valid_run d r _ Hv Hl) as (HL & Hw & Hne & Hz). rewrite app_length in HL. cbn in HL. rewrite app_length. cbn [length].
  destruct ss2 as [|s2 ss2].
  - right. split; [cbn in HL; lia|]. unfold it_next in E. cbn [it_pos it_streak] in E. rewrite locate_last in E by auto. replace (S (length ss1) =? length (last r []))%nat with true in E by (cbn in HL; lia).
    injection E as <-. reflexivity.
  - left. destruct (it_next_locate r (length ss1) (zero_off r) 0 s Hw Hne ltac:(cbn in HL; lia) Hz Hc) as (s' & Hs' & En). rewrite E in En. injection En as ->.
    exists s'. replace (length ss1 + 1)%nat with (S (length ss1)) by lia. split; [cbn in HL; lia|]. split; [exact Hs'|reflexivity].
Qed.

(** ... or there is none. *)
Lemma seek_end d r c l : rvalid d r -> reg_streaks r = Some l ->
  seek r c 0 (length (hd [] r)) = Some None ->
  (forall s, In s l -> coord_lt (s_origin s) c) -> seek_ok r c.
Proof.
  intros Hv Hl Hs H1. exists (it_end r), l, []. unfold reg_on_or_after. rewrite Hs. split; auto.
  split; [now rewrite app_nil_r|]. split; [|split; auto; split; [intros s []|]].
  - cbn [length it_run]. assert (it_eqb (it_end r) (it_end r) = true) as -> by (now apply it_eqb_spec). reflexivity.
  - destruct (valid_run d r _ Hv Hl) as (-> & _). apply end_at.
Qed.

(** ** One dimension *)

Lemma seek_1d r x : rvalid 0 r -> seek_ok r [x].
Proof.
  intros Hv. pose proof Hv as (t & Hw & E). cbn in t, Hw. cbn [lvl enc] in E.
  assert (Hl : reg_streaks r = Some (map (fun e => mkStreak [] (fst e) (snd e)) t)).
  { destruct (streaks_valid 0 r Hv) as (l & Hok & _ & El & _ & Hp). rewrite El. f_equal.
    rewrite E in Hp. cbn in Hp. subst t. rewrite map_map. symmetry. apply map_id_in. intros s Hs. destruct Hok as [_ Hf].
    rewrite Forall_forall in Hf. destruct (Hf s Hs) as [Hpl _]. destruct s as [[|] a b]; [reflexivity|discriminate]. }
  destruct (split_lower t x (wf0_klt t Hw)) as (l1 & l2 & -> & H1 & H2).
  assert (Hlb : lower_bound (l1 ++ l2) 0 (length (l1 ++ l2)) x = length l1).
  { pose proof (lower_bound_ctx [] l1 l2 [] x H1 H2) as H. cbn [app length Nat.add] in H. now rewrite app_nil_r in H. }
  rewrite map_app in Hl.
  assert (L1 : forall s, In s (map (fun e => mkStreak [] (fst e) (snd e)) l1) -> coord_lt (s_origin s) [x]).
  { intros s Hs. apply in_map_iff in Hs. destruct Hs as (e & <- & He). cbn. left. now apply H1. }
  assert (L2 : forall s, In s (map (fun e => mkStreak [] (fst e) (snd e)) l2) -> ~ coord_lt (s_origin s) [x]).
  { intros s Hs. apply in_map_iff in Hs. destruct Hs as (e & <- & He). cbn. specialize (H2 e He). lia. }
  destruct l2 as [|e l2].
  - eapply seek_end; [exact Hv|exact Hl| |].
    + rewrite E. cbn [seek hd]. rewrite Hlb, app_nil_r. now rewrite Nat.eqb_refl.
    + rewrite app_nil_r. exact L1.
  - eapply seek_at; [exact Hv|exact Hl| |exact L1|exact L2].
    rewrite E. cbn [seek hd it_locate]. rewrite Hlb, map_length.
    replace (length l1 =? length (l1 ++ e :: l2))%nat with false by (symmetry; rewrite app_length; cbn; lia). reflexivity.
Qed.

(** ** Two dimensions *)

(** Index vectors of a two-dimensional tree. *)
Definition rows (t : list (Z * vec)) : vec := flat_map (@snd Z vec) t.

Lemma enc_2d (t : tree 1) : enc (lvl 1 t) = [offs 0 (map (@cl 0) t); rows t].
Proof.
  rewrite lvl_S. assert (@zc 0 t = [rows t]) as ->; [|reflexivity].
  unfold zc. induction t as [|p t IH]; [reflexivity|]. cbn [map]. unfold zconcat in *. cbn [fold_right].
  change (list (Z * tree 0)) with (tree 1) in *. rewrite IH. reflexivity.
Qed.

Definition row_streaks (p : Z * vec) : list streak := map (fun e => mkStreak [fst p] (fst e) (snd e)) (snd p).

Lemma tstr_2d (t : tree 1) : tstr 1 t [] = flat_map row_streaks t.
Proof. reflexivity. Qed.

Lemma vsum_rows (t : tree 1) : vsum (map (@cl 0) t) = Z.of_nat (length (rows t)).
Proof.
  induction t as [|[k v] t IH]; auto. change (rows ((k, v) :: t)) with (v ++ rows t). rewrite app_length.
  change (vsum (map (@cl 0) ((k, v) :: t))) with (Z.of_nat (length v) + vsum (map (@cl 0) t)).
  change (list (Z * tree 0)) with (tree 1) in *. rewrite IH. lia.
Qed.

Lemma offs_fst b v e : In e (offs b v) -> exists n, In (fst e, n) v.
Proof.
  revert b. induction v as [|[c n] v IH]; intros b [].
  - subst. cbn. eauto.
  - apply IH in H. destruct H as (m & H). exists m. now right.
Qed.

Lemma cl_fst (t : tree 1) e b : In e (offs b (map (@cl 0) t)) -> exists p, In p (t : list (Z * vec)) /\ fst e = fst p.
Proof.
  intros H. apply offs_fst in H. destruct H as (n & H). apply in_map_iff in H. destruct H as (p & Hp & Hin).
  exists p. split; auto. unfold cl in Hp. injection Hp as ->. reflexivity.
Qed.

Lemma rows_app t1 t2 : rows (t1 ++ t2) = rows t1 ++ rows t2.
Proof. apply flat_map_app. Qed.

Lemma row_streaks_length t : length (flat_map row_streaks t) = length (rows t).
Proof.
  unfold rows. induction t as [|p t IH]; auto. cbn [flat_map]. rewrite !app_length, IH. unfold row_streaks. now rewrite map_length.
Qed.

(** The row of a streak position. *)
Lemma locate_2d (t1 : tree 1) (k : Z) (row : vec) (t2 : tree 1) j :
  (Forall (fun p => snd p <> []) (t1 ++ (k, row) :: t2)) -> (j < length row)%nat ->
  it_locate (enc (lvl 1 (t1 ++ (k, row) :: t2 : tree 1))) (length (rows t1) + j) = [length t1; (length (rows t1) + j)%nat].
Proof.
  intros Hne Hj. rewrite enc_2d. cbn [it_locate hd]. f_equal. rewrite map_app, offs_app. cbn [map offs].
  assert (Hpos : forall t : tree 1, Forall (fun e => 0 <= snd e) (map (@cl 0) t)).
  { intros t. apply Forall_forall. intros e He. apply in_map_iff in He. destruct He as (p & <- & _). unfold cl. cbn. lia. }
  change ((k, Z.of_nat (tlen (row : tree 0)))) with (@cl 0 (k, row)).
  set (A := offs 0 (map (@cl 0) t1)). set (b := 0 + vsum (map (@cl 0) t1)).
  assert (Hb : b = Z.of_nat (length (rows t1))) by (unfold b; rewrite vsum_rows; lia).
  change (offs b (@cl 0 (k, row) :: map (@cl 0) t2)) with ((k, b) :: offs (b + Z.of_nat (length row)) (map (@cl 0) t2)).
  assert (Hc : count_while (fun e => snd e <=? Z.of_nat (length (rows t1) + j)) ((A ++ [(k, b)]) ++ offs (b + Z.of_nat (length row)) (map (@cl 0) t2))
     = length (A ++ [(k, b)])).
  { apply count_while_app; intros e He.
    - apply in_app_iff in He. destruct He as [He|[<-|[]]]; [|cbn [snd]; lia].
      unfold A in He. apply offs_bounds in He; auto. rewrite vsum_rows in He. lia.
    - apply offs_bounds in He; auto. lia. }
  rewrite <- app_assoc in Hc. cbn [app] in Hc.
  match goal with |- (count_while ?f ?l - 1)%nat = _ => replace (count_while f l) with (length (A ++ [(k, b)])) by (symmetry; exact Hc) end.
  rewrite app_length. cbn [length]. unfold A. rewrite offs_length, map_length. apply Nat.add_sub.
Qed.

Lemma seek_2d r y x : rvalid 1 r -> seek_ok r [y; x].
Proof.
  intros Hv. pose proof Hv as (t & Hw & E).
  assert (Hl : reg_streaks r = Some (flat_map row_streaks t)).
  { destruct (streaks_valid 1 r Hv) as (l & Hok & _ & El & _).
    assert (Hoff := streaks_tree 1 t (zero_off r) 0 Hw).
    unfold reg_streaks in *. rewrite E in *.
    rewrite Hoff by (rewrite zero_off_repeat, repeat_length, enc_length, lvl_length; auto). f_equal.
    rewrite tstr_2d. apply map_id_in. intros s Hs. apply in_flat_map in Hs. destruct Hs as (p & _ & Hs).
    unfold row_streaks in Hs. apply in_map_iff in Hs. destruct Hs as (e & <- & _).
    rewrite zero_off_repeat. apply s_shift_zero. cbn [s_pre length]. rewrite enc_length, lvl_length. lia. }
  cbn [twf] in Hw. destruct Hw as [Hsort Hrows].
  change (tree 1) with (list (Z * vec)) in *.
  assert (Hne : Forall (fun p : Z * vec => snd p <> []) t).
  { rewrite Forall_forall in *. intros p Hp. specialize (Hrows p Hp). destruct p as [k [|]]; cbn in *; [|congruence].
    destruct Hrows as [Hn _]. exfalso. apply Hn. reflexivity. }
  assert (Hlow : forall (t1 : list (Z * vec)), (forall e, In e t1 -> fst e < y) ->
     forall s, In s (flat_map row_streaks t1) -> coord_lt (s_origin s) [y; x]).
  { intros t1 H s Hs. apply in_flat_map in Hs. destruct Hs as (p & Hp & Hs). apply in_map_iff in Hs.
    destruct Hs as (e & <- & _). cbn. left. now apply H. }
  assert (Hhigh : forall (t1 : list (Z * vec)), (forall e, In e t1 -> y < fst e) ->
     forall s, In s (flat_map row_streaks t1) -> ~ coord_lt (s_origin s) [y; x]).
  { intros t1 H s Hs. apply in_flat_map in Hs. destruct Hs as (p & Hp & Hs). apply in_map_iff in Hs.
    destruct Hs as (e & <- & _). cbn. specialize (H p Hp). lia. }
  assert (Hcl : forall (t' : list (Z * vec)) b (P : Z -> Prop), (forall e, In e t' -> P (fst e)) ->
     forall e, In e (offs b (map (@cl 0) t')) -> P (fst e)).
  { intros t' b P H e He. apply (cl_fst t') in He. destruct He as (p & Hp & ->). auto. }
  assert (Hlb : forall (t1 t2 : list (Z * vec)) c, (forall e, In e t1 -> fst e < c) -> (forall e, In e t2 -> c <= fst e) ->
     lower_bound (offs 0 (map (@cl 0) (t1 ++ t2))) 0 (length (offs 0 (map (@cl 0) (t1 ++ t2)))) c = length t1).
  { intros t1 t2 c H1 H2. rewrite map_app, offs_app.
    pose proof (lower_bound_ctx [] (offs 0 (map (@cl 0) t1)) (offs (0 + vsum (map (@cl 0) t1)) (map (@cl 0) t2)) [] c) as H.
    cbn [app length Nat.add] in H. rewrite app_nil_r in H. etransitivity; [apply H|now rewrite offs_length, map_length].
    - apply Hcl with (P := fun k => k < c); auto.
    - apply Hcl with (P := fun k => c <= k); auto. }
  destruct (key_cases t y Hsort) as [(t1 & row & t2 & Et & H1 & H2)|(t1 & t2 & Et & H1 & H2)].
  - (* there is a row y *)
    assert (Hwf : wf0 row).
    { rewrite Et in Hrows. rewrite Forall_forall in Hrows. specialize (Hrows (y, row) ltac:(apply in_or_app; right; now left)).
      cbn in Hrows. tauto. }
    destruct (split_lower row x (wf0_klt row Hwf)) as (ra & rb & Er & Ha & Hb).
    set (ss1 := flat_map row_streaks t1 ++ map (fun e => mkStreak [y] (fst e) (snd e)) ra).
    set (ss2 := map (fun e => mkStreak [y] (fst e) (snd e)) rb ++ flat_map row_streaks t2).
    assert (Ess : flat_map row_streaks t = ss1 ++ ss2).
    { rewrite Et, flat_map_app. cbn [flat_map]. unfold row_streaks at 2. cbn [fst snd]. rewrite Er, map_app.
      unfold ss1, ss2. now rewrite <- !app_assoc. }
    assert (L1 : forall s, In s ss1 -> coord_lt (s_origin s) [y; x]).
    { intros s Hs. apply in_app_iff in Hs. destruct Hs as [Hs|Hs]; [eapply Hlow; eauto|].
      apply in_map_iff in Hs. destruct Hs as (e & <- & He). cbn. right. split; auto. }
    assert (L2 : forall s, In s ss2 -> ~ coord_lt (s_origin s) [y; x]).
    { intros s Hs. apply in_app_iff in Hs. destruct Hs as [Hs|Hs]; [|eapply Hhigh; eauto].
      apply in_map_iff in Hs. destruct Hs as (e & <- & He). cbn. specialize (Hb e He). lia. }
    assert (Hlen1 : length ss1 = (length (rows t1) + length ra)%nat).
    { unfold ss1. rewrite app_length, map_length, row_streaks_length. reflexivity. }
    assert (Hseek : seek r [y; x] 0 (length (hd [] r)) =
      match seek [rows t] [x] (length (rows t1)) (length (rows t1) + length row) with
      | Some (Some (ps, inc)) => Some (Some (length t1 :: ps, inc)) | o => o end).
    { rewrite E, enc_2d, Et. cbn [hd]. cbn [seek].
      rewrite (Hlb t1 ((y, row) :: t2) y) by (first [assumption | intros e [<-|He]; [cbn; lia|specialize (H2 e He); lia]]).
      rewrite offs_length, map_length.
      assert (Hlt : (length t1 =? length (t1 ++ (y, row) :: t2))%nat = false) by (rewrite app_length; cbn; lia).
      change (list (Z * tree 0)) with (list (Z * vec)) in *. change (Z * tree 0)%type with (Z * vec)%type in *. rewrite Hlt.
      assert (Hn : nth_error (offs 0 (map (@cl 0) (t1 ++ (y, row) :: t2))) (length t1) = Some (y, Z.of_nat (length (rows t1)))).
      { rewrite map_app, offs_app. rewrite nth_error_app2 by (rewrite offs_length, map_length; auto).
        rewrite offs_length, map_length, Nat.sub_diag. cbn [map offs]. cbn [cl fst snd nth_error].
        f_equal. f_equal. rewrite vsum_rows. lia. }
      change (list (Z * tree 0)) with (list (Z * vec)) in *. change (Z * tree 0)%type with (Z * vec)%type in *.
      rewrite Hn. cbn [obind fst snd]. rewrite Z.eqb_refl, Nat2Z.id.
      assert (Hno : Z.to_nat (next_offset (offs 0 (map (@cl 0) (t1 ++ (y, row) :: t2))) (S (length t1)) [rows (t1 ++ (y, row) :: t2)])
        = (length (rows t1) + length row)%nat).
      { replace (t1 ++ (y, row) :: t2) with ((t1 ++ [(y, row)]) ++ t2) by (rewrite <- app_assoc; reflexivity).
        set (t1' := t1 ++ [(y, row)]). rewrite map_app.
        replace (S (length t1)) with (length (map (@cl 0) t1')) by (unfold t1'; rewrite map_length, app_length; cbn [length]; rewrite Nat.add_comm; reflexivity).
        etransitivity; [apply (f_equal Z.to_nat); apply (next_offset_enc (map (@cl 0) t1') (map (@cl 0) t2) [rows (t1' ++ t2)]); [discriminate|]|].
        - rewrite <- map_app. apply (vsum_rows (t1' ++ t2)).
        - rewrite (vsum_rows t1'). unfold t1'. rewrite rows_app, app_length. cbn [rows flat_map]. rewrite app_nil_r, Nat2Z.id. reflexivity. }
      change (list (Z * tree 0)) with (list (Z * vec)) in *. change (Z * tree 0)%type with (Z * vec)%type in *.
      rewrite Hno. reflexivity. }
    assert (Er0 : rows t = rows t1 ++ (ra ++ rb) ++ rows t2).
    { rewrite Et, rows_app. cbn [rows flat_map]. now rewrite Er. }
    assert (Hseek0 : seek [rows t] [x] (length (rows t1)) (length (rows t1) + length row) =
      if (length ss1 =? length (rows t))%nat then Some None
      else if (length ss1 =? length (rows t1) + length row)%nat then
        match length ss1 with O => None | S k => Some (Some ([k], true)) end
      else Some (Some ([length ss1], false))).
    { cbn [seek]. rewrite Er, Er0. rewrite (lower_bound_ctx (rows t1) ra rb (rows t2) x Ha Hb).
      rewrite <- Hlen1. destruct (Nat.eqb_spec (length ss1) (length (rows t1 ++ (ra ++ rb) ++ rows t2))); auto.
      destruct (Nat.eqb_spec (length ss1) (length (rows t1) + length (ra ++ rb))) as [El|]; auto.
      destruct (length ss1) as [|k] eqn:Ek; auto.
      assert (Hlt : (S k < length (rows t1 ++ (ra ++ rb) ++ rows t2))%nat).
      { rewrite !app_length in *. lia. }
      destruct (nth_error (rows t1 ++ (ra ++ rb) ++ rows t2) (S k)) eqn:En; [reflexivity|].
      apply nth_error_None in En. lia. }
    rewrite Ess in Hl.
    assert (Hrlen : length (ss1 ++ ss2) = length (rows t)) by (rewrite <- Ess; apply row_streaks_length).
    rewrite Hseek0 in Hseek. rewrite E in Hv.
    destruct (Nat.eqb_spec (length ss1) (length (rows t))) as [Eq|Neq].
    { assert (ss2 = []) by (apply length_zero_iff_nil; rewrite app_length in Hrlen; lia).
      eapply seek_end; [rewrite <- E in Hv; exact Hv|exact Hl|exact Hseek|]. rewrite H, app_nil_r. exact L1. }
    destruct (Nat.eqb_spec (length ss1) (length (rows t1) + length row)) as [Eq'|Neq'].
    + (* past the row *)
      assert (Hrb : rb = []) by (apply length_zero_iff_nil; rewrite Er, app_length in Eq'; lia).
      subst rb. rewrite app_nil_r in Er. subst ra.
      assert (Hrow : row <> []).
      { rewrite Et in Hne. rewrite Forall_forall in Hne. apply (Hne (y, row)). apply in_or_app. right. now left. }
      destruct (exists_last Hrow) as (row' & e & Erow).
      assert (Ess1 : ss1 = (flat_map row_streaks t1 ++ map (fun e => mkStreak [y] (fst e) (snd e)) row') ++ [mkStreak [y] (fst e) (snd e)]).
      { unfold ss1. rewrite Erow, map_app. now rewrite app_assoc. }
      set (s1 := flat_map row_streaks t1 ++ map (fun e => mkStreak [y] (fst e) (snd e)) row') in *.
      assert (Hs1 : length s1 = (length (rows t1) + length row')%nat) by (unfold s1; rewrite app_length, map_length, row_streaks_length; auto).
      rewrite Ess1 in Hseek, Hl, L1. rewrite app_length in Hseek. cbn [length] in Hseek.
      rewrite Nat.add_comm in Hseek. cbn [Nat.add] in Hseek.
      eapply (seek_next 1); [rewrite <- E in Hv; exact Hv|exact Hl| |exact L1|exact L2].
      rewrite Hseek. do 2 f_equal. f_equal. rewrite E, Et, Hs1. symmetry.
      apply locate_2d; [now rewrite <- Et|]. rewrite Erow, app_length. cbn. lia.
    + destruct rb as [|e rb]; [exfalso; rewrite Er, app_length in Neq'; cbn in Neq'; lia|].
      eapply (seek_at 1); [rewrite <- E in Hv; exact Hv|unfold ss2 in Hl; exact Hl| |exact L1|exact L2].
      rewrite Hseek. do 2 f_equal. f_equal. rewrite E, Et, Hlen1. symmetry.
      apply locate_2d; [now rewrite <- Et|]. rewrite Er, app_length. cbn. lia.
  - (* no such row *)
    assert (Hseek : seek r [y; x] 0 (length (hd [] r)) =
      if (length t1 =? length t)%nat then Some None else Some (Some ([length t1; length (rows t1)], false))).
    { rewrite E, enc_2d, Et. cbn [hd]. cbn [seek].
      rewrite (Hlb t1 t2 y) by (first [assumption | intros e He; specialize (H2 e He); lia]).
      rewrite offs_length, map_length.
      change (list (Z * tree 0)) with (list (Z * vec)) in *. change (Z * tree 0)%type with (Z * vec)%type in *.
      destruct (Nat.eqb_spec (length t1) (length (t1 ++ t2))) as [|Hneq]; [reflexivity|].
      destruct t2 as [|[k row] t2]; [exfalso; apply Hneq; now rewrite app_nil_r|].
      assert (Hn : nth_error (offs 0 (map (@cl 0) (t1 ++ (k, row) :: t2))) (length t1) = Some (k, Z.of_nat (length (rows t1)))).
      { rewrite map_app, offs_app. rewrite nth_error_app2 by (rewrite offs_length, map_length; auto).
        rewrite offs_length, map_length, Nat.sub_diag. cbn [map offs]. cbn [cl fst snd nth_error].
        f_equal. f_equal. rewrite vsum_rows. lia. }
      change (list (Z * tree 0)) with (list (Z * vec)) in *. change (Z * tree 0)%type with (Z * vec)%type in *.
      rewrite Hn. cbn [obind fst snd]. specialize (H2 (k, row) (or_introl eq_refl)). cbn in H2.
      replace (k =? y) with false by lia. cbn [it_descend obind]. rewrite Nat2Z.id. reflexivity. }
    rewrite Et, flat_map_app in Hl.
    destruct t2 as [|[k row] t2].
    + eapply seek_end; [exact Hv|exact Hl| |].
      * rewrite Hseek, Et, app_nil_r. now rewrite Nat.eqb_refl.
      * rewrite app_nil_r. now apply Hlow.
    + assert (Hrow : row <> []).
      { rewrite Et in Hne. rewrite Forall_forall in Hne. apply (Hne (k, row)). apply in_or_app. right. now left. }
      destruct row as [|e row]; [congruence|].
      eapply (seek_at 1) with (s := mkStreak [k] (fst e) (snd e)) (ss2 := map (fun e => mkStreak [k] (fst e) (snd e)) row ++ flat_map row_streaks t2);
        [exact Hv|exact Hl| |now apply Hlow|].
      * rewrite Hseek, Et.
        assert (Hlt : (length t1 =? length (t1 ++ (k, e :: row) :: t2))%nat = false) by (rewrite app_length; cbn; lia).
        change (list (Z * tree 0)) with (list (Z * vec)) in *. change (Z * tree 0)%type with (Z * vec)%type in *.
        change (list (Z * Z)) with vec in *. rewrite Hlt.
        do 3 f_equal. rewrite E, Et, row_streaks_length. symmetry.
        pose proof (locate_2d t1 k (e :: row) t2 0) as HL. rewrite Nat.add_0_r in HL. apply HL; [now rewrite <- Et|cbn; lia].
      * intros s Hs. apply (Hhigh ((k, e :: row) :: t2)); auto.
Qed.
