(** Streak list of a valid Region: order, exactness; iteration theorems. *)
From Verif Require Import Base ListFacts RegionSpec RegionModel RegionTree RegionFlat RegionEnc RegionRep
  RegionIterModel RegionIter.
From Coq Require Import Sorted.

(** ** Order *)

Lemma coord_lt_irrefl a : ~ coord_lt a a.
Proof. induction a as [|x a IH]; cbn; [tauto|]. intros [H|[_ H]]; [lia|auto]. Qed.

Lemma coord_lt_trans a : forall b c, coord_lt a b -> coord_lt b c -> coord_lt a c.
Proof.
  induction a as [|x a IH]; intros [|y b] [|z c]; cbn; try tauto.
  intros [H1|[-> H1]] [H2|[-> H2]]; try (left; lia). right; split; auto. eauto.
Qed.

Lemma coord_lt_app p a b : coord_lt (p ++ a) (p ++ b) <-> coord_lt a b.
Proof.
  induction p as [|x p IH]; cbn; [tauto|]. rewrite IH. split; [intros [H|[_ H]]; [lia|auto]|auto].
Qed.

Lemma coord_lt_app_l a b : forall p q, coord_lt p q -> coord_lt (p ++ a) (q ++ b).
Proof.
  induction p as [|x p IH]; intros [|y q]; cbn; try tauto. intros [H|[-> H]]; [left; auto|right; auto].
Qed.

Lemma coord_lt_total a : forall b, length a = length b -> coord_lt a b \/ a = b \/ coord_lt b a.
Proof.
  induction a as [|x a IH]; intros [|y b] H; try discriminate; auto.
  injection H as H. cbn. destruct (Z.lt_total x y) as [H1|[->|H1]]; auto.
  destruct (IH b H) as [H2|[->|H2]]; auto.
Qed.

Lemma zrange_in a b x : In x (zrange a b) <-> a <= x < b.
Proof.
  unfold zrange. rewrite in_map_iff. split.
  - intros (i & <- & H). apply in_seq in H. lia.
  - intros H. exists (Z.to_nat (x - a)). split; [lia|]. apply in_seq. lia.
Qed.

Lemma zrange_nil a b : b <= a -> zrange a b = [].
Proof. intros. unfold zrange. replace (Z.to_nat (b - a)) with O by lia. reflexivity. Qed.

Lemma zrange_cons a b : a < b -> zrange a b = a :: zrange (a + 1) b.
Proof.
  intros. unfold zrange. replace (Z.to_nat (b - a)) with (S (Z.to_nat (b - (a + 1)))) by lia.
  cbn [seq map]. f_equal; [lia|]. rewrite <- seq_shift, map_map. apply map_ext. intros; lia.
Qed.

Lemma zrange_length a b : length (zrange a b) = Z.to_nat (b - a).
Proof. unfold zrange. now rewrite map_length, seq_length. Qed.

Lemma streak_coords_in s c : In c (streak_coords s) <-> in_streak s c.
Proof.
  unfold streak_coords, in_streak. rewrite in_map_iff. split.
  - intros (x & <- & H). apply zrange_in in H. eauto.
  - intros (x & -> & H). exists x. split; auto. now apply zrange_in.
Qed.

Lemma ss_map {A B} (f : A -> B) (R : A -> A -> Prop) (Q : B -> B -> Prop) l :
  (forall a b, R a b -> Q (f a) (f b)) -> StronglySorted R l -> StronglySorted Q (map f l).
Proof.
  intros H. induction l as [|a l IH]; cbn; [constructor|]. rewrite !ss_cons. intros [H1 H2].
  split; auto. intros y Hy. apply in_map_iff in Hy. destruct Hy as (z & <- & Hz). auto.
Qed.

Lemma ss_seq a n : StronglySorted lt (seq a n).
Proof.
  revert a. induction n as [|n IH]; intros a; cbn; [constructor|]. apply ss_cons. split; auto.
  intros y Hy. apply in_seq in Hy. lia.
Qed.

Lemma zrange_sorted a b : StronglySorted Z.lt (zrange a b).
Proof. unfold zrange. eapply ss_map; [|apply ss_seq]. intros; cbn; lia. Qed.

Lemma streak_coords_sorted s : StronglySorted coord_lt (streak_coords s).
Proof.
  unfold streak_coords. eapply ss_map; [|apply zrange_sorted]. intros; cbn.
  apply coord_lt_app. cbn. auto.
Qed.

Lemma ss_flat_map {A B} (f : A -> list B) (R : A -> A -> Prop) (Q : B -> B -> Prop) l :
  (forall a, In a l -> StronglySorted Q (f a)) ->
  (forall a b x y, In a l -> In b l -> R a b -> In x (f a) -> In y (f b) -> Q x y) ->
  StronglySorted R l -> StronglySorted Q (flat_map f l).
Proof.
  induction l as [|a l IH]; intros H1 H2; cbn; [constructor|].
  rewrite ss_cons, ss_app. intros [H3 H4]. refine (conj _ (conj _ _)).
  - apply H1; left; auto.
  - apply IH; auto.
    + intros; apply H1; right; auto.
    + intros a' b' x y Ha Hb; apply H2; right; auto.
  - intros x y Hx Hy. apply in_flat_map in Hy. destruct Hy as (b & Hb & Hy).
    apply (H2 a b); auto; [left; auto|right; auto].
Qed.

Lemma coords_sorted d l : streaks_ok d l -> StronglySorted coord_lt (flat_map streak_coords l).
Proof.
  intros [Hs Hf]. eapply ss_flat_map; [|  |exact Hs].
  - intros; apply streak_coords_sorted.
  - intros a b x y _ _ Hab Hx Hy. apply streak_coords_in in Hx. apply streak_coords_in in Hy.
    destruct Hx as (i & -> & Hi), Hy as (j & -> & Hj). destruct Hab as [H|[-> H]].
    + now apply coord_lt_app_l.
    + apply coord_lt_app. cbn. lia.
Qed.

Lemma tstr_ok d : forall (t : tree d) pre, twf d t -> streaks_ok (length pre + d) (tstr d t pre).
Proof.
  induction d as [|d IH]; intros t pre Hw.
  - destruct Hw as [Hs Hf]. cbn. split.
    + eapply ss_map; [|exact Hs]. intros a b Hab. right. cbn. auto.
    + apply Forall_forall. intros s Hin. apply in_map_iff in Hin. destruct Hin as (e & <- & He).
      cbn. rewrite Forall_forall in Hf. split; [lia|]. auto.
  - cbn [twf] in Hw. destruct Hw as [Hs Hf]. cbn [tstr]. cbn [tree] in t. split.
    + eapply ss_flat_map; [| |exact Hs].
      * intros p Hp. rewrite Forall_forall in Hf. apply Hf in Hp. apply (IH (snd p) (pre ++ [fst p])). tauto.
      * intros a b x y Ha Hb Hab Hx Hy. left. rewrite tstr_pre in Hx, Hy.
        apply in_map_iff in Hx. apply in_map_iff in Hy. destruct Hx as (x' & <- & _), Hy as (y' & <- & _).
        cbn. rewrite <- !app_assoc. apply coord_lt_app. cbn. left; auto.
    + apply Forall_forall. intros s Hin. apply in_flat_map in Hin. destruct Hin as (p & Hp & Hin).
      rewrite Forall_forall in Hf. apply Hf in Hp. destruct (IH (snd p) (pre ++ [fst p])) as [_ H]; [tauto|].
      rewrite Forall_forall in H. apply H in Hin. rewrite app_length in Hin. cbn in Hin. split; [lia|tauto].
Qed.

(** ** Streak iteration *)

Lemma zadd_zero a : forall n, (length a <= n)%nat -> zadd a (repeat 0 n) = a.
Proof.
  induction a as [|x a IH]; intros n Hn; [destruct n; auto|]. destruct n; cbn in *; [lia|].
  rewrite IH by lia. f_equal; lia.
Qed.

Lemma zero_off_repeat r : zero_off r = repeat 0 (length r).
Proof. unfold zero_off. induction r; cbn; congruence. Qed.

Lemma last_repeat0 n : last (repeat 0 n) 0 = 0.
Proof. induction n as [|[|n] IH]; cbn; auto. Qed.

Lemma s_shift_zero n s : (length (s_pre s) <= n)%nat -> s_shift (repeat 0 n) 0 s = s.
Proof.
  intros H. unfold s_shift. rewrite last_repeat0, zadd_zero by auto. destruct s; cbn. f_equal; lia.
Qed.

Lemma valid_length d r : rvalid d r -> length r = S d.
Proof. intros (t & _ & ->). rewrite enc_length. apply lvl_length. Qed.

Lemma map_id_in {A} (f : A -> A) l : (forall x, In x l -> f x = x) -> map f l = l.
Proof. intros H. rewrite <- (map_id l) at 2. apply map_ext_in. auto. Qed.

(** The central fact: what the streak walk of a valid Region yields. *)
Lemma streaks_valid d r : rvalid d r ->
  exists l, streaks_ok d l /\ (forall c, length c = S d -> (rin r c <-> in_streaks l c)) /\
    reg_streaks r = Some l /\
    (forall off al, length off = S d -> reg_streaks_off r off al = Some (map (s_shift off al) l)) /\
    map s_pair l = last r [].
Proof.
  intros Hr. pose proof (valid_length d r Hr) as Hlen. destruct Hr as (t & Hw & ->).
  exists (tstr d t []). pose proof (tstr_ok d t [] Hw) as Hok. cbn [length Nat.add] in Hok.
  split; [exact Hok|].
  assert (Hoff : forall off al, length off = S d ->
     reg_streaks_off (enc (lvl d t)) off al = Some (map (s_shift off al) (tstr d t []))).
  { intros. now apply streaks_tree. }
  split; [|split; [|split; auto]].
  - intros c Hc. destruct (coord_split c d Hc) as (p & x & -> & Hp). rewrite rin_tree by auto.
    pose proof (tstr_mem d t [] (p ++ [x])) as Ht. cbn [app] in Ht.
    unfold in_streaks. rewrite Ht. split.
    + eauto.
    + intros (p' & x' & E & Hm). apply app_inj_tail in E. destruct E as [-> ->]. auto.
  - unfold reg_streaks. rewrite Hoff, zero_off_repeat, Hlen by (rewrite zero_off_repeat, repeat_length; auto).
    f_equal. apply map_id_in. intros s Hs. apply s_shift_zero. destruct Hok as [_ Hf].
    rewrite Forall_forall in Hf. apply Hf in Hs. lia.
  - now rewrite enc_last, (last_lvl d t []).
Qed.

Lemma in_streaks_empty d r l : rvalid d r -> map s_pair l = last r [] -> (reg_is_empty r = true <-> l = []).
Proof.
  intros _ H. unfold reg_is_empty. rewrite <- H. destruct l; cbn; split; auto; discriminate.
Qed.

(** ** Direct access to the i-th streak *)

Lemma reg_at_valid d r l i s : rvalid d r -> reg_streaks r = Some l -> nth_error l i = Some s ->
  exists it, reg_at r i = Some it /\ it_streak it = s /\
    it_run (length l - i) r (zero_off r) 0 it (it_end r) = Some (skipn i l).
Proof.
  intros Hr Hl Hi.
  assert (Hne : r <> []) by (apply length_nonnil with d; now apply valid_length).
  assert (Hrun := fun t Hw E => run_all r (zero_off r) 0 (eq_rect _ widx (widx_tree d t Hw) _ (eq_sym E)) Hne).
  destruct Hr as (t & Hw & E). specialize (Hrun t Hw E).
  assert (Hwi : widx r) by (rewrite E; now apply widx_tree).
  assert (Hzl : length (zero_off r) = length r) by (rewrite zero_off_repeat, repeat_length; auto).
  assert (Hlr : length r = S d) by (rewrite E, enc_length, lvl_length; auto).
  destruct Hrun as (l' & Hl' & Hlen & Hnth); auto.
  { intros k Hk. rewrite E in Hk |- *. rewrite enc_last, (last_lvl d t []), map_length in Hk.
    destruct (nth_error (tstr d t []) k) as [s0|] eqn:E0; [|apply nth_error_None in E0; lia].
    rewrite (strk_tree d t _ 0 k s0); auto; [congruence|]. rewrite <- E, Hzl; auto. }
  unfold reg_streaks in Hl. rewrite Hl in Hl'. injection Hl' as <-.
  assert (Hik : (i < length l)%nat) by (apply nth_error_Some; congruence).
  assert (Hs : strk r (zero_off r) 0 i = Some s) by (rewrite Hnth by lia; exact Hi).
  assert (Hat : reg_at r i = Some (mkIter (it_locate r i) s)).
  { unfold reg_at. destruct (Nat.eqb_spec i 0) as [->|Hi0].
    - unfold it_begin. assert (reg_is_empty r = false) as ->.
      { unfold reg_is_empty. destruct (last r []); auto. cbn in Hlen. lia. }
      destruct (locate_zero r Hwi) as [Ez _]; [destruct (last r []); [cbn in Hlen; lia|congruence]|].
      unfold strk in Hs. rewrite Ez in Hs |- *. rewrite Hs. reflexivity.
    - unfold reg_num_streaks. replace (length (last r []) <=? i)%nat with false by lia.
      unfold strk in Hs. rewrite Hs. reflexivity. }
  exists (mkIter (it_locate r i) s). split; auto. split; auto.
  destruct (run_from r (zero_off r) 0 Hwi Hne Hzl (length l - i) i s) as (l2 & H2 & Hlen2 & Hn2); auto; [lia|lia|].
  rewrite H2. f_equal. apply nth_error_ext; [rewrite skipn_length; lia|].
  intros j Hj. rewrite <- Hn2 by lia. rewrite Hnth by lia.
  rewrite <- (firstn_skipn i l) at 1. rewrite nth_error_app2 by (rewrite firstn_length; lia).
  f_equal. rewrite firstn_length. lia.
Qed.

Lemma reg_at_end d r i l : rvalid d r -> reg_streaks r = Some l -> (length l <= i)%nat ->
  (exists it, reg_at r i = Some it /\ it_eqb it (it_end r) = true).
Proof.
  intros Hr Hl Hi. destruct (streaks_valid d r Hr) as (l' & Hok & _ & Hl' & _ & Hp).
  rewrite Hl in Hl'. injection Hl' as <-. unfold reg_at. destruct (Nat.eqb_spec i 0) as [->|Hi0].
  - unfold it_begin. destruct l; [|cbn in Hi; lia]. unfold reg_is_empty. rewrite <- Hp. cbn [map].
    eexists; split; auto. unfold reg_streaks, reg_streaks_off, it_begin, reg_is_empty in Hl.
    rewrite <- Hp in Hl. cbn [map length it_run] in Hl.
    destruct (it_eqb _ _); auto. discriminate.
  - unfold reg_num_streaks. rewrite <- Hp, map_length. replace (length l <=? i)%nat with true by lia.
    eexists; split; auto. apply it_eqb_spec. reflexivity.
Qed.

(** ** Coordinate iteration *)

Lemma ci_run_mono fuel : forall r a fin l, ci_run fuel r a fin = Some l ->
  forall fuel', (fuel <= fuel')%nat -> ci_run fuel' r a fin = Some l.
Proof.
  induction fuel as [|f IH]; intros r a fin l H fuel' Hf.
  - cbn in H. destruct fuel'; cbn; destruct (ci_eqb r a fin); auto; discriminate.
  - destruct fuel'; [lia|]. cbn in H |- *. destruct (ci_eqb r a fin); auto.
    destruct (ci_next r a) as [a'|]; [|discriminate].
    destruct (ci_run f r a' fin) as [l'|] eqn:E; [|discriminate].
    rewrite (IH _ _ _ _ E) by lia. exact H.
Qed.

Lemma ci_run_streak r it fin l' n :
  it_eqb it (ci_streak fin) = false ->
  s_x (it_streak it) < s_e (it_streak it) ->
  (exists it', it_next r (zero_off r) 0 it = Some it' /\ ci_run n r (ci_make it') fin = Some l') ->
  forall k x, x + Z.of_nat (S k) = s_e (it_streak it) ->
  ci_run (S k + n) r (mkCIter it (s_pre (it_streak it) ++ [x])) fin =
    Some (map (fun x => s_pre (it_streak it) ++ [x]) (zrange x (s_e (it_streak it))) ++ l').
Proof.
  intros Hne Hx (it' & Hn & Hr). induction k as [|k IH]; intros x Hk.
  - cbn [Nat.add ci_run]. unfold ci_eqb. cbn [ci_streak]. rewrite Hne. cbn [andb].
    unfold ci_next. cbn [ci_streak ci_cursor]. rewrite removelast_last, !last_last.
    replace (s_e (it_streak it) <=? x + 1) with true by lia. rewrite Hn, Hr.
    rewrite zrange_cons by lia. rewrite zrange_nil by lia. reflexivity.
  - change (S (S k) + n)%nat with (S (S k + n)). cbn [ci_run]. unfold ci_eqb. cbn [ci_streak].
    rewrite Hne. cbn [andb].
    unfold ci_next. cbn [ci_streak ci_cursor]. rewrite removelast_last, !last_last.
    replace (s_e (it_streak it) <=? x + 1) with false by lia.
    rewrite IH by lia. rewrite (zrange_cons x) by lia. reflexivity.
Qed.

Lemma coords_of_run r : forall m it l, it_run m r (zero_off r) 0 it (it_end r) = Some l ->
  Forall (fun s => s_x s < s_e s) l ->
  ci_run (length (flat_map streak_coords l)) r (ci_make it) (ci_make (it_end r)) =
    Some (flat_map streak_coords l).
Proof.
  induction m as [|m IH]; intros it l H Hf; cbn [it_run] in H.
  - destruct (it_eqb it (it_end r)) eqn:E; [|discriminate]. injection H as <-. cbn.
    unfold ci_eqb. cbn. rewrite E. cbn. unfold it_end_reached.
    apply it_eqb_spec in E. rewrite E. cbn [it_pos it_end].
    assert ((last (map (length (A:=Z * Z)) r) 0 =? length (last r []))%nat = true) as ->; auto.
    destruct r; [reflexivity|]. rewrite last_map_length by congruence. apply Nat.eqb_refl.
  - destruct (it_eqb it (it_end r)) eqn:E.
    + injection H as <-. cbn. unfold ci_eqb. cbn. rewrite E. cbn. unfold it_end_reached.
      apply it_eqb_spec in E. rewrite E. cbn [it_pos it_end].
      assert ((last (map (length (A:=Z * Z)) r) 0 =? length (last r []))%nat = true) as ->; auto.
      destruct r; [reflexivity|]. rewrite last_map_length by congruence. apply Nat.eqb_refl.
    + destruct (it_next r (zero_off r) 0 it) as [it'|] eqn:En; [|discriminate].
      destruct (it_run m r (zero_off r) 0 it' (it_end r)) as [l'|] eqn:Er; [|discriminate].
      injection H as <-. apply Forall_cons_iff' in Hf. destruct Hf as [Hx Hf].
      cbn [flat_map]. rewrite app_length. unfold streak_coords at 1. rewrite map_length, zrange_length.
      unfold ci_make at 1, s_origin.
      destruct (Z.to_nat (s_e (it_streak it) - s_x (it_streak it))) as [|k] eqn:Ek; [lia|].
      rewrite ci_run_streak with (l' := flat_map streak_coords l'); auto; try lia.
      exists it'. split; auto.
Qed.

Lemma coords_valid d r l fuel : rvalid d r -> reg_streaks r = Some l ->
  (length (flat_map streak_coords l) <= fuel)%nat ->
  reg_coords fuel r = Some (flat_map streak_coords l).
Proof.
  intros Hr Hl Hf. destruct (streaks_valid d r Hr) as (l' & Hok & _ & Hl' & _).
  rewrite Hl in Hl'. injection Hl' as <-.
  unfold reg_coords. unfold reg_streaks, reg_streaks_off in Hl.
  destruct (it_begin r (zero_off r) 0) as [b|]; [|discriminate].
  apply coords_of_run in Hl.
  - eapply ci_run_mono; eauto.
  - destruct Hok as [_ H]. eapply Forall_impl; [|exact H]. cbn; tauto.
Qed.
