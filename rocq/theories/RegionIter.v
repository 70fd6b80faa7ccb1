(** Iteration: the streak iterator visits exactly the streaks of the tree in
    order. *)
From Verif Require Import Base ListFacts RegionModel RegionTree RegionFlat RegionEnc RegionRep RegionIterModel.
From Coq Require Import Sorted.

(** ** Well-formed offset vectors *)

Definition olt (a b : Z * Z) : Prop := snd a < snd b.

Fixpoint widx (r : indices) : Prop :=
  match r with
  | v :: ((w :: _) as rest) =>
      (StronglySorted olt v /\ (forall e, hd_error v = Some e -> snd e = 0)) /\
      (forall e, In e v -> 0 <= snd e < Z.of_nat (length w)) /\
      (w <> [] -> v <> []) /\ widx rest
  | _ => True
  end.

Definition cnt (v : vec) (h : nat) : nat := count_while (fun e => (snd e <=? Z.of_nat h)%Z) v.

Lemma cnt_split (v : vec) h : StronglySorted olt v ->
  exists v1 v2, v = v1 ++ v2 /\ cnt v h = length v1 /\
    (forall e, In e v1 -> snd e <= Z.of_nat h) /\ (forall e, In e v2 -> Z.of_nat h < snd e).
Proof.
  induction v as [|a v IH]; intros H.
  - exists [], []. repeat split; auto; intros ? [].
  - apply ss_cons in H. destruct H as [H1 H2]. unfold cnt. cbn.
    destruct (Z.leb_spec (snd a) (Z.of_nat h)).
    + destruct (IH H1) as (v1 & v2 & -> & Hc & Ha & Hb). exists (a :: v1), v2.
      repeat split; auto; [cbn; f_equal; exact Hc|]. intros e [<-|He]; auto.
    + exists [], (a :: v). repeat split; auto; [intros ? []|].
      intros e [<-|He]; auto. specialize (H2 e He). unfold olt in H2. lia.
Qed.

Lemma cnt_pos v h : StronglySorted olt v -> v <> [] -> (forall e, hd_error v = Some e -> snd e = 0) ->
  (1 <= cnt v h <= length v)%nat.
Proof.
  intros Hs Hn H0. destruct (cnt_split v h Hs) as (v1 & v2 & -> & -> & Ha & Hb).
  rewrite app_length. split; [|lia]. destruct v1; cbn; [|lia].
  destruct v2 as [|e v2]; [now destruct Hn|]. specialize (H0 e eq_refl). specialize (Hb e (or_introl eq_refl)). lia.
Qed.

Lemma cnt_step v h : StronglySorted olt v -> v <> [] -> (forall e, hd_error v = Some e -> snd e = 0) ->
  match nth_error v (cnt v h) with
  | None => cnt v h = length v /\ cnt v (S h) = cnt v h
  | Some e => (cnt v h < length v)%nat /\
      (snd e = Z.of_nat (S h) -> cnt v (S h) = S (cnt v h)) /\
      (snd e <> Z.of_nat (S h) -> cnt v (S h) = cnt v h)
  end.
Proof.
  intros Hs Hn H0. destruct (cnt_split v h Hs) as (v1 & v2 & E & Hc & Ha & Hb).
  rewrite Hc. assert (nth_error v (length v1) = hd_error v2) as -> by (rewrite E; apply nth_error_app_exact; auto).
  assert (Hcnt : forall w1 w2, v = w1 ++ w2 -> (forall e, In e w1 -> snd e <= Z.of_nat (S h)) ->
            (forall e, In e w2 -> Z.of_nat (S h) < snd e) -> cnt v (S h) = length w1).
  { intros w1 w2 -> H1 H2. apply count_while_app; intros e He; [apply H1 in He|apply H2 in He]; lia. }
  destruct v2 as [|e v2]; cbn [hd_error].
  - rewrite app_nil_r in E. subst v1. split; auto. apply (Hcnt v []); [now rewrite app_nil_r| |intros ? []].
    intros e He. apply Ha in He. lia.
  - assert (Hs2 : forall e', In e' v2 -> snd e < snd e').
    { rewrite E in Hs. apply ss_app in Hs. destruct Hs as (_ & Hs & _). apply ss_cons in Hs. apply Hs. }
    pose proof (Hb e (or_introl eq_refl)) as He.
    split; [rewrite E, app_length; cbn; lia|]. split; intros Heq.
    + rewrite (Hcnt (v1 ++ [e]) v2); [rewrite app_length; cbn; lia|now rewrite <- app_assoc| |].
      * intros e' He'. apply in_app_iff in He'. destruct He' as [He'|[<-|[]]]; [apply Ha in He'|]; lia.
      * intros e' He'. apply Hs2 in He'. lia.
    + apply (Hcnt v1 (e :: v2)); auto.
      * intros e' He'. apply Ha in He'. lia.
      * intros e' [<-|He']; [lia|]. apply Hs2 in He'. lia.
Qed.

(** ** Positions *)

Lemma it_locate_S v w rest p0 :
  it_locate (v :: w :: rest) p0 =
  (cnt v (hd O (it_locate (w :: rest) p0)) - 1)%nat :: it_locate (w :: rest) p0.
Proof. reflexivity. Qed.

Lemma widx_S v w rest : widx (v :: w :: rest) <->
      (StronglySorted olt v /\ (forall e, hd_error v = Some e -> snd e = 0)) /\
      (forall e, In e v -> 0 <= snd e < Z.of_nat (length w)) /\
      (w <> [] -> v <> []) /\ widx (w :: rest).
Proof. reflexivity. Qed.

Lemma locate_hd r p0 : widx r -> (p0 < length (last r []))%nat ->
  (hd O (it_locate r p0) < length (hd [] r))%nat.
Proof.
  induction r as [|v r IH]; intros Hw Hp; [cbn in Hp; lia|].
  destruct r as [|w r]; [exact Hp|].
  rewrite it_locate_S. cbn [hd]. apply widx_S in Hw. destruct Hw as ((Hs & H0) & Hb & Hne & Hw).
  rewrite last_cons in Hp by congruence.
  specialize (IH Hw Hp). cbn [hd] in IH.
  assert (v <> []) by (apply Hne; intros ->; cbn in IH; lia).
  pose proof (cnt_pos v (hd O (it_locate (w :: r) p0)) Hs H H0). lia.
Qed.

Lemma locate_last r p0 : r <> [] -> last (it_locate r p0) O = p0.
Proof.
  induction r as [|v r IH]; intros H; [congruence|].
  destruct r as [|w r]; auto. rewrite it_locate_S, last_cons; [apply IH; congruence|].
  destruct r; cbn; congruence.
Qed.

Lemma it_keys_S v w rest p ps o off al :
  it_keys (v :: w :: rest) (p :: ps) (o :: off) al =
  match nth_error v p, it_keys (w :: rest) ps off al with
  | Some e, Some (pre, xe) => Some ((fst e + o) :: pre, xe)
  | _, _ => None
  end.
Proof. destruct ps; reflexivity. Qed.

Lemma it_up_S v w rest p ps c pre o off :
  it_up (v :: w :: rest) (p :: ps) (c :: pre) (o :: off) =
          match it_up (w :: rest) ps pre off with
          | Some (ps', pre'', true) =>
              if (S p =? length v)%nat then Some (p :: ps', c :: pre'', false)
              else match nth_error v (S p) with
                   | Some e =>
                       if Z.of_nat (hd O ps') =? snd e
                       then Some (S p :: ps', (fst e + o) :: pre'', true)
                       else Some (p :: ps', c :: pre'', false)
                   | None => None
                   end
          | Some (ps', pre'', false) => Some (p :: ps', c :: pre'', false)
          | None => None
          end.
Proof. destruct ps; reflexivity. Qed.

Lemma it_up_locate r : forall p0 off al pre xe,
  widx r -> (S p0 < length (last r []))%nat -> length off = length r ->
  it_keys r (it_locate r p0) off al = Some (pre, xe) ->
  exists pre' cont,
    it_up r (it_locate r p0) pre off = Some (it_locate r (S p0), pre', cont) /\
    (exists xe', it_keys r (it_locate r (S p0)) off al = Some (pre', xe')) /\
    hd O (it_locate r (S p0)) = (hd O (it_locate r p0) + if cont then 1 else 0)%nat.
Proof.
  induction r as [|v r IH]; intros p0 off al pre xe Hw Hp Hoff Hk; [cbn in Hp; lia|].
  destruct r as [|w r].
  - destruct off as [|o [|]]; try discriminate. cbn in Hk, Hp. cbn [it_up it_locate it_keys hd].
    exists [], true. split; auto. split; [|lia].
    destruct (nth_error v (S p0)) eqn:E; [eexists; reflexivity|].
    apply nth_error_None in E. lia.
  - apply widx_S in Hw. destruct Hw as ((Hs & H0) & Hb & Hne & Hw).
    rewrite last_cons in Hp by congruence.
    destruct off as [|o off]; [discriminate|]. injection Hoff as Hoff.
    rewrite !it_locate_S in *. rewrite it_keys_S in Hk.
    set (ps := it_locate (w :: r) p0) in *. set (ps' := it_locate (w :: r) (S p0)) in *.
    destruct (nth_error v (cnt v (hd O ps) - 1)) as [e0|] eqn:E0; [|discriminate].
    destruct (it_keys (w :: r) ps off al) as [[pre0 xe0]|] eqn:Ek; [|discriminate].
    injection Hk as <- <-.
    destruct (IH p0 off al pre0 xe0 Hw Hp) as (pre' & cont & Hup & (xe' & Hk') & Hhd); auto.
    fold ps in Hup. fold ps' in Hup. fold ps ps' in Hhd. fold ps' in Hk'.
    rewrite it_up_S, Hup.
    assert (Hv : v <> []).
    { intros ->. cbn in E0. destruct (cnt [] (hd O ps) - 1)%nat; discriminate. }
    pose proof (cnt_step v (hd O ps) Hs Hv H0) as Hstep.
    pose proof (cnt_pos v (hd O ps) Hs Hv H0) as Hpos.
    replace (S (cnt v (hd O ps) - 1)) with (cnt v (hd O ps)) by lia.
    destruct cont.
    + replace (hd O ps') with (S (hd O ps)) in * by lia.
      destruct (Nat.eqb_spec (cnt v (hd O ps)) (length v)) as [El|El].
      * assert (En : nth_error v (cnt v (hd O ps)) = None) by (apply nth_error_None; lia).
        rewrite En in Hstep. destruct Hstep as [_ Hstep].
        exists (fst e0 + o :: pre'), false. rewrite Hstep. split; auto.
        split; [|cbn [hd]; lia]. exists xe'. rewrite it_keys_S, E0, Hk'. reflexivity.
      * destruct (nth_error v (cnt v (hd O ps))) as [e|] eqn:En; [|destruct Hstep; lia].
        destruct Hstep as (Hlt & Hst1 & Hst2).
        destruct (Z.eqb_spec (Z.of_nat (S (hd O ps))) (snd e)) as [Ee|Ee].
        -- rewrite Hst1 by auto. exists (fst e + o :: pre'), true.
           replace (S (cnt v (hd O ps)) - 1)%nat with (cnt v (hd O ps)) by lia.
           split; [reflexivity|]. split; [|cbn [hd]; lia].
           exists xe'. rewrite it_keys_S, En, Hk'. reflexivity.
        -- rewrite Hst2 by auto. exists (fst e0 + o :: pre'), false. split; auto.
           split; [|cbn [hd]; lia]. exists xe'. rewrite it_keys_S, E0, Hk'. reflexivity.
    + rewrite Nat.add_0_r in Hhd. rewrite Hhd.
      exists (fst e0 + o :: pre'), false. split; auto.
      split; [|cbn [hd]; lia]. exists xe'. rewrite it_keys_S, E0, Hk'. reflexivity.
Qed.


Lemma it_keys_shape r pos off al res : it_keys r pos off al = Some res ->
  length pos = length r /\ length off = length r /\ r <> [].
Proof.
  revert pos off res. induction r as [|v r IH]; intros pos off res H; [discriminate|].
  destruct pos as [|p pos]; [destruct r; discriminate|].
  destruct off as [|o off]; [destruct r, pos; discriminate|].
  destruct r as [|w r].
  - destruct pos, off; cbn in H; destruct (nth_error v p); try discriminate. repeat split; auto; congruence.
  - rewrite it_keys_S in H. destruct (nth_error v p); [|discriminate].
    destruct (it_keys (w :: r) pos off al) as [[pre0 xe0]|] eqn:E; [|discriminate].
    apply IH in E. destruct E as (E1 & E2 & _). cbn [length] in *. repeat split; congruence.
Qed.

Lemma it_keys_xe r pos off al pre xe : it_keys r pos off al = Some (pre, xe) ->
  exists e, nth_error (last r []) (last pos O) = Some e /\ xe = (fst e + last off 0, snd e + last off 0 + al).
Proof.
  revert pos off pre xe. induction r as [|v r IH]; intros pos off pre xe H; [discriminate|].
  destruct pos as [|p pos]; [destruct r; discriminate|].
  destruct off as [|o off]; [destruct r, pos; discriminate|].
  destruct r as [|w r].
  - destruct pos, off; cbn in H |- *; destruct (nth_error v p); try discriminate.
    injection H as <- <-. eauto.
  - rewrite it_keys_S in H. destruct (nth_error v p); [|discriminate].
    destruct (it_keys (w :: r) pos off al) as [[pre0 xe0]|] eqn:E; [|discriminate].
    injection H as <- <-. pose proof (it_keys_shape _ _ _ _ _ E) as (Hl1 & Hl2 & _). cbn in Hl1, Hl2.
    apply IH in E.
    rewrite (last_cons v) by discriminate.
    rewrite (last_cons p) by (intros ->; discriminate). rewrite (last_cons o) by (intros ->; discriminate). exact E.
Qed.

(** One step of the iterator from position [p0]. *)
Lemma it_next_locate r p0 off al s :
  widx r -> r <> [] -> (S p0 < length (last r []))%nat -> length off = length r ->
  it_construct r (it_locate r p0) off al = Some s ->
  exists s', it_construct r (it_locate r (S p0)) off al = Some s' /\
    it_next r off al (mkIter (it_locate r p0) s) = Some (mkIter (it_locate r (S p0)) s').
Proof.
  intros Hw Hr Hp Hoff Hc. unfold it_construct in Hc.
  destruct (it_keys r (it_locate r p0) off al) as [[pre [x e]]|] eqn:Ek; [|discriminate].
  injection Hc as <-.
  destruct (it_up_locate r p0 off al pre (x, e) Hw Hp Hoff Ek) as (pre' & cont & Hup & (xe' & Hk') & _).
  unfold it_construct. rewrite Hk'. destruct xe' as [x' e'].
  exists (mkStreak pre' x' e'). split; auto.
  unfold it_next. cbn [it_pos it_streak s_pre]. rewrite locate_last by auto.
  replace (S p0 =? length (last r []))%nat with false by lia.
  apply it_keys_xe in Hk'. rewrite locate_last in Hk' by auto.
  destruct Hk' as (en & -> & Hxe). rewrite Hup. injection Hxe as -> ->. reflexivity.
Qed.

(** ** Running from position [k] *)

Definition strk (r : indices) (off : list Z) (al : Z) (k : nat) : option streak :=
  it_construct r (it_locate r k) off al.

Lemma it_eqb_spec a b : it_eqb a b = true <-> it_pos a = it_pos b.
Proof. unfold it_eqb. apply list_eqb_spec. apply Nat.eqb_eq. Qed.

Lemma last_map_length (r : indices) : r <> [] -> last (map (@length _) r) O = length (last r []).
Proof.
  induction r as [|v r IH]; [congruence|]. intros _. destruct r as [|w r]; auto.
  rewrite last_cons by congruence. cbn [map]. rewrite last_cons by (cbn; congruence). apply IH. congruence.
Qed.

Lemma run_from r off al : widx r -> r <> [] -> length off = length r ->
  forall m k s, (k + m = length (last r []))%nat -> (0 < m)%nat -> strk r off al k = Some s ->
  exists l, it_run m r off al (mkIter (it_locate r k) s) (it_end r) = Some l /\
    length l = m /\ (forall i, (i < m)%nat -> strk r off al (k + i) = nth_error l i).
Proof.
  intros Hw Hr Hoff. induction m as [|m IH]; intros k s Hkm Hm Hs; [lia|].
  cbn [it_run].
  destruct (it_eqb (mkIter (it_locate r k) s) (it_end r)) eqn:E.
  { exfalso. apply it_eqb_spec in E. cbn [it_pos it_end] in E.
    apply (f_equal (fun l => last l O)) in E. rewrite locate_last in E by auto.
    rewrite last_map_length in E by auto. lia. }
  destruct m as [|m].
  - unfold it_next. cbn [it_pos it_streak]. rewrite locate_last by auto.
    replace (S k =? length (last r []))%nat with true by lia.
    cbn [it_run]. assert (it_eqb (mkIter (map (@length _) r) s) (it_end r) = true) as ->
        by (apply it_eqb_spec; reflexivity).
    exists [s]. split; auto. split; auto. intros i Hi. replace i with O by lia.
    rewrite Nat.add_0_r. exact Hs.
  - destruct (it_next_locate r k off al s Hw Hr) as (s' & Hs' & Hn); auto; [lia|].
    rewrite Hn. destruct (IH (S k) s') as (l & Hl & Hlen & Hnth); auto; [lia|lia|].
    rewrite Hl. exists (s :: l). split; auto. split; [cbn; lia|].
    intros [|i] Hi.
    + rewrite Nat.add_0_r. exact Hs.
    + replace (k + S i)%nat with (S k + i)%nat by lia. cbn. apply Hnth. lia.
Qed.

Lemma locate_zero r : widx r -> last r [] <> [] -> it_locate r 0 = map (fun _ => O) r /\ hd [] r <> [].
Proof.
  induction r as [|v r IH]; intros Hw Hn; [now destruct Hn|].
  destruct r as [|w r]; [split; auto|].
  apply widx_S in Hw. destruct Hw as ((Hs & H0) & Hb & Hne & Hw).
  rewrite last_cons in Hn by congruence. destruct (IH Hw Hn) as [E Hh]. cbn [hd] in Hh.
  specialize (Hne Hh). split; auto.
  rewrite it_locate_S, E. cbn [map hd]. f_equal.
  destruct (cnt_split v 0 Hs) as (v1 & v2 & Ev & Hc & Ha & Hb2).
  assert (length v1 <= 1)%nat.
  { destruct v1 as [|e1 [|e2 v1]]; cbn; try lia. exfalso.
    rewrite Ev in Hs. cbn in Hs. apply ss_cons in Hs. destruct Hs as [_ Hs].
    specialize (Hs e2 (or_introl eq_refl)). unfold olt in Hs.
    rewrite Ev in H0. specialize (H0 e1 eq_refl). specialize (Ha e2 (or_intror (or_introl eq_refl))). lia. }
  lia.
Qed.

Lemma run_all r off al : widx r -> r <> [] -> length off = length r ->
  (forall k, (k < length (last r []))%nat -> strk r off al k <> None) ->
  exists l, reg_streaks_off r off al = Some l /\ length l = length (last r []) /\
    forall i, (i < length (last r []))%nat -> strk r off al i = nth_error l i.
Proof.
  intros Hw Hr Hoff Hdef. unfold reg_streaks_off, it_begin, reg_is_empty.
  destruct (last r []) as [|e l0] eqn:El.
  - exists []. cbn [length it_run]. split; [|split; [auto|intros; lia]].
    assert (it_eqb (mkIter (map (fun _ => O) r) (streak_default r)) (it_end r) = true -> True) by auto.
    assert (Hall : forall r, widx r -> last r [] = [] -> map (@length (Z * Z)) r = map (fun _ => O) r).
    { clear. induction r as [|v r IH]; auto. intros Hw Hl. destruct r as [|w r].
      - cbn in *. subst; auto.
      - apply widx_S in Hw. destruct Hw as (_ & Hb & _ & Hw). rewrite last_cons in Hl by congruence.
        cbn [map]. specialize (IH Hw Hl). cbn [map] in IH. rewrite IH. f_equal.
        destruct v as [|e v]; auto. exfalso. specialize (Hb e (or_introl eq_refl)).
        injection IH as E _. rewrite E in Hb. lia. }
    unfold it_eqb. cbn [it_pos it_end]. rewrite (Hall r Hw El).
    replace (list_eqb Nat.eqb _ _) with true; auto. symmetry. apply list_eqb_spec; auto. apply Nat.eqb_eq.
  - destruct (locate_zero r Hw) as [Ez _]; [rewrite El; congruence|].
    specialize (Hdef O). rewrite <- Ez.
    destruct (it_construct r (it_locate r 0) off al) as [s|] eqn:Es.
    2:{ exfalso. apply Hdef; [cbn; lia|]. exact Es. }
    pose proof (run_from r off al Hw Hr Hoff (length (last r [])) 0 s) as H.
    rewrite El in H. apply H; auto. cbn; lia.
Qed.

(** ** Decoding positions of encoded trees *)

Lemma tstr_pre d : forall (t : tree d) pre,
  tstr d t pre = map (fun s => mkStreak (pre ++ s_pre s) (s_x s) (s_e s)) (tstr d t []).
Proof.
  induction d as [|d IH]; intros t pre.
  - cbn. rewrite map_map. apply map_ext. intros e. cbn. now rewrite app_nil_r.
  - cbn [tstr]. cbn [tree] in t. induction t as [|p t IHt]; auto. cbn [flat_map].
    rewrite map_app. f_equal; auto. rewrite IH, (IH (snd p) ([] ++ [fst p])), map_map.
    apply map_ext. intros s. cbn. now rewrite <- app_assoc.
Qed.

Lemma nth_error_flat_map {A B} (f : A -> list B) l : forall k s,
  nth_error (flat_map f l) k = Some s ->
  exists l1 p l2 k', l = l1 ++ p :: l2 /\ k = (length (flat_map f l1) + k')%nat /\
    nth_error (f p) k' = Some s.
Proof.
  induction l as [|a l IH]; intros k s H; cbn in H; [destruct k; discriminate|].
  destruct (Nat.lt_ge_cases k (length (f a))) as [Hk|Hk].
  - rewrite nth_error_app1 in H by auto. exists [], a, l, k. auto.
  - rewrite nth_error_app2 in H by auto. apply IH in H.
    destruct H as (l1 & p & l2 & k' & -> & Hk' & H). exists (a :: l1), p, l2, k'.
    split; auto. split; auto. cbn. rewrite app_length. lia.
Qed.

(** Child counts are non-negative. *)
Fixpoint cnn (lv : list vec) : Prop :=
  match lv with
  | v :: ((_ :: _) as rest) => Forall (fun e => 0 <= snd e) v /\ cnn rest
  | _ => True
  end.

Lemma cnn_cons v rest : rest <> [] -> (cnn (v :: rest) <-> Forall (fun e => 0 <= snd e) v /\ cnn rest).
Proof. destruct rest; [congruence|reflexivity]. Qed.

Lemma cnn_zapp a : forall b, length a = length b -> cnn a -> cnn b -> cnn (zapp a b).
Proof.
  induction a as [|x a IH]; intros [|y b] Hl Ha Hb; try discriminate; [exact I|].
  destruct a as [|x' a], b as [|y' b]; try discriminate; [exact I|].
  destruct Ha as [Ha1 Ha2], Hb as [Hb1 Hb2].
  change (Forall (fun e => 0 <= snd e) (x ++ y) /\ cnn (zapp (x' :: a) (y' :: b))).
  split; [apply Forall_app; auto|]. apply IH; auto.
Qed.

Lemma cnn_znil n : cnn (znil n).
Proof. induction n as [|[|n] IH]; cbn; auto. Qed.

Lemma cnn_zc' d (l : list (Z * tree d)) : (forall t : tree d, cnn (lvl d t)) -> cnn (zc l).
Proof.
  intros H. induction l as [|p l IH]; [apply cnn_znil|]. rewrite zc_cons.
  apply cnn_zapp; auto. now rewrite lvl_length, zc_length.
Qed.

Lemma cl_nonneg d (l : list (Z * tree d)) : Forall (fun e => 0 <= snd e) (map cl l).
Proof. apply Forall_forall. intros e He. apply in_map_iff in He. destruct He as (p & <- & _). cbn. lia. Qed.

Lemma cnn_lvl d : forall t : tree d, cnn (lvl d t).
Proof.
  induction d as [|d IH]; intros t; [exact I|].
  rewrite lvl_S. apply cnn_cons; [apply length_nonnil with d; apply zc_length|].
  split; [apply cl_nonneg|]. apply cnn_zc'. exact IH.
Qed.

Lemma cnn_zc {d} (l : list (Z * tree d)) : cnn (zc l).
Proof. apply cnn_zc'. apply cnn_lvl. Qed.

Lemma vsum_nonneg v : Forall (fun e => 0 <= snd e) v -> 0 <= vsum v.
Proof. induction 1; cbn; lia. Qed.

Lemma offs_bounds b v e : Forall (fun e => 0 <= snd e) v -> In e (offs b v) -> b <= snd e <= b + vsum v.
Proof.
  revert b. induction v as [|[c n] v IH]; intros b Hf; cbn; [tauto|].
  apply Forall_cons_iff' in Hf. cbn in Hf. destruct Hf as [Hn Hf]. pose proof (vsum_nonneg v Hf).
  intros [<-|H1]; cbn; [lia|]. apply IH in H1; auto. lia.
Qed.

Lemma keys_ctx d : forall (t : tree d) A C k s,
  length A = S d -> length C = S d -> consis A -> consis C -> cnn A -> cnn C ->
  nth_error (tstr d t []) k = Some s ->
  let r := enc (ctx A t C) in
  let ps := it_locate r (length (last A []) + k) in
  (length (hd [] A) <= hd O ps < length (hd [] A) + tlen t)%nat /\
  it_keys r ps (repeat 0 (S d)) 0 = Some (s_pre s, (s_x s, s_e s)).
Proof.
  induction d as [|d IH]; intros t A C k s HA HC HcA HcC HnA HnC Hk r ps.
  - destruct A as [|a [|]]; try discriminate. destruct C as [|cc [|]]; try discriminate.
    subst r ps. unfold ctx. cbn [lvl zapp enc last it_locate hd repeat it_keys].
    cbn in Hk. rewrite nth_error_map in Hk. destruct (nth_error t k) as [e|] eqn:E; [|discriminate].
    injection Hk as <-. cbn [s_pre s_x s_e]. cbn in t.
    assert (k < length t)%nat by (apply nth_error_Some; congruence).
    split; [cbn; lia|]. rewrite nth_error_app2 by lia.
    replace (length a + k - length a)%nat with k by lia.
    rewrite nth_error_app1, E by auto. now rewrite !Z.add_0_r.
  - destruct (split_cons _ _ HA) as (a & A' & -> & HA').
    destruct (split_cons _ _ HC) as (cc & C' & -> & HC').
    pose proof (length_nonnil _ _ HA') as HA0. pose proof (length_nonnil _ _ HC') as HC0.
    apply consis_cons in HcA; auto. apply consis_cons in HcC; auto.
    apply cnn_cons in HnA; auto. apply cnn_cons in HnC; auto.
    destruct HcA as [HsA HcA], HcC as [HsC HcC], HnA as [HnA1 HnA], HnC as [HnC1 HnC].
    subst r ps. rewrite ctx_S. cbn [tree] in t.
    cbn [tstr] in Hk. apply nth_error_flat_map in Hk.
    destruct Hk as (l1 & [c u] & l2 & k' & -> & -> & Hk). cbn [fst snd] in Hk.
    change ([] ++ [c]) with [c] in Hk. rewrite tstr_pre, nth_error_map in Hk.
    destruct (nth_error (tstr d u []) k') as [s0|] eqn:E; [|discriminate]. injection Hk as <-.
    cbn [s_pre s_x s_e app].
    destruct (consis_zc l1) as [Hc1 Hs1]. destruct (consis_zc l2) as [Hc2 Hs2].
    assert (HlA : length (zapp A' (zc l1)) = S d) by (rewrite zapp_length; rewrite ?zc_length; auto).
    assert (HlC : length (zapp (zc l2) C') = S d) by (rewrite zapp_length; rewrite ?zc_length; auto).
    specialize (IH u (zapp A' (zc l1)) (zapp (zc l2) C') k' s0 HlA HlC).
    destruct IH as [Hrange Hkeys]; auto.
    { apply consis_zapp; auto. rewrite zc_length; auto. }
    { apply consis_zapp; auto. rewrite zc_length; auto. }
    { apply cnn_zapp; auto. rewrite zc_length; auto. apply cnn_zc. }
    { apply cnn_zapp; auto. rewrite zc_length; auto. apply cnn_zc. }
    rewrite <- ctx_descend with (c := c) in Hrange, Hkeys.
    assert (Hlast : length (last (zapp A' (zc l1)) []) =
       (length (last A' []) + length (flat_map (fun p => tstr d (snd p) ([] ++ [fst p])) l1))%nat).
    { rewrite last_zapp by (rewrite zc_length; auto). rewrite app_length. f_equal.
      pose proof (last_lvl (S d) l1 []) as H. rewrite lvl_S in H.
      rewrite last_cons in H by (apply length_nonnil with d; apply zc_length).
      rewrite H, map_length. reflexivity. }
    rewrite Hlast in Hrange, Hkeys.
    rewrite last_cons by auto. rewrite Nat.add_assoc.
    set (R := zapp A' (zapp (zc (l1 ++ (c, u) :: l2)) C')) in *.
    assert (HR : length R = S d).
    { unfold R. rewrite zapp_length; auto. rewrite zapp_length; rewrite zc_length; auto. }
    assert (HR0 : R <> []) by (now apply length_nonnil with d).
    rewrite enc_cons by auto.
    set (p0 := (length (last A' []) + _ + k')%nat) in *.
    destruct (enc R) as [|w rest] eqn:EncR.
    { apply (f_equal (@length _)) in EncR. rewrite enc_length, HR in EncR. discriminate. }
    rewrite it_locate_S. set (ps := it_locate (w :: rest) p0) in *.
    change (repeat 0 (S (S d))) with (0 :: repeat 0 (S d)).
    rewrite it_keys_S, Hkeys. cbn [hd].
    assert (Hhd : vsum a + vsum (map cl l1) = Z.of_nat (length (hd [] (zapp A' (zc l1))))).
    { rewrite hd_zapp, app_length by (rewrite zc_length; auto). rewrite HsA, Hs1. lia. }
    set (v := offs 0 (a ++ map cl (l1 ++ (c, u) :: l2) ++ cc)).
    assert (Ev : v = (offs 0 (a ++ map cl l1) ++ [(c, vsum a + vsum (map cl l1))]) ++
                     offs (vsum a + vsum (map cl l1) + Z.of_nat (tlen u)) (map cl l2 ++ cc)).
    { unfold v. rewrite map_app. cbn [map]. rewrite cl_pair. rewrite <- !app_assoc. cbn [app].
      rewrite (app_assoc a), (offs_app 0 (a ++ map cl l1)). cbn [offs]. now rewrite vsum_app, Z.add_0_l. }
    assert (Hcnt : cnt v (hd O ps) = (length a + length l1 + 1)%nat).
    { rewrite Ev. unfold cnt. rewrite count_while_app.
      - rewrite !app_length, offs_length, app_length, map_length. reflexivity.
      - intros e He. apply in_app_iff in He. destruct He as [He|[<-|[]]]; cbn [snd]; [|lia].
        apply offs_bounds in He; [|apply Forall_app; split; auto; apply cl_nonneg].
        rewrite vsum_app in He. lia.
      - intros e He. apply offs_bounds in He; [lia|]. apply Forall_app; split; auto. apply cl_nonneg. }
    rewrite Hcnt.
    replace (length a + length l1 + 1 - 1)%nat with (length a + length l1)%nat by lia.
    assert (Hnth : nth_error v (length a + length l1) = Some (c, vsum a + vsum (map cl l1))).
    { rewrite Ev, <- app_assoc. cbn [app].
      rewrite nth_error_app_exact; auto. now rewrite offs_length, app_length, map_length. }
    rewrite Hnth. cbn [fst]. rewrite Z.add_0_r.
    split; auto. rewrite tlen_S, app_length. cbn. lia.
Qed.

(** ** Encoded trees are well-formed offset vectors *)

Lemma offs_sorted b v : Forall (fun e => 0 < snd e) v -> StronglySorted olt (offs b v).
Proof.
  revert b. induction v as [|[c n] v IH]; intros b Hf; [constructor|].
  apply Forall_cons_iff' in Hf. cbn in Hf. destruct Hf as [Hn Hf].
  cbn. apply ss_cons. split; auto. intros y Hy. unfold olt. cbn.
  apply offs_bounds in Hy; [lia|]. eapply Forall_impl; [|exact Hf]. cbn; intros; lia.
Qed.

Fixpoint cpos (lv : list vec) : Prop :=
  match lv with
  | v :: ((_ :: _) as rest) => Forall (fun e => 0 < snd e) v /\ cpos rest
  | _ => True
  end.

Lemma cpos_zapp a : forall b, length a = length b -> cpos a -> cpos b -> cpos (zapp a b).
Proof.
  induction a as [|x a IH]; intros [|y b] Hl Ha Hb; try discriminate; [exact I|].
  destruct a as [|x' a], b as [|y' b]; try discriminate; [exact I|].
  destruct Ha as [Ha1 Ha2], Hb as [Hb1 Hb2].
  change (Forall (fun e => 0 < snd e) (x ++ y) /\ cpos (zapp (x' :: a) (y' :: b))).
  split; [apply Forall_app; auto|]. apply IH; auto.
Qed.

Lemma cpos_znil n : cpos (znil n).
Proof. induction n as [|[|n] IH]; cbn; auto. Qed.

Lemma cpos_lvl d : forall t : tree d, twf d t -> cpos (lvl d t).
Proof.
  induction d as [|d IH]; intros t Hw; [exact I|].
  rewrite lvl_S. cbn in Hw. destruct Hw as [_ Hf].
  assert (H : Forall (fun e => 0 < snd e) (map cl t) /\ cpos (@zc d t)).
  { cbn [tree] in t. induction t as [|p t IHt]; [split; [constructor|apply cpos_znil]|].
    apply Forall_cons_iff' in Hf. destruct Hf as [[Hn Hw] Hf]. destruct (IHt Hf) as [H1 H2].
    split.
    - cbn [map]. constructor; auto. unfold cl; cbn. lia.
    - rewrite zc_cons. apply cpos_zapp; auto. now rewrite lvl_length, zc_length. }
  destruct H as [H1 H2]. pose proof (@zc_length d t). destruct (@zc d t); [discriminate|].
  split; auto.
Qed.

Lemma widx_enc lv : consis lv -> cpos lv -> widx (enc lv).
Proof.
  induction lv as [|v lv IH]; intros Hc Hp; [exact I|].
  destruct lv as [|w lv]; [exact I|].
  rewrite enc_cons by congruence. destruct Hc as [Hs Hc], Hp as [Hpv Hp].
  specialize (IH Hc Hp).
  assert (Hpv' : Forall (fun e => 0 <= snd e) v) by (eapply Forall_impl; [|exact Hpv]; cbn; intros; lia).
  destruct (enc (w :: lv)) as [|w' rest] eqn:E; [exact I|].
  assert (Hl : length w' = length w).
  { pose proof (enc_hd_length (w :: lv)) as H. rewrite E in H. exact H. }
  apply widx_S. refine (conj (conj _ _) (conj _ (conj _ _))); auto.
  - now apply offs_sorted.
  - intros e He. destruct v as [|[c n] v]; [discriminate|]. cbn in He. injection He as <-. reflexivity.
  - intros e He. pose proof He as He'. apply offs_bounds in He; auto. rewrite Hl, <- Hs.
    split; [lia|].
    apply in_split in He'. destruct He' as (u1 & u2 & Hu).
    (* the entry's own count is positive *)
    clear - Hu Hpv. assert (Hgen : forall v b, Forall (fun e => 0 < snd e) v -> forall e, In e (offs b v) -> snd e < b + vsum v).
    { clear. induction v as [|[c n] v IH]; intros b Hf e; cbn; [tauto|].
      apply Forall_cons_iff' in Hf. cbn in Hf. destruct Hf as [Hn Hf].
      assert (0 <= vsum v). { apply vsum_nonneg. eapply Forall_impl; [|exact Hf]; cbn; intros; lia. }
      intros [<-|H1]; cbn; [lia|]. apply IH in H1; auto. lia. }
    specialize (Hgen v 0 Hpv e). rewrite Hu in Hgen. rewrite Z.add_0_l in Hgen. apply Hgen.
    apply in_app_iff. right; left; auto.
  - intros Hw Hv. destruct v as [|[c n] v]; [|discriminate]. cbn in Hs. destruct w'; [now destruct Hw|].
    rewrite <- Hl in Hs. cbn in Hs. lia.
Qed.

Lemma widx_tree d (t : tree d) : twf d t -> widx (enc (lvl d t)).
Proof. intros. apply widx_enc; [apply consis_lvl|now apply cpos_lvl]. Qed.

(** ** Offsets *)


Lemma it_keys_shift r : forall pos off al pre xe, length off = length r ->
  it_keys r pos (repeat 0 (length r)) 0 = Some (pre, xe) ->
  it_keys r pos off al = Some (zadd pre off, (fst xe + last off 0, snd xe + last off 0 + al)).
Proof.
  induction r as [|v r IH]; intros pos off al pre xe Hl H; [discriminate|].
  destruct pos as [|p pos]; [destruct r; discriminate|].
  destruct off as [|o off]; [discriminate|]. injection Hl as Hl.
  destruct r as [|w r].
  - destruct off; [|discriminate]. destruct pos; cbn in H |- *; destruct (nth_error v p) as [e|]; try discriminate.
    injection H as <- <-. cbn [fst snd]. now rewrite !Z.add_0_r.
  - cbn [length repeat] in H. rewrite it_keys_S in H |- *.
    destruct (nth_error v p) as [e|]; [|discriminate].
    change (0 :: repeat 0 (length r)) with (repeat 0 (length (w :: r))) in H.
    destruct (it_keys (w :: r) pos _ 0) as [[pre0 xe0]|] eqn:E; [|discriminate].
    injection H as <- <-. erewrite IH; eauto.
    rewrite Z.add_0_r. rewrite (last_cons o) by (intros ->; discriminate). reflexivity.
Qed.

Lemma strk_tree d (t : tree d) off al k s :
  twf d t -> length off = S d -> nth_error (tstr d t []) k = Some s ->
  strk (enc (lvl d t)) off al k = Some (s_shift off al s).
Proof.
  intros Hw Hoff Hk.
  pose proof (keys_ctx d t (znil (S d)) (znil (S d)) k s (znil_length _) (znil_length _)
                (consis_znil _) (consis_znil _) (cnn_znil _) (cnn_znil _) Hk) as [_ H].
  rewrite ctx_nil, last_znil in H. cbn [length Nat.add] in H.
  unfold strk, it_construct.
  assert (Hlen : length (enc (lvl d t)) = S d) by (rewrite enc_length, lvl_length; auto).
  rewrite <- Hlen in H. apply it_keys_shift with (off := off) (al := al) in H; [|congruence].
  rewrite H. reflexivity.
Qed.

Lemma nth_error_ext {A} (a b : list A) : length a = length b ->
  (forall i, (i < length a)%nat -> nth_error a i = nth_error b i) -> a = b.
Proof.
  revert b. induction a as [|x a IH]; intros [|y b] Hl H; try discriminate; auto.
  pose proof (H O) as H0. cbn in H0. injection H0 as ->; [|lia]. f_equal. apply IH; [now injection Hl|].
  intros i Hi. apply (H (S i)). cbn. lia.
Qed.

Theorem streaks_tree d (t : tree d) off al :
  twf d t -> length off = S d ->
  reg_streaks_off (enc (lvl d t)) off al = Some (map (s_shift off al) (tstr d t [])).
Proof.
  intros Hw Hoff.
  assert (Hlen : length (enc (lvl d t)) = S d) by (rewrite enc_length, lvl_length; auto).
  assert (Hn : length (last (enc (lvl d t)) []) = length (tstr d t [])).
  { rewrite enc_last, (last_lvl d t []), map_length. reflexivity. }
  destruct (run_all (enc (lvl d t)) off al) as (l & Hl & Hll & Hnth).
  - now apply widx_tree.
  - now apply length_nonnil with d.
  - congruence.
  - intros k Hk. rewrite Hn in Hk. destruct (nth_error (tstr d t []) k) as [s|] eqn:E.
    + rewrite (strk_tree d t off al k s); auto. congruence.
    + apply nth_error_None in E. lia.
  - rewrite Hl. f_equal. apply nth_error_ext; [rewrite map_length; lia|].
    intros i Hi. rewrite <- Hnth by lia. rewrite nth_error_map.
    destruct (nth_error (tstr d t []) i) as [s|] eqn:E.
    + now apply strk_tree.
    + apply nth_error_None in E. lia.
Qed.
