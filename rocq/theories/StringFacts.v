From Coq Require Import Ascii Sorted.
From Verif Require Import Base RegionOpsModel StringModel StringSpec.
Local Open Scope nat_scope.

(** * Ascending lists *)

Definition asc : list nat -> Prop := StronglySorted lt.

Lemma set_insert_in x l : forall y, In y (set_insert x l) <-> y = x \/ In y l.
Proof.
  induction l as [|z l IH]; intros y; cbn [set_insert]; [cbn; intuition|]. destruct (Nat.eqb_spec x z) as [->|Hne].
  - cbn. intuition.
  - destruct (Nat.ltb_spec x z); cbn; [intuition|]. rewrite IH. intuition.
Qed.

Lemma set_insert_asc x l : asc l -> asc (set_insert x l).
Proof.
  induction 1 as [|z l Hl IH Hz]; cbn [set_insert]; [repeat constructor|]. destruct (Nat.eqb_spec x z) as [->|Hne]; [now constructor|].
  destruct (Nat.ltb_spec x z).
  - constructor; [now constructor|]. constructor; [exact H|]. eapply Forall_impl; [|exact Hz]. cbn. intros; lia.
  - constructor; [exact IH|]. apply Forall_forall. intros y Hy. apply set_insert_in in Hy as [->|Hy]; [lia|]. now apply (proj1 (Forall_forall _ _) Hz).
Qed.

Lemma asc_ext l : forall l', asc l -> asc l' -> (forall x, In x l <-> In x l') -> l = l'.
Proof.
  induction l as [|a l IH]; intros [|b l'] H H' E.
  - reflexivity.
  - destruct (proj2 (E b)); now left.
  - destruct (proj1 (E a)); now left.
  - inversion H as [|? ? H1 H2]; inversion H' as [|? ? H1' H2']; subst. rewrite Forall_forall in H2, H2'.
    assert (a = b) as <-.
    { destruct (proj1 (E a) (or_introl eq_refl)) as [|Ha]; [congruence|]. destruct (proj2 (E b) (or_introl eq_refl)) as [|Hb]; [congruence|].
      specialize (H2 b Hb). specialize (H2' a Ha). lia. }
    f_equal. apply IH; [assumption..|]. intros x. split; intros Hx.
    + destruct (proj1 (E x) (or_intror Hx)) as [<-|]; [|assumption]. specialize (H2 _ Hx). lia.
    + destruct (proj2 (E x) (or_intror Hx)) as [<-|]; [|assumption]. specialize (H2' _ Hx). lia.
Qed.

(** * Finding characters *)

Lemma find_from_spec s c : forall i pos,
  match find_from s c i pos with
  | Some p => i <= p /\ pos <= p /\ nth_error s (p - i) = Some c /\ forall q, i <= q < p -> pos <= q -> nth_error s (q - i) <> Some c
  | None => forall q, i <= q -> pos <= q -> nth_error s (q - i) <> Some c
  end.
Proof.
  induction s as [|x s IH]; intros i pos; cbn [find_from].
  - intros q _ _. now destruct (q - i).
  - destruct (Nat.leb_spec pos i) as [Hp|Hp]; cbn [andb].
    1: destruct (Ascii.eqb_spec x c) as [->|Hx].
    + split; [lia|]. split; [lia|]. rewrite Nat.sub_diag. split; [reflexivity|]. intros; lia.
    + specialize (IH (S i) pos). destruct (find_from s c (S i) pos) as [p|].
      * destruct IH as (H1 & H2 & H3 & H4). split; [lia|]. split; [lia|]. replace (p - i) with (S (p - S i)) by lia. split; [exact H3|].
        intros q Hq Hq'. destruct (Nat.eq_dec q i) as [->|]; [rewrite Nat.sub_diag; cbn; congruence|]. replace (q - i) with (S (q - S i)) by lia. apply H4; lia.
      * intros q Hq Hq'. destruct (Nat.eq_dec q i) as [->|]; [rewrite Nat.sub_diag; cbn; congruence|]. replace (q - i) with (S (q - S i)) by lia. apply IH; lia.
    + specialize (IH (S i) pos). destruct (find_from s c (S i) pos) as [p|].
      * destruct IH as (H1 & H2 & H3 & H4). split; [lia|]. split; [lia|]. replace (p - i) with (S (p - S i)) by lia. split; [exact H3|].
        intros q Hq Hq'. replace (q - i) with (S (q - S i)) by lia. apply H4; lia.
      * intros q Hq Hq'. replace (q - i) with (S (q - S i)) by lia. apply IH; lia.
Qed.

(** * The marks *)

Definition at_c (s : str) (c : ascii) (p : nat) : Prop := nth_error s p = Some c.

Lemma at_lt s c p : at_c s c p -> p < length s.
Proof. intros H. apply nth_error_Some. unfold at_c in H. congruence. Qed.

Lemma mark_spec s c : forall fuel pos0 st en, length s <= fuel + pos0 -> asc st -> asc en ->
  exists st' en', mark fuel s c (find_char s c pos0) st en = Some (st', en') /\ asc st' /\ asc en' /\
    (forall x, In x st' <-> In x st \/ exists p, x = S p /\ pos0 <= p /\ at_c s c p) /\
    (forall x, In x en' <-> In x en \/ pos0 <= x /\ at_c s c x).
Proof.
  intros fuel. induction fuel as [|n IH]; intros pos0 st en Hf Hst Hen; pose proof (find_from_spec s c 0 pos0) as HF; unfold find_char; destruct (find_from s c 0 pos0) as [p|]; cbn [mark].
  - destruct HF as (_ & H2 & H3 & _). rewrite Nat.sub_0_r in H3. pose proof (at_lt s c p H3). lia.
  - exists st, en. split; [reflexivity|]. split; [assumption|]. split; [assumption|]. split; intros x; (split; [now left|]).
    + intros [H|(p & _ & Hp & Ha)]; [exact H|]. pose proof (at_lt _ _ _ Ha). lia.
    + intros [H|(Hp & Ha)]; [exact H|]. pose proof (at_lt _ _ _ Ha). lia.
  - destruct HF as (_ & H2 & H3 & H4). rewrite Nat.sub_0_r in H3. pose proof (at_lt s c p H3) as Hl. rewrite (proj2 (Nat.ltb_lt _ _) Hl).
    destruct (IH (S p) (set_insert (S p) st) (set_insert p en)) as (st' & en' & E & A1 & A2 & I1 & I2); [lia|now apply set_insert_asc|now apply set_insert_asc|].
    exists st', en'. split; [exact E|]. split; [exact A1|]. split; [exact A2|].
    assert (HH : forall q, pos0 <= q -> at_c s c q -> q = p \/ S p <= q).
    { intros q Hq Ha. destruct (Nat.lt_trichotomy q p) as [Hlt|[|]]; [|now left|right; lia]. exfalso. apply (H4 q); [lia|exact Hq|]. now rewrite Nat.sub_0_r. }
    split; intros x.
    + rewrite I1, set_insert_in. split.
      * intros [[->|H]|(q & -> & Hq & Ha)]; [right; now exists p|now left|]. right. exists q. split; [reflexivity|]. split; [lia|exact Ha].
      * intros [H|(q & -> & Hq & Ha)]; [now left; right|]. destruct (HH q Hq Ha) as [->|]; [now left; left|]. right. now exists q.
    + rewrite I2, set_insert_in. split.
      * intros [[->|H]|(Hq & Ha)]; [right; now split|now left|]. right. split; [lia|exact Ha].
      * intros [H|(Hq & Ha)]; [now left; right|]. destruct (HH x Hq Ha) as [->|]; [now left; left|]. right. now split.
  - exists st, en. split; [reflexivity|]. split; [assumption|]. split; [assumption|]. split; intros x; (split; [now left|]).
    + intros [H|(p & _ & Hp & Ha)]; [exact H|]. exfalso. apply (HF p); [lia|exact Hp|]. now rewrite Nat.sub_0_r.
    + intros [H|(Hp & Ha)]; [exact H|]. exfalso. apply (HF x); [lia|exact Hp|]. now rewrite Nat.sub_0_r.
Qed.

Lemma mark_all_spec s : forall ds st en, asc st -> asc en ->
  exists st' en', mark_all s ds st en = Some (st', en') /\ asc st' /\ asc en' /\
    (forall x, In x st' <-> In x st \/ exists p c, x = S p /\ In c ds /\ at_c s c p) /\
    (forall x, In x en' <-> In x en \/ exists c, In c ds /\ at_c s c x).
Proof.
  intros ds. induction ds as [|d ds IH]; intros st en Hst Hen; cbn [mark_all].
  - exists st, en. split; [reflexivity|]. split; [assumption|]. split; [assumption|]. split; intros x; (split; [now left|]).
    + now intros [H|(p & c & _ & [] & _)].
    + now intros [H|(c & [] & _)].
  - destruct (mark_spec s d (length s) 0 st en) as (st1 & en1 & -> & A1 & A2 & I1 & I2); [lia|assumption..|]. cbn [obind fst snd].
    destruct (IH st1 en1 A1 A2) as (st2 & en2 & E & B1 & B2 & J1 & J2). exists st2, en2. split; [exact E|]. split; [exact B1|]. split; [exact B2|].
    split; intros x.
    + rewrite J1, I1. split.
      * intros [[H|(p & -> & _ & Ha)]|(p & c & -> & Hc & Ha)]; [now left|right; exists p, d; intuition|right; exists p, c; intuition].
      * intros [H|(p & c & -> & [<-|Hc] & Ha)]; [now left; left| |].
        -- left. right. exists p. intuition lia.
        -- right. now exists p, c.
    + rewrite J2, I2. split.
      * intros [[H|(_ & Ha)]|(c & Hc & Ha)]; [now left|right; exists d; intuition|right; exists c; intuition].
      * intros [H|(c & [<-|Hc] & Ha)]; [now left; left| |].
        -- left. right. intuition lia.
        -- right. now exists c.
Qed.

(** * Positions of delimiters *)

Section Delims.
Variable ds : str.

Definition isd_b (c : ascii) : bool := existsb (Ascii.eqb c) ds.

Lemma isd_b_spec c : isd_b c = true <-> In c ds.
Proof.
  unfold isd_b. rewrite existsb_exists. split.
  - intros (x & Hx & E). apply Ascii.eqb_eq in E. now subst.
  - intros H. exists c. split; [exact H|apply Ascii.eqb_refl].
Qed.

Fixpoint dpos (i : nat) (s : str) : list nat :=
  match s with
  | [] => []
  | c :: s' => if isd_b c then i :: dpos (S i) s' else dpos (S i) s'
  end.

Lemma dpos_in s : forall i x, In x (dpos i s) <-> i <= x /\ exists c, In c ds /\ at_c s c (x - i).
Proof.
  induction s as [|a s IH]; intros i x; cbn [dpos].
  - split; [intros []|]. intros (_ & c & _ & H). unfold at_c in H. now destruct (x - i).
  - assert (HS : In x (dpos (S i) s) <-> i < x /\ exists c, In c ds /\ at_c (a :: s) c (x - i)).
    { rewrite IH. split; intros (H1 & c & H2 & H3); (split; [lia|]); exists c; (split; [exact H2|]); unfold at_c in *; replace (x - i) with (S (x - S i)) in *; trivial; lia. }
    destruct (isd_b a) eqn:E.
    + apply isd_b_spec in E. cbn [In]. rewrite HS. split.
      * intros [<-|(H1 & H2)]; [|split; [lia|exact H2]]. split; [lia|]. exists a. split; [exact E|]. unfold at_c. now rewrite Nat.sub_diag.
      * intros (H1 & H2). destruct (Nat.eq_dec i x); [now left|]. right. split; [lia|exact H2].
    + rewrite HS. split; intros (H1 & H2); (split; [|exact H2]); [lia|]. destruct (Nat.eq_dec i x) as [->|]; [|lia]. exfalso. destruct H2 as (c & H2 & H3).
      unfold at_c in H3. rewrite Nat.sub_diag in H3. injection H3 as ->. apply isd_b_spec in H2. congruence.
Qed.

Lemma dpos_asc s : forall i, asc (dpos i s).
Proof.
  induction s as [|a s IH]; intros i; cbn [dpos]; [constructor|]. destruct (isd_b a); [|apply IH]. constructor; [apply IH|].
  apply Forall_forall. intros x Hx. apply dpos_in in Hx as [Hx _]. lia.
Qed.

(** * Cutting *)

Definition ne (w : str) : bool := match w with [] => false | _ => true end.

(** The pieces of [u ++ s], where [u] is what precedes the first delimiter. *)
Fixpoint pieces (u s : str) : list str :=
  match s with
  | [] => [u]
  | c :: s' => if isd_b c then u :: pieces [] s' else pieces (u ++ [c]) s'
  end.

Lemma substr_mid pre u s : substr (pre ++ u ++ s) (length pre) (length u) = u.
Proof. unfold substr. rewrite skipn_app, skipn_all, Nat.sub_diag. cbn [skipn app]. now rewrite firstn_app, firstn_all, Nat.sub_diag, firstn_O, app_nil_r. Qed.

Lemma cut_cons s i st j en : cut s (i :: st) (j :: en) = option_map (fun r => if i =? j then r else substr s i (j - i) :: r) (cut s st en).
Proof. reflexivity. Qed.

Lemma cut_pieces s : forall pre u w, w = pre ++ u ++ s ->
  cut w (length pre :: map S (dpos (length pre + length u) s)) (dpos (length pre + length u) s ++ [length w]) = Some (filter ne (pieces u s)).
Proof.
  induction s as [|c s IH]; intros pre u w ->; cbn [dpos pieces].
  - cbn [map app cut option_map]. assert (E : length (pre ++ u ++ []) = length pre + length u) by (rewrite !app_length; cbn; lia). rewrite E.
    destruct u as [|a u]; cbn [filter ne].
    + cbn [length]. now rewrite Nat.add_0_r, Nat.eqb_refl.
    + destruct (Nat.eqb_spec (length pre) (length pre + length (a :: u))) as [H|_]; [cbn in H; lia|].
      replace (length pre + length (a :: u) - length pre) with (length (a :: u)) by lia. now rewrite substr_mid.
  - destruct (isd_b c) eqn:E.
    + specialize (IH (pre ++ u ++ [c]) [] (pre ++ u ++ c :: s)). cbn [app length] in IH.
      assert (L : length (pre ++ u ++ [c]) = S (length pre + length u)) by (rewrite !app_length; cbn; lia). rewrite L, Nat.add_0_r in IH.
      cbn [map app]. rewrite cut_cons. rewrite IH by now rewrite <- !app_assoc. cbn [option_map]. f_equal. cbn [filter]. destruct u as [|a u]; cbn [ne].
      * cbn [length]. now rewrite Nat.add_0_r, Nat.eqb_refl.
      * destruct (Nat.eqb_spec (length pre) (length pre + length (a :: u))) as [H|_]; [cbn in H; lia|].
        replace (length pre + length (a :: u) - length pre) with (length (a :: u)) by lia. now rewrite substr_mid.
    + specialize (IH pre (u ++ [c]) (pre ++ u ++ c :: s)). rewrite app_length in IH. cbn [length] in IH.
      replace (S (length pre + length u)) with (length pre + (length u + 1)) by lia. apply IH. now rewrite <- !app_assoc.
Qed.

Lemma pieces_tokenized s : forall u, free (fun c => In c ds) u -> tokenized (fun c => In c ds) (u ++ s) (filter ne (pieces u s)).
Proof.
  induction s as [|c s IH]; intros u Hu; cbn [pieces].
  - rewrite app_nil_r. destruct u as [|a u]; cbn [filter ne]; [constructor|]. apply tk_last; [discriminate|exact Hu].
  - destruct (isd_b c) eqn:E.
    + apply isd_b_spec in E. specialize (IH [] ltac:(constructor)). cbn [app] in IH. destruct u as [|a u]; cbn [filter ne].
      * now apply tk_delim.
      * apply tk_word; [discriminate|exact Hu|exact E|]. now apply tk_delim.
    + change (u ++ c :: s) with (u ++ [c] ++ s). rewrite app_assoc. apply IH. apply Forall_app. split; [exact Hu|]. constructor; [|constructor].
      intros H. apply isd_b_spec in H. congruence.
Qed.

Lemma tokenize_spec s : exists l, tokenize s ds = Some l /\ tokenized (fun c => In c ds) s l.
Proof.
  unfold tokenize. cbn [set_insert]. destruct (mark_all_spec s ds [0] [length s]) as (st & en & -> & A1 & A2 & I1 & I2); [repeat constructor..|]. cbn [obind fst snd].
  assert (Hst : st = 0 :: map S (dpos 0 s)).
  { apply asc_ext; [exact A1| |].
    - constructor.
      + pose proof (dpos_asc s 0) as H. induction H as [|x l _ IH Hx]; cbn; constructor; [exact IH|]. apply Forall_map. eapply Forall_impl; [|exact Hx]. cbn. intros; lia.
      + apply Forall_map. apply Forall_forall. intros; lia.
    - intros x. rewrite I1. cbn [In]. rewrite in_map_iff. split.
      + intros [[<-|[]]|(p & c & -> & Hc & Ha)]; [now left|]. right. exists p. split; [reflexivity|]. apply dpos_in. split; [lia|]. exists c. now rewrite Nat.sub_0_r.
      + intros [<-|(p & <- & Hp)]; [now left; left|]. apply dpos_in in Hp as (_ & c & Hc & Ha). rewrite Nat.sub_0_r in Ha. right. now exists p, c. }
  assert (Hen : en = dpos 0 s ++ [length s]).
  { apply asc_ext; [exact A2| |].
    - pose proof (dpos_asc s 0) as H. assert (HB : Forall (fun x => x < length s) (dpos 0 s)).
      { apply Forall_forall. intros x Hx. apply dpos_in in Hx as (_ & c & _ & Ha). rewrite Nat.sub_0_r in Ha. now apply at_lt in Ha. }
      clear - H HB. revert HB. induction H as [|x l _ IH Hx]; intros HB; cbn; [repeat constructor|]. constructor; [apply IH; now inversion HB|]. apply Forall_app. split; [exact Hx|]. constructor; [|constructor]. now inversion HB.
    - intros x. rewrite I2, in_app_iff, dpos_in, Nat.sub_0_r. cbn [In]. split.
      + intros [[<-|[]]|(c & Hc & Ha)]; [now right; left|]. left. split; [lia|]. now exists c.
      + intros [(_ & c & Hc & Ha)|[<-|[]]]; [right; now exists c|now left; left]. }
  subst st en. pose proof (cut_pieces s [] [] s eq_refl) as HC. cbn [length Nat.add] in HC. rewrite HC. eexists. split; [reflexivity|].
  apply (pieces_tokenized s []). constructor.
Qed.

End Delims.

(** * The specification determines the result *)

Lemma split_unique (isd : ascii -> Prop) w : forall w' c c' s s', free isd w -> free isd w' -> isd c -> isd c' -> w ++ c :: s = w' ++ c' :: s' -> w = w' /\ c = c' /\ s = s'.
Proof.
  induction w as [|a w IH]; intros [|b w'] c c' s s' F F' Hc Hc' E; cbn in E.
  - injection E as -> ->. auto.
  - injection E as -> _. now apply Forall_inv in F'.
  - injection E as <- _. now apply Forall_inv in F.
  - injection E as <- E. destruct (IH w' c c' s s') as (-> & -> & ->); auto; now apply Forall_inv_tail with a.
Qed.

Lemma tokenized_unique isd s l l' : tokenized isd s l -> tokenized isd s l' -> l = l'.
Proof.
  intros H. revert l'. induction H as [|c s l Hc _ IH|w Hw F|w c s l Hw F Hc _ IH]; intros l' H'.
  - inversion H' as [| |w Hw|w c s l Hw _ _ _ E]; subst; [reflexivity|congruence|]. now destruct w.
  - inversion H' as [|c2 s2 l2 _ H2|w Hw F|w c2 s2 l2 Hw F _ _ E]; subst.
    + now apply IH.
    + now apply Forall_inv in F.
    + destruct w as [|a w]; [congruence|]. injection E as -> _. now apply Forall_inv in F.
  - inversion H' as [|c2 s2 l2 Hc2 H2|w2 Hw2 F2|w2 c2 s2 l2 Hw2 F2 Hc2 _ E]; subst.
    + congruence.
    + now apply Forall_inv in F.
    + reflexivity.
    + apply Forall_app in F as [_ F]. now apply Forall_inv in F.
  - inversion H' as [E|c2 s2 l2 Hc2 H2 E|w2 Hw2 F2|w2 c2 s2 l2 Hw2 F2 Hc2 H2 E]; subst.
    + now destruct w.
    + destruct w as [|a w]; [congruence|]. injection E as <- _. now apply Forall_inv in F.
    + apply Forall_app in F2 as [_ F2]. now apply Forall_inv in F2.
    + destruct (split_unique isd w2 w c2 c s2 s F2 F Hc2 Hc E) as (-> & -> & ->). f_equal. now apply IH.
Qed.

Lemma join_tokenized d ts : Forall (fun t => t <> [] /\ ~ In d t) ts -> tokenized (fun c => In c [d]) (join ts [d]) ts.
Proof.
  assert (HF : forall t, ~ In d t -> free (fun c => In c [d]) t).
  { intros t H. apply Forall_forall. intros c Hc [<-|[]]. now apply H. }
  induction 1 as [|t ts [H1 H2] H IH]; [constructor|]. destruct ts as [|t2 ts].
  - cbn. apply tk_last; auto.
  - change (join (t :: t2 :: ts) [d]) with (t ++ d :: join (t2 :: ts) [d]). apply tk_word; auto; [now left|]. apply tk_delim; [now left|exact IH].
Qed.
