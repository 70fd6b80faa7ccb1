(** Nested (tree shaped) view of a Region's index vectors, used only in proofs:
    level 0 is a list of x-intervals, level d+1 a list of coordinates, each
    with a level-d tree. *)
From Verif Require Import Base ListFacts RegionModel.
From Coq Require Import Sorted.

Fixpoint tree (d : nat) : Type :=
  match d with O => vec | S d' => list (Z * tree d') end.

Definition tempty (d : nat) : tree d :=
  match d return tree d with O => [] | S _ => [] end.

Definition tlen {d} : tree d -> nat :=
  match d return tree d -> nat with O => @length _ | S _ => @length _ end.

(** ** Level 0 *)

Definition mem0 (l : vec) (x : Z) : Prop := exists e, In e l /\ fst e <= x < snd e.

Definition wf0 (l : vec) : Prop :=
  StronglySorted (fun a b : Z * Z => snd a < fst b) l /\ Forall (fun e => fst e < snd e) l.

Lemma mem0_nil x : mem0 [] x <-> False.
Proof. unfold mem0; split; [intros (e & [] & _)|tauto]. Qed.

Lemma mem0_cons e l x : mem0 (e :: l) x <-> fst e <= x < snd e \/ mem0 l x.
Proof.
  unfold mem0; split.
  - intros (e' & [->|H] & H2); eauto.
  - intros [H|(e' & H1 & H2)]; [exists e|exists e']; cbn; auto.
Qed.

Lemma mem0_app a b x : mem0 (a ++ b) x <-> mem0 a x \/ mem0 b x.
Proof.
  unfold mem0; split.
  - intros (e & H & H2). apply in_app_iff in H. destruct H; eauto.
  - intros [(e & H & H2)|(e & H & H2)]; exists e; rewrite in_app_iff; auto.
Qed.

Lemma wf0_cons e l : wf0 (e :: l) <-> fst e < snd e /\ (forall y, In y l -> snd e < fst y) /\ wf0 l.
Proof. unfold wf0. rewrite ss_cons, Forall_cons_iff'. tauto. Qed.

Lemma wf0_app a b : wf0 (a ++ b) <-> wf0 a /\ wf0 b /\ (forall x y, In x a -> In y b -> snd x < fst y).
Proof. unfold wf0. rewrite ss_app, Forall_app. tauto. Qed.

Lemma wf0_nil : wf0 [].
Proof. split; constructor. Qed.

Lemma wf0_in l e : wf0 l -> In e l -> fst e < snd e.
Proof. intros [_ H] ?. rewrite Forall_forall in H; auto. Qed.

Ltac conj3 := refine (conj _ (conj _ _)).
Ltac conj4 := refine (conj _ (conj _ (conj _ _))).

Lemma wf0_single e : fst e < snd e -> wf0 [e].
Proof. intros. split; repeat constructor; auto. Qed.

Lemma insert_loop_spec range : forall cur,
  wf0 range -> fst cur < snd cur ->
  (forall e, In e (tl range) -> fst cur < fst e) ->
  let '(r, n) := insert_loop range cur in
  wf0 r /\ (forall x, mem0 r x <-> mem0 range x \/ fst cur <= x < snd cur) /\
  n = Z.of_nat (length r) - Z.of_nat (length range) /\
  (forall b, b < fst cur -> (forall e, In e range -> b < fst e) -> forall e, In e r -> b < fst e).
Proof.
  induction range as [|h t IH]; intros cur Hwf Hc Htl.
  - cbn [insert_loop]. conj4.
    + apply wf0_single; auto.
    + intros x. rewrite mem0_cons, mem0_nil. tauto.
    + reflexivity.
    + intros b Hb _ e [<-|[]]. auto.
  - apply wf0_cons in Hwf. destruct Hwf as (Hh & Hlt & Hwt).
    cbn [tl] in Htl.
    cbn [insert_loop].
    destruct (Z.leb_spec (fst h) (snd cur)) as [Hle|Hgt].
    2:{ conj4.
        - apply wf0_cons. split; [auto|]. split; [|apply wf0_cons; auto].
          intros y [<-|Hy]; [auto|]. specialize (Hlt y Hy). lia.
        - intros x. rewrite (mem0_cons cur). tauto.
        - cbn [length]. lia.
        - intros b Hb Hr e [<-|He]; auto. }
    set (touching := intersect_or_touch h cur).
    set (cur' := if touching then fuse h cur else cur).
    assert (Hc' : fst cur' < snd cur').
    { subst cur'. destruct touching; cbn; lia. }
    assert (Hcur1 : fst cur' <= fst cur /\ (touching = true -> fst cur' <= fst h)).
    { subst cur'. destruct touching; cbn; split; try lia. }
    assert (Hcur2 : forall b, b < fst cur -> b < fst h -> b < fst cur').
    { intros b ? ?. subst cur'. destruct touching; cbn; lia. }
    assert (Hun : forall x, (if touching then False else fst h <= x < snd h) \/ fst cur' <= x < snd cur'
               <-> fst h <= x < snd h \/ fst cur <= x < snd cur).
    { intros x. subst cur'.
      destruct touching eqn:E; subst touching; unfold intersect_or_touch in E; cbn [fuse fst snd]; [lia|tauto]. }
    assert (Hskip : touching = false -> snd h < fst cur).
    { subst touching. unfold intersect_or_touch. lia. }
    assert (Hrec :
      let '(r, n) := match t with
          | [] => ([cur'], 1)
          | h' :: _ => if intersect_or_touch h' cur' then insert_loop t cur' else (cur' :: t, 1)
          end in
      wf0 r /\ (forall x, mem0 r x <-> mem0 t x \/ fst cur' <= x < snd cur') /\
      n = Z.of_nat (length r) - Z.of_nat (length t) /\
      (forall b, b < fst cur' -> (forall e, In e t -> b < fst e) -> forall e, In e r -> b < fst e)).
    { destruct t as [|h' t'].
      - conj4.
        + apply wf0_single; auto.
        + intros x. rewrite mem0_cons, mem0_nil. tauto.
        + reflexivity.
        + intros b Hb _ e [<-|[]]. auto.
      - destruct (intersect_or_touch h' cur') eqn:E.
        + apply IH; auto. intros e He. cbn [tl] in He.
          assert (fst cur < fst e) by (apply Htl; right; auto). lia.
        + assert (H1: snd h < fst h') by (apply Hlt; left; auto).
          assert (H2: fst cur < fst h') by (apply Htl; left; auto).
          assert (H4: snd cur' < fst h').
          { unfold intersect_or_touch in E. lia. }
          conj4.
          * apply wf0_cons. split; [auto|split; auto].
            apply wf0_cons in Hwt. destruct Hwt as (Ha & Hb & _).
            intros y [<-|Hy]; [auto|]. specialize (Hb y Hy). lia.
          * intros x. rewrite (mem0_cons cur'). tauto.
          * cbn [length]. lia.
          * intros b Hb Hr e [<-|He]; auto. }
    destruct (match t with
          | [] => ([cur'], 1)
          | h' :: _ => if intersect_or_touch h' cur' then insert_loop t cur' else (cur' :: t, 1)
          end) as [r n].
    destruct Hrec as (Hr1 & Hr2 & Hr3 & Hr4).
    destruct touching eqn:E.
    + conj4; auto.
      * intros x. rewrite mem0_cons, Hr2. specialize (Hun x). tauto.
      * cbn [length]. lia.
      * intros b Hb Hr e He. apply Hr4; auto.
        -- apply Hcur2; auto. apply Hr; left; auto.
        -- intros; apply Hr; right; auto.
    + conj4.
      * apply wf0_cons. split; [auto|]. split; [|auto].
        intros y Hy. apply (Hr4 (snd h)); auto.
      * intros x. rewrite !mem0_cons. specialize (Hun x). specialize (Hr2 x). tauto.
      * cbn [length]. lia.
      * intros b Hb Hr e [<-|He].
        -- apply Hr; left; auto.
        -- apply (Hr4 b); auto. intros; apply Hr; right; auto.
Qed.

Lemma substract_spec h cur :
  fst h < snd h -> fst cur < snd cur ->
  wf0 (substract h cur) /\
  (forall x, mem0 (substract h cur) x <-> fst h <= x < snd h /\ ~ (fst cur <= x < snd cur)) /\
  (forall e, In e (substract h cur) -> fst h <= fst e /\ snd e <= snd h).
Proof.
  intros Hh Hc. unfold substract.
  destruct (pair_intersect h cur) eqn:E; unfold pair_intersect in E; cbn [negb].
  - destruct (Z.ltb_spec (fst h) (fst cur)); destruct (Z.ltb_spec (snd cur) (snd h)); cbn [app];
      (conj3;
       [ split; repeat constructor; cbn; lia
       | intros x; rewrite ?mem0_cons, mem0_nil; cbn; lia
       | intros e He; cbn in He; intuition subst; cbn; lia ]).
  - conj3.
    + apply wf0_single; auto.
    + intros x. rewrite mem0_cons, mem0_nil. lia.
    + intros e [<-|[]]; lia.
Qed.

Lemma pair_intersect_sym a b : pair_intersect a b = pair_intersect b a.
Proof. unfold pair_intersect. lia. Qed.

Lemma mem0_lower l b x : (forall e, In e l -> b <= fst e) -> mem0 l x -> b <= x.
Proof. intros H (e & He & Hx). specialize (H e He). lia. Qed.

Lemma remove_loop_spec range : forall cur,
  wf0 range -> fst cur < snd cur ->
  (forall e, In e (tl range) -> fst cur < fst e) ->
  let '(r, n) := remove_loop range cur in
  wf0 r /\ (forall x, mem0 r x <-> mem0 range x /\ ~ (fst cur <= x < snd cur)) /\
  n = Z.of_nat (length r) - Z.of_nat (length range) /\
  (forall b, (forall e, In e range -> b < fst e) -> forall e, In e r -> b < fst e).
Proof.
  induction range as [|h t IH]; intros cur Hwf Hc Htl.
  - cbn. conj4; auto.
    intros x. rewrite mem0_nil. tauto.
  - apply wf0_cons in Hwf. destruct Hwf as (Hh & Hlt & Hwt).
    cbn [tl] in Htl. cbn [remove_loop].
    set (new := if pair_intersect cur h then substract h cur else [h]).
    assert (Hnew : wf0 new /\
      (forall x, mem0 new x <-> fst h <= x < snd h /\ ~ (fst cur <= x < snd cur)) /\
      (forall e, In e new -> fst h <= fst e /\ snd e <= snd h)).
    { subst new. rewrite pair_intersect_sym.
      pose proof (substract_spec h cur Hh Hc) as H. unfold substract in *.
      destruct (pair_intersect h cur) eqn:E; auto. }
    assert (Hrec :
      let '(r, n) := match t with
          | [] => ([], 0)
          | h' :: _ => if pair_intersect h' cur then remove_loop t cur else (t, 0)
          end in
      wf0 r /\ (forall x, mem0 r x <-> mem0 t x /\ ~ (fst cur <= x < snd cur)) /\
      n = Z.of_nat (length r) - Z.of_nat (length t) /\
      (forall b, (forall e, In e t -> b < fst e) -> forall e, In e r -> b < fst e)).
    { destruct t as [|h' t'].
      - conj4; auto. intros x. rewrite mem0_nil. tauto.
      - destruct (pair_intersect h' cur) eqn:E.
        + apply IH; auto. intros e He. apply Htl. right; auto.
        + conj4; auto.
          * intros x. split; [|tauto]. intros Hm; split; auto.
            apply (mem0_lower _ (fst h')) in Hm.
            -- assert (fst cur < fst h') by (apply Htl; left; auto).
               unfold pair_intersect in E.
               assert (Hh' : fst h' < snd h') by (eapply wf0_in; eauto; left; auto).
               lia.
            -- intros e [<-|He]; [lia|]. apply wf0_cons in Hwt.
               destruct Hwt as (? & Hb & _). specialize (Hb e He). lia.
          * lia. }
    destruct (match t with
          | [] => ([], 0)
          | h' :: _ => if pair_intersect h' cur then remove_loop t cur else (t, 0)
          end) as [r n].
    destruct Hrec as (Hr1 & Hr2 & Hr3 & Hr4). destruct Hnew as (Hn1 & Hn2 & Hn3).
    conj4.
    + apply wf0_app. split; auto. split; auto.
      intros a b Ha Hb. specialize (Hn3 a Ha). specialize (Hr4 (snd h) Hlt b Hb). lia.
    + intros x. rewrite mem0_app, Hn2, Hr2, mem0_cons. tauto.
    + rewrite app_length. cbn [length]. lia.
    + intros b Hb e He. apply in_app_iff in He. destruct He as [He|He].
      * specialize (Hn3 e He). specialize (Hb h (or_introl eq_refl)). lia.
      * apply Hr4; auto. intros; apply Hb; right; auto.
Qed.
