(** The flat offset vectors refine the tree view: insertion, removal and
    lookup on the vectors commute with the same operations on trees. *)
From Verif Require Import Base ListFacts RegionModel RegionTree.
From Coq Require Import Sorted.

(** ** Tree operations *)

Definition tins0 (l : vec) (cur : Z * Z) : vec := fst (insert_level0 l cur 0 (length l)).
Definition trem0 (l : vec) (cur : Z * Z) : vec := fst (remove_level0 l cur 0 (length l)).

Fixpoint kupd {A} (c : Z) (f : option A -> A) (l : list (Z * A)) : list (Z * A) :=
  match l with
  | [] => [(c, f None)]
  | (k, a) :: l' =>
      if k <? c then (k, a) :: kupd c f l'
      else if k =? c then (c, f (Some a)) :: l'
      else (c, f None) :: (k, a) :: l'
  end.

Fixpoint krem {A} (c : Z) (f : A -> A) (isnil : A -> bool) (l : list (Z * A)) : list (Z * A) :=
  match l with
  | [] => []
  | (k, a) :: l' =>
      if k =? c then (if isnil (f a) then l' else (c, f a) :: l')
      else (k, a) :: krem c f isnil l'
  end.

Definition odef {A} (d : A) (o : option A) : A := match o with Some a => a | None => d end.

Fixpoint tins (d : nat) : tree d -> list Z -> Z * Z -> tree d :=
  match d return tree d -> list Z -> Z * Z -> tree d with
  | O => fun t _ cur => tins0 t cur
  | S d' => fun t pre cur =>
      match pre with
      | [] => t
      | c :: pre' => kupd c (fun o => tins d' (odef (tempty d') o) pre' cur) t
      end
  end.

Definition tnil {d} (t : tree d) : bool := (tlen t =? 0)%nat.

Fixpoint trem (d : nat) : tree d -> list Z -> Z * Z -> tree d :=
  match d return tree d -> list Z -> Z * Z -> tree d with
  | O => fun t _ cur => trem0 t cur
  | S d' => fun t pre cur =>
      match pre with
      | [] => t
      | c :: pre' => krem c (fun s => trem d' s pre' cur) tnil t
      end
  end.

Fixpoint tmem (d : nat) : tree d -> list Z -> Z -> Prop :=
  match d return tree d -> list Z -> Z -> Prop with
  | O => fun t pre x => pre = [] /\ mem0 t x
  | S d' => fun t pre x =>
      match pre with
      | [] => False
      | c :: pre' => exists s, In (c, s) t /\ tmem d' s pre' x
      end
  end.

Definition klt {A} (a b : Z * A) : Prop := fst a < fst b.

Fixpoint twf (d : nat) : tree d -> Prop :=
  match d return tree d -> Prop with
  | O => fun t => wf0 t
  | S d' => fun t => StronglySorted klt t /\ Forall (fun p => tlen (snd p) <> O /\ twf d' (snd p)) t
  end.

Lemma tlen_S d (t : tree (S d)) : tlen t = @length (Z * tree d) t.
Proof. reflexivity. Qed.
Lemma tlen_0 (t : tree 0) : tlen t = @length (Z * Z) t.
Proof. reflexivity. Qed.

Lemma twf_empty d : twf d (tempty d).
Proof. destruct d; cbn; [apply wf0_nil|split; constructor]. Qed.

Lemma tmem_empty d pre x : tmem d (tempty d) pre x <-> False.
Proof.
  destruct d; cbn.
  - rewrite mem0_nil. tauto.
  - destruct pre; [tauto|]. split; [intros (s & [] & _)|tauto].
Qed.

(** ** upper_bound *)

Lemma count_while_app {A} (p : A -> bool) l1 l2 :
  (forall e, In e l1 -> p e = true) -> (forall e, In e l2 -> p e = false) ->
  count_while p (l1 ++ l2) = length l1.
Proof.
  intros H1 H2. induction l1 as [|a l1 IH]; cbn.
  - destruct l2 as [|b l2]; cbn; auto. rewrite H2; cbn; auto.
  - rewrite H1 by (left; auto). rewrite IH; auto. intros; apply H1; right; auto.
Qed.

Lemma count_while_map {A B} (f : A -> B) (p : B -> bool) l :
  count_while p (map f l) = count_while (fun a => p (f a)) l.
Proof. induction l; cbn; auto. destruct (p (f a)); auto. Qed.

Lemma split_sorted {A} (l : list (Z * A)) c :
  StronglySorted klt l ->
  exists l1 l2, l = l1 ++ l2 /\ (forall e, In e l1 -> fst e <= c) /\ (forall e, In e l2 -> c < fst e).
Proof.
  induction l as [|a l IH]; intros H.
  - exists [], []. cbn. repeat split; intros ? [].
  - apply ss_cons in H. destruct H as [H1 H2].
    destruct (Z.leb_spec (fst a) c).
    + destruct (IH H1) as (l1 & l2 & -> & Ha & Hb).
      exists (a :: l1), l2. repeat split; auto. intros e [<-|He]; auto.
    + exists [], (a :: l). repeat split; [intros ? []|].
      intros e [<-|He]; auto. specialize (H2 e He). unfold klt in H2. lia.
Qed.

Lemma wf0_klt l : wf0 l -> StronglySorted klt l.
Proof.
  induction l as [|a l IH]; intros H; [constructor|].
  apply wf0_cons in H. destruct H as (H1 & H2 & H3).
  apply ss_cons. split; auto. intros y Hy. specialize (H2 y Hy). unfold klt. lia.
Qed.

Lemma upper_bound_ctx (A l1 l2 C : vec) c :
  (forall e, In e l1 -> fst e <= c) -> (forall e, In e l2 -> c < fst e) ->
  upper_bound (A ++ (l1 ++ l2) ++ C) (length A) (length A + length (l1 ++ l2)) c =
  (length A + length l1)%nat.
Proof.
  intros H1 H2. unfold upper_bound. f_equal.
  rewrite skipn_app_exact by auto.
  rewrite firstn_app_exact by lia.
  apply count_while_app; intros e He.
  - apply H1 in He. lia.
  - apply H2 in He. lia.
Qed.

(** ** Level 0 in context *)

Lemma range_app (P A r C : vec) cursor fin :
  cursor = length P -> fin = (length P + length r)%nat ->
  firstn (fin - cursor) (skipn cursor (P ++ r ++ C)) = r /\
  firstn cursor (P ++ r ++ C) = P /\ skipn fin (P ++ r ++ C) = C.
Proof.
  intros -> ->. repeat split.
  - rewrite skipn_app_exact by auto. apply firstn_app_exact. lia.
  - now apply firstn_app_exact.
  - rewrite app_assoc. apply skipn_app_exact. rewrite app_length. lia.
Qed.

(** The cursor splits the range into an untouched prefix and the part on which
    the loop runs. *)
Lemma level0_cursor (M : vec) c :
  wf0 M ->
  exists P R, M = P ++ R /\ wf0 P /\ wf0 R /\
    (forall e, In e (tl R) -> c < fst e) /\
    (forall e, In e P -> snd e < c) /\
    (forall e e', In e P -> In e' R -> snd e < fst e') /\
    (forall A C, let ub := upper_bound (A ++ M ++ C) (length A) (length A + length M) c in
       (if (ub =? length A)%nat then ub else (ub - 1)%nat) = (length A + length P)%nat) /\
    (P = [] \/ exists h t, R = h :: t /\ fst h <= c).
Proof.
  intros Hwf.
  destruct (split_sorted M c (wf0_klt _ Hwf)) as (l1 & l2 & -> & H1 & H2).
  destruct (list_snoc_cases l1) as [->|(P & h & ->)].
  - exists [], l2. cbn [app] in *.
    refine (conj eq_refl (conj wf0_nil (conj Hwf _))).
    refine (conj _ (conj _ (conj _ (conj _ (or_introl eq_refl))))).
    + intros e He. apply H2. destruct l2; [destruct He|right; auto].
    + intros e [].
    + intros e e' [].
    + intros A C. cbv zeta.
      pose proof (upper_bound_ctx A [] l2 C c H1 H2) as Hub. cbn [app length] in Hub.
      rewrite Hub. cbn. rewrite Nat.add_0_r, Nat.eqb_refl. reflexivity.
  - exists P, (h :: l2). rewrite <- app_assoc in *. cbn [app] in *.
    pose proof Hwf as Hwf'. apply wf0_app in Hwf'. destruct Hwf' as (Hp & Hr & Hpr).
    refine (conj eq_refl (conj Hp (conj Hr _))).
    refine (conj _ (conj _ (conj _ (conj _ _)))); auto.
    + intros e He. specialize (Hpr e h He (or_introl eq_refl)).
      specialize (H1 h). rewrite in_app_iff in H1. cbn in H1. specialize (H1 (or_intror (or_introl eq_refl))). lia.
    + intros A C. cbv zeta.
      pose proof (upper_bound_ctx A (P ++ [h]) l2 C c H1 H2) as Hub.
      rewrite <- (app_assoc P) in Hub. cbn [app] in Hub. rewrite Hub.
      rewrite app_length. cbn [length].
      destruct (Nat.eqb_spec (length A + (length P + 1)) (length A)); lia.
    + right. exists h, l2. split; auto. apply H1. rewrite in_app_iff. right; left; auto.
Qed.

Lemma insert_level0_spec (M : vec) cur :
  wf0 M -> fst cur < snd cur ->
  wf0 (tins0 M cur) /\
  (forall x, mem0 (tins0 M cur) x <-> mem0 M x \/ fst cur <= x < snd cur) /\
  (forall A C, insert_level0 (A ++ M ++ C) cur (length A) (length A + length M) =
               (A ++ tins0 M cur ++ C, Z.of_nat (length (tins0 M cur)) - Z.of_nat (length M))).
Proof.
  intros Hwf Hc.
  destruct (level0_cursor M (fst cur) Hwf) as (P & R & HM & Hp & Hr & Htl & HPc & HPR & Hcur & Hnil).
  pose proof (insert_loop_spec R cur Hr Hc Htl) as Hl.
  destruct (insert_loop R cur) as [r n] eqn:El.
  destruct Hl as (Hr1 & Hr2 & Hr3 & Hr4).
  assert (Hgen : forall A C, insert_level0 (A ++ M ++ C) cur (length A) (length A + length M) =
               (A ++ (P ++ r) ++ C, Z.of_nat (length (P ++ r)) - Z.of_nat (length M))).
  { intros A C. unfold insert_level0. specialize (Hcur A C). cbv zeta in Hcur. rewrite Hcur.
    replace (A ++ M ++ C) with ((A ++ P) ++ R ++ C) by (rewrite HM, !app_assoc; reflexivity).
    destruct (range_app (A ++ P) A R C (length A + length P) (length A + length M)) as (E1 & E2 & E3).
    { rewrite app_length; lia. }
    { rewrite HM, !app_length; lia. }
    rewrite E1, E2, E3, El. f_equal.
    - now rewrite !app_assoc.
    - rewrite HM, !app_length. lia. }
  assert (Ht : tins0 M cur = P ++ r).
  { unfold tins0. pose proof (Hgen [] []) as H. cbn [app length Nat.add] in H.
    rewrite app_nil_r in H. rewrite H. cbn [fst]. now rewrite app_nil_r. }
  rewrite Ht. conj3; auto.
  - apply wf0_app. split; [exact Hp|]. split; [exact Hr1|].
    intros x y Hx Hy. apply (Hr4 (snd x)); auto.
  - intros x. rewrite HM, !mem0_app, Hr2. tauto.
Qed.

Lemma remove_level0_spec (M : vec) cur :
  wf0 M -> fst cur < snd cur ->
  wf0 (trem0 M cur) /\
  (forall x, mem0 (trem0 M cur) x <-> mem0 M x /\ ~ (fst cur <= x < snd cur)) /\
  (forall A C, remove_level0 (A ++ M ++ C) cur (length A) (length A + length M) =
               (A ++ trem0 M cur ++ C, Z.of_nat (length (trem0 M cur)) - Z.of_nat (length M))).
Proof.
  intros Hwf Hc.
  destruct (level0_cursor M (fst cur) Hwf) as (P & R & HM & Hp & Hr & Htl & HPc & HPR & Hcur & Hnil).
  pose proof (remove_loop_spec R cur Hr Hc Htl) as Hl.
  destruct (remove_loop R cur) as [r n] eqn:El.
  destruct Hl as (Hr1 & Hr2 & Hr3 & Hr4).
  assert (Hgen : forall A C, remove_level0 (A ++ M ++ C) cur (length A) (length A + length M) =
               (A ++ (P ++ r) ++ C, Z.of_nat (length (P ++ r)) - Z.of_nat (length M))).
  { intros A C. unfold remove_level0. specialize (Hcur A C). cbv zeta in Hcur. rewrite Hcur.
    replace (A ++ M ++ C) with ((A ++ P) ++ R ++ C) by (rewrite HM, !app_assoc; reflexivity).
    destruct (range_app (A ++ P) A R C (length A + length P) (length A + length M)) as (E1 & E2 & E3).
    { rewrite app_length; lia. }
    { rewrite HM, !app_length; lia. }
    rewrite E1, E2, E3, El. f_equal.
    - now rewrite !app_assoc.
    - rewrite HM, !app_length. lia. }
  assert (Ht : trem0 M cur = P ++ r).
  { unfold trem0. pose proof (Hgen [] []) as H. cbn [app length Nat.add] in H.
    rewrite app_nil_r in H. rewrite H. cbn [fst]. now rewrite app_nil_r. }
  rewrite Ht. conj3; auto.
  - apply wf0_app. split; [exact Hp|]. split; [exact Hr1|].
    intros x y Hx Hy. apply (Hr4 (snd x)); auto.
  - intros x. rewrite HM, !mem0_app, Hr2. split; [|tauto].
    intros [HPx|H]; [|tauto]. split; auto.
    destruct HPx as (e & He & Hx). specialize (HPc e He). lia.
Qed.

(** ** Keyed levels *)

Lemma key_cases {A} (l : list (Z * A)) c :
  StronglySorted klt l ->
  (exists l1 s l2, l = l1 ++ (c, s) :: l2 /\
     (forall e, In e l1 -> fst e < c) /\ (forall e, In e l2 -> c < fst e)) \/
  (exists l1 l2, l = l1 ++ l2 /\
     (forall e, In e l1 -> fst e < c) /\ (forall e, In e l2 -> c < fst e)).
Proof.
  induction l as [|[k a] l IH]; intros H.
  - right. exists [], []. repeat split; intros ? [].
  - apply ss_cons in H. destruct H as [H1 H2].
    destruct (Z.lt_trichotomy k c) as [Hk|[->|Hk]].
    + destruct (IH H1) as [(l1 & s & l2 & -> & Ha & Hb)|(l1 & l2 & -> & Ha & Hb)].
      * left. exists ((k, a) :: l1), s, l2. repeat split; auto. intros e [<-|He]; auto.
      * right. exists ((k, a) :: l1), l2. repeat split; auto. intros e [<-|He]; auto.
    + left. exists [], a, l. repeat split; [intros ? []|]. intros e He. exact (H2 e He).
    + right. exists [], ((k, a) :: l). repeat split; [intros ? []|].
      intros e [<-|He]; auto. specialize (H2 e He). unfold klt in H2; cbn in *. lia.
Qed.

Lemma kupd_found {A} c (f : option A -> A) l1 s l2 :
  (forall e, In e l1 -> fst e < c) -> kupd c f (l1 ++ (c, s) :: l2) = l1 ++ (c, f (Some s)) :: l2.
Proof.
  induction l1 as [|[k a] l1 IH]; intros H; cbn.
  - now rewrite Z.ltb_irrefl, Z.eqb_refl.
  - pose proof (H (k, a) (or_introl eq_refl)) as Hk. cbn in Hk.
    destruct (Z.ltb_spec k c); [|lia]. f_equal. apply IH. intros; apply H; right; auto.
Qed.

Lemma kupd_new {A} c (f : option A -> A) l1 l2 :
  (forall e, In e l1 -> fst e < c) -> (forall e, In e l2 -> c < fst e) ->
  kupd c f (l1 ++ l2) = l1 ++ (c, f None) :: l2.
Proof.
  induction l1 as [|[k a] l1 IH]; intros H H'; cbn.
  - destruct l2 as [|[k a] l2]; cbn; auto.
    pose proof (H' (k, a) (or_introl eq_refl)) as Hk. cbn in Hk.
    destruct (Z.ltb_spec k c); [lia|]. destruct (Z.eqb_spec k c); [lia|]. auto.
  - pose proof (H (k, a) (or_introl eq_refl)) as Hk. cbn in Hk.
    destruct (Z.ltb_spec k c); [|lia]. f_equal. apply IH; auto. intros; apply H; right; auto.
Qed.

Lemma krem_found {A} c (f : A -> A) isnil l1 s l2 :
  (forall e, In e l1 -> fst e < c) ->
  krem c f isnil (l1 ++ (c, s) :: l2) = l1 ++ (if isnil (f s) then l2 else (c, f s) :: l2).
Proof.
  induction l1 as [|[k a] l1 IH]; intros H; cbn.
  - now rewrite Z.eqb_refl.
  - pose proof (H (k, a) (or_introl eq_refl)) as Hk. cbn in Hk.
    destruct (Z.eqb_spec k c); [lia|]. f_equal. apply IH. intros; apply H; right; auto.
Qed.

Lemma krem_none {A} c (f : A -> A) isnil l :
  (forall e, In e l -> fst e <> c) -> krem c f isnil l = l.
Proof.
  induction l as [|[k a] l IH]; intros H; cbn; auto.
  pose proof (H (k, a) (or_introl eq_refl)) as Hk. cbn in Hk.
  destruct (Z.eqb_spec k c); [lia|]. f_equal. apply IH. intros; apply H; right; auto.
Qed.

Lemma klt_mid {A} l1 c (s : A) l2 :
  StronglySorted klt l1 -> StronglySorted klt l2 ->
  (forall e, In e l1 -> fst e < c) -> (forall e, In e l2 -> c < fst e) ->
  StronglySorted klt (l1 ++ (c, s) :: l2).
Proof.
  intros. apply ss_app. split; [auto|]. split.
  - apply ss_cons. split; auto.
  - intros x y Hx [<-|Hy].
    + unfold klt; cbn; auto.
    + unfold klt. specialize (H1 x Hx). specialize (H2 y Hy). lia.
Qed.

Lemma klt_cat {A} (l1 l2 : list (Z * A)) c :
  StronglySorted klt l1 -> StronglySorted klt l2 ->
  (forall e, In e l1 -> fst e < c) -> (forall e, In e l2 -> c < fst e) ->
  StronglySorted klt (l1 ++ l2).
Proof.
  intros. apply ss_app. split; [auto|]. split; [auto|].
  intros x y Hx Hy. unfold klt. specialize (H1 x Hx). specialize (H2 y Hy). lia.
Qed.

(** Membership in a keyed list around one key. *)
Lemma in_mid {A} (l1 : list (Z * A)) (c : Z) (s : A) l2 (k : Z) (a : A) :
  In (k, a) (l1 ++ (c, s) :: l2) <-> In (k, a) l1 \/ (k = c /\ a = s) \/ In (k, a) l2.
Proof.
  rewrite in_app_iff. cbn. split; intros [H|[H|H]]; auto.
  - inversion H; auto.
  - destruct H; subst; auto.
Qed.

Lemma tins_len d : forall (t : tree d) pre cur,
  twf d t -> length pre = d -> fst cur < snd cur -> tlen (tins d t pre cur) <> O.
Proof.
  destruct d; intros t pre cur Hwf Hlen Hc.
  - cbn. destruct (insert_level0_spec t cur Hwf Hc) as (_ & H & _).
    destruct (tins0 t cur) eqn:E; cbn; [|lia].
    specialize (H (fst cur)). rewrite mem0_nil in H. exfalso. apply H. right. lia.
  - destruct pre as [|c pre]; [discriminate|]. cbn in Hwf |- *. destruct Hwf as [Hs _].
    destruct (key_cases t c Hs) as [(l1 & s & l2 & E & H1 & H2)|(l1 & l2 & E & H1 & H2)];
      rewrite E; [rewrite kupd_found by auto|rewrite kupd_new by auto];
      rewrite app_length; cbn; lia.
Qed.

Lemma tins_spec d : forall (t : tree d) pre cur,
  twf d t -> length pre = d -> fst cur < snd cur ->
  twf d (tins d t pre cur) /\
  forall p x, tmem d (tins d t pre cur) p x <->
              tmem d t p x \/ (p = pre /\ fst cur <= x < snd cur).
Proof.
  induction d as [|d IH]; intros t pre cur Hwf Hlen Hc.
  - destruct pre; [|discriminate]. cbn in *.
    destruct (insert_level0_spec t cur Hwf Hc) as (H1 & H2 & _).
    split; auto. intros p x. rewrite H2. tauto.
  - destruct pre as [|c pre]; [discriminate|]. injection Hlen as Hlen.
    cbn in Hwf. destruct Hwf as [Hs Hf].
    cbn [tins twf].
    destruct (key_cases t c Hs) as [(l1 & s & l2 & E & H1 & H2)|(l1 & l2 & E & H1 & H2)].
    + rewrite E in *. apply ss_app in Hs. destruct Hs as (Hs1 & Hs2 & _).
      apply ss_cons in Hs2. destruct Hs2 as [Hs2 _].
      apply Forall_app in Hf. destruct Hf as [Hf1 Hf2]. apply Forall_cons_iff' in Hf2.
      cbn in Hf2. destruct Hf2 as ((Hn & Hw) & Hf2).
      rewrite kupd_found by auto. cbn [odef].
      destruct (IH s pre cur Hw Hlen Hc) as [IHw IHm].
      split.
      * split; [apply klt_mid; auto|].
        apply Forall_app. split; auto. constructor; auto. cbn. split; auto.
        apply tins_len; auto.
      * intros p x. destruct p as [|k p]; cbn [tmem]; [split; [tauto|intros [[]|[? _]]; discriminate]|].
        split.
        -- intros (s' & Hin & Hm). apply in_mid in Hin. destruct Hin as [Hin|[[-> ->]|Hin]].
           ++ left. exists s'. split; auto. apply in_mid; auto.
           ++ apply IHm in Hm. destruct Hm as [Hm|[-> Hm]]; [|right; auto].
              left. exists s. split; auto. apply in_mid; auto.
           ++ left. exists s'. split; auto. apply in_mid; auto.
        -- intros [(s' & Hin & Hm)|[Heq Hx]].
           ++ apply in_mid in Hin. destruct Hin as [Hin|[[-> ->]|Hin]].
              ** exists s'. split; auto. apply in_mid; auto.
              ** exists (tins d s pre cur). split; [apply in_mid; auto|]. apply IHm; auto.
              ** exists s'. split; auto. apply in_mid; auto.
           ++ injection Heq as -> ->. exists (tins d s pre cur). split; [apply in_mid; auto|].
              apply IHm; auto.
    + rewrite E in *. apply ss_app in Hs. destruct Hs as (Hs1 & Hs2 & _).
      apply Forall_app in Hf. destruct Hf as [Hf1 Hf2].
      rewrite kupd_new by auto. cbn [odef].
      destruct (IH (tempty d) pre cur (twf_empty d) Hlen Hc) as [IHw IHm].
      split.
      * split; [apply klt_mid; auto|].
        apply Forall_app. split; auto. constructor; auto. cbn. split; auto.
        apply tins_len; auto. apply twf_empty.
      * intros p x. destruct p as [|k p]; cbn [tmem]; [split; [tauto|intros [[]|[? _]]; discriminate]|].
        split.
        -- intros (s' & Hin & Hm). apply in_mid in Hin. destruct Hin as [Hin|[[-> ->]|Hin]].
           ++ left. exists s'. split; auto. apply in_app_iff; auto.
           ++ apply IHm in Hm. rewrite tmem_empty in Hm. destruct Hm as [[]|[-> Hm]]. right; auto.
           ++ left. exists s'. split; auto. apply in_app_iff; auto.
        -- intros [(s' & Hin & Hm)|[Heq Hx]].
           ++ apply in_app_iff in Hin. exists s'. split; auto. apply in_mid. tauto.
           ++ injection Heq as -> ->. exists (tins d (tempty d) pre cur). split; [apply in_mid; auto|].
              apply IHm; auto.
Qed.

Lemma tlen_zero_mem d (t : tree d) p x : tlen t = O -> ~ tmem d t p x.
Proof.
  destruct d; cbn; intros H.
  - destruct t; [|discriminate]. rewrite mem0_nil. tauto.
  - destruct t; [|discriminate]. destruct p; [tauto|]. intros (s & [] & _).
Qed.

Lemma trem_spec d : forall (t : tree d) pre cur,
  twf d t -> length pre = d -> fst cur < snd cur ->
  twf d (trem d t pre cur) /\
  forall p x, tmem d (trem d t pre cur) p x <->
              tmem d t p x /\ ~ (p = pre /\ fst cur <= x < snd cur).
Proof.
  induction d as [|d IH]; intros t pre cur Hwf Hlen Hc.
  - destruct pre; [|discriminate]. cbn in *.
    destruct (remove_level0_spec t cur Hwf Hc) as (H1 & H2 & _).
    split; auto. intros p x. rewrite H2. tauto.
  - destruct pre as [|c pre]; [discriminate|]. injection Hlen as Hlen.
    cbn in Hwf. destruct Hwf as [Hs Hf].
    cbn [trem twf].
    destruct (key_cases t c Hs) as [(l1 & s & l2 & E & H1 & H2)|(l1 & l2 & E & H1 & H2)].
    + rewrite E in *. apply ss_app in Hs. destruct Hs as (Hs1 & Hs2 & _).
      apply ss_cons in Hs2. destruct Hs2 as [Hs2 _].
      apply Forall_app in Hf. destruct Hf as [Hf1 Hf2]. apply Forall_cons_iff' in Hf2.
      cbn in Hf2. destruct Hf2 as ((Hn & Hw) & Hf2).
      rewrite krem_found by auto.
      destruct (IH s pre cur Hw Hlen Hc) as [IHw IHm].
      assert (Hkey : forall k s', In (k, s') l1 \/ In (k, s') l2 -> k <> c).
      { intros k s' [H|H]; [apply H1 in H|apply H2 in H]; cbn in H; lia. }
      unfold tnil. destruct (Nat.eqb_spec (tlen (trem d s pre cur)) 0) as [Hz|Hz].
      * split.
        -- split; [eapply klt_cat; eauto|]. apply Forall_app; auto.
        -- intros p x. destruct p as [|k p]; cbn [tmem]; [tauto|]. split.
           ++ intros (s' & Hin & Hm). apply in_app_iff in Hin. split.
              ** exists s'. split; auto. apply in_mid. tauto.
              ** intros [Heq _]. injection Heq as -> ->. now apply (Hkey c s') in Hin.
           ++ intros ((s' & Hin & Hm) & Hno). apply in_mid in Hin.
              destruct Hin as [Hin|[[-> ->]|Hin]].
              ** exists s'. rewrite in_app_iff; auto.
              ** exfalso. apply (tlen_zero_mem _ _ p x Hz). apply IHm. split; auto.
                 intros [-> Hx]. apply Hno. auto.
              ** exists s'. rewrite in_app_iff; auto.
      * split.
        -- split; [apply klt_mid; auto|].
           apply Forall_app. split; auto.
        -- intros p x. destruct p as [|k p]; cbn [tmem]; [tauto|]. split.
           ++ intros (s' & Hin & Hm). apply in_mid in Hin. destruct Hin as [Hin|[[-> ->]|Hin]].
              ** split; [exists s'; rewrite in_mid; auto|].
                 intros [Heq _]. injection Heq as -> ->. apply (Hkey c s'); auto.
              ** apply IHm in Hm. destruct Hm as [Hm Hno]. split; [exists s; rewrite in_mid; auto|].
                 intros [Heq Hx]. injection Heq as ->. auto.
              ** split; [exists s'; rewrite in_mid; auto|].
                 intros [Heq _]. injection Heq as -> ->. apply (Hkey c s'); auto.
           ++ intros ((s' & Hin & Hm) & Hno). apply in_mid in Hin.
              destruct Hin as [Hin|[[-> ->]|Hin]].
              ** exists s'. rewrite in_mid; auto.
              ** exists (trem d s pre cur). rewrite in_mid. split; auto. apply IHm. split; auto.
                 intros [-> Hx]. apply Hno. auto.
              ** exists s'. rewrite in_mid; auto.
    + assert (Hkey : forall e, In e t -> fst e <> c).
      { intros e He. rewrite E in He. apply in_app_iff in He. destruct He as [He|He];
        [apply H1 in He|apply H2 in He]; lia. }
      rewrite krem_none by auto. split; [split; auto|].
      intros p x. destruct p as [|k p]; cbn [tmem]; [tauto|]. split; [|tauto].
      intros (s' & Hin & Hm). split; [eauto|]. intros [Heq _]. injection Heq as -> ->.
      now apply Hkey in Hin.
Qed.

(** ** Canonicity *)

Lemma wf0_ext (a b : vec) : wf0 a -> wf0 b -> (forall x, mem0 a x <-> mem0 b x) -> a = b.
Proof.
  revert b. induction a as [|h a IH]; intros b Ha Hb Hext.
  - destruct b as [|h b]; auto. exfalso. apply wf0_cons in Hb.
    apply (mem0_nil (fst h)). apply Hext. apply mem0_cons. lia.
  - destruct b as [|k b].
    { exfalso. apply wf0_cons in Ha.
      apply (mem0_nil (fst h)). apply Hext. apply mem0_cons. lia. }
    assert (Hlow : forall (e : Z * Z) l x, wf0 (e :: l) -> mem0 (e :: l) x -> fst e <= x /\ (x < snd e \/ (snd e < x /\ mem0 l x))).
    { intros e l x Hw Hm. apply wf0_cons in Hw. destruct Hw as (H1 & H2 & H3).
      apply mem0_cons in Hm. destruct Hm as [Hm|(e' & He & Hx)]; [lia|].
      pose proof (H2 e' He). split; [lia|]. right. split; [lia|]. exists e'; auto. }
    pose proof Ha as Ha'. pose proof Hb as Hb'. apply wf0_cons in Ha', Hb'.
    destruct Ha' as (Ha1 & Ha2 & Ha3), Hb' as (Hb1 & Hb2 & Hb3).
    assert (Hmk : forall (e : Z * Z) l x, fst e <= x < snd e -> mem0 (e :: l) x) by (intros; apply mem0_cons; auto).
    assert (H1 : fst h = fst k).
    { assert (mem0 (k :: b) (fst h)) by (apply Hext; apply Hmk; lia).
      assert (mem0 (h :: a) (fst k)) by (apply Hext; apply Hmk; lia).
      apply Hlow in H; auto. apply Hlow in H0; auto. lia. }
    assert (H2 : snd h = snd k).
    { destruct (Z.lt_trichotomy (snd h) (snd k)) as [Hlt|[|Hlt]]; auto; exfalso.
      - assert (H : mem0 (h :: a) (snd h)) by (apply Hext; apply Hmk; lia).
        apply Hlow in H; auto. lia.
      - assert (H : mem0 (k :: b) (snd k)) by (apply Hext; apply Hmk; lia).
        apply Hlow in H; auto. lia. }
    assert (h = k) by (destruct h, k; cbn in *; congruence). subst k. f_equal.
    apply IH; auto. intros x.
    destruct (Z.le_gt_cases x (snd h)).
    + split; intros (e & He & Hx); exfalso;
        [pose proof (Ha2 e He)|pose proof (Hb2 e He)]; lia.
    + specialize (Hext x). rewrite !mem0_cons in Hext. split; intros Hm.
      * destruct Hext as [Hext _]. destruct Hext; auto. lia.
      * destruct Hext as [_ Hext]. destruct Hext; auto. lia.
Qed.

Lemma twf_nonempty d : forall t : tree d, twf d t -> tlen t <> O ->
  exists p x, length p = d /\ tmem d t p x.
Proof.
  induction d as [|d IH]; intros t Hw Hn; cbn in Hw, Hn.
  - destruct t as [|e t]; [now destruct Hn|]. exists [], (fst e). split; auto. cbn. split; auto.
    apply mem0_cons. apply wf0_cons in Hw. lia.
  - destruct t as [|[c s] t]; [now destruct Hn|]. destruct Hw as [_ Hf].
    apply Forall_cons_iff' in Hf. cbn in Hf. destruct Hf as [[Hs Hw] _].
    destruct (IH s Hw Hs) as (p & x & Hl & Hm).
    exists (c :: p), x. split; [cbn; auto|]. cbn. exists s. split; [left; reflexivity|exact Hm].
Qed.

Lemma klt_unique {A} (l : list (Z * A)) c s s' :
  StronglySorted klt l -> In (c, s) l -> In (c, s') l -> s = s'.
Proof.
  intros Hs. induction l as [|[k a] l IH]; intros H1 H2; [destruct H1|].
  apply ss_cons in Hs. destruct Hs as [Hs Hlt].
  destruct H1 as [H1|H1], H2 as [H2|H2].
  - congruence.
  - inversion H1; subst. apply Hlt in H2. unfold klt in H2; cbn in H2; lia.
  - inversion H2; subst. apply Hlt in H1. unfold klt in H1; cbn in H1; lia.
  - auto.
Qed.

Lemma twf_ext d : forall a b : tree d,
  twf d a -> twf d b -> (forall p x, length p = d -> (tmem d a p x <-> tmem d b p x)) -> a = b.
Proof.
  induction d as [|d IH].
  - cbn. intros a b Ha Hb H. apply wf0_ext; auto. intros x. specialize (H [] x eq_refl). tauto.
  - intros a. cbn [tree] in a. induction a as [|[c s] a IHa]; intros b Ha Hb Hext.
    + destruct b as [|[c s] b]; auto. exfalso.
      destruct (twf_nonempty (S d) ((c, s) :: b) Hb) as (p & x & Hl & Hm); [cbn; lia|].
      apply Hext in Hm; auto. destruct p; cbn in Hm; auto. destruct Hm as (? & [] & _).
    + destruct b as [|[c' s'] b].
      { exfalso. destruct (twf_nonempty (S d) ((c, s) :: a) Ha) as (p & x & Hl & Hm); [cbn; lia|].
        apply Hext in Hm; auto. destruct p; cbn in Hm; auto. destruct Hm as (? & [] & _). }
      cbn in Ha, Hb. destruct Ha as [Has Haf], Hb as [Hbs Hbf].
      pose proof Has as Has0. pose proof Hbs as Hbs0.
      apply ss_cons in Has, Hbs. destruct Has as [Has Hal], Hbs as [Hbs Hbl].
      apply Forall_cons_iff' in Haf, Hbf. cbn in Haf, Hbf.
      destruct Haf as [[Hsn Hsw] Haf], Hbf as [[Hsn' Hsw'] Hbf].
      assert (Hmin : forall (k : Z) (u : tree d) l v, StronglySorted klt ((k, u) :: l) -> In v ((k, u) :: l) -> k <= fst v).
      { intros k u l v Hss [<-|Hin]; cbn; [lia|]. apply ss_cons in Hss. destruct Hss as [_ Hss].
        specialize (Hss v Hin). unfold klt in Hss; cbn in Hss; lia. }
      assert (c = c').
      { destruct (twf_nonempty d s Hsw Hsn) as (p & x & Hl & Hm).
        destruct (twf_nonempty d s' Hsw' Hsn') as (p' & x' & Hl' & Hm').
        assert (H1 : tmem (S d) ((c', s') :: b) (c :: p) x).
        { apply Hext; [cbn; auto|]. exists s. split; [left|]; auto. }
        assert (H2 : tmem (S d) ((c, s) :: a) (c' :: p') x').
        { apply Hext; [cbn; auto|]. exists s'. split; [left|]; auto. }
        destruct H1 as (u & Hu & _), H2 as (u' & Hu' & _).
        apply (Hmin c' s' b) in Hu; auto. apply (Hmin c s a) in Hu'; auto. cbn in *. lia. }
      subst c'.
      assert (s = s').
      { apply IH; auto. intros p x Hl. specialize (Hext (c :: p) x). cbn [length] in Hext.
        specialize (Hext (f_equal S Hl)). cbn [tmem] in Hext. split; intros Hm.
        - destruct Hext as [Hext _]. destruct Hext as (u & Hu & Hm'); [exists s; split; auto; left; auto|].
          rewrite (klt_unique _ c s' u Hbs0 (or_introl eq_refl) Hu). auto.
        - destruct Hext as [_ Hext]. destruct Hext as (u & Hu & Hm'); [exists s'; split; auto; left; auto|].
          rewrite (klt_unique _ c s u Has0 (or_introl eq_refl) Hu). auto. }
      subst s'. f_equal. apply IHa; try (cbn; auto; fail).
      intros p x Hl. destruct p as [|k p]; [discriminate|].
      specialize (Hext (k :: p) x Hl). cbn [tmem] in Hext |- *. cbn in Hal, Hbl.
      split; intros (u & Hu & Hm).
      * destruct Hext as [Hext _]. destruct Hext as (u' & [Hu'|Hu'] & Hm'); [exists u; split; auto; right; auto| |eauto].
        inversion Hu'; subst. apply Hal in Hu. unfold klt in Hu; cbn in Hu; lia.
      * destruct Hext as [_ Hext]. destruct Hext as (u' & [Hu'|Hu'] & Hm'); [exists u; split; auto; right; auto| |eauto].
        inversion Hu'; subst. apply Hbl in Hu. unfold klt in Hu; cbn in Hu; lia.
Qed.
