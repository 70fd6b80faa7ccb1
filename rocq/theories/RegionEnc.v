(** Encoding of trees as flat offset vectors and the simulation lemmas for
    insertion, removal and lookup. *)
From Verif Require Import Base ListFacts RegionModel RegionTree RegionFlat.
From Coq Require Import Sorted.

(** ** Level vectors with child counts *)

Fixpoint zapp (a b : list vec) : list vec :=
  match a, b with
  | x :: a', y :: b' => (x ++ y) :: zapp a' b'
  | _, _ => []
  end.

Definition znil (n : nat) : list vec := repeat [] n.

Definition zconcat (n : nat) (ls : list (list vec)) : list vec := fold_right zapp (znil n) ls.

Definition cl {d} (p : Z * tree d) : Z * Z := (fst p, Z.of_nat (tlen (snd p))).

Fixpoint lvl (d : nat) : tree d -> list vec :=
  match d return tree d -> list vec with
  | O => fun t => [t]
  | S d' => fun t => map cl t :: zconcat (S d') (map (fun p => lvl d' (snd p)) t)
  end.

Fixpoint offs (b : Z) (v : vec) : vec :=
  match v with
  | [] => []
  | (c, n) :: v' => (c, b) :: offs (b + n) v'
  end.

Fixpoint vsum (v : vec) : Z := match v with [] => 0 | e :: v' => snd e + vsum v' end.

Fixpoint enc (lv : list vec) : indices :=
  match lv with
  | [] => []
  | [v] => [v]
  | v :: rest => offs 0 v :: enc rest
  end.

Fixpoint consis (lv : list vec) : Prop :=
  match lv with
  | v :: ((w :: _) as rest) => vsum v = Z.of_nat (length w) /\ consis rest
  | _ => True
  end.

(** ** Algebra of [zapp] *)

Lemma zapp_length a : forall b, length a = length b -> length (zapp a b) = length a.
Proof. induction a; intros [|y b] H; cbn in *; try discriminate; auto. Qed.

Lemma zapp_assoc a : forall b c, zapp a (zapp b c) = zapp (zapp a b) c.
Proof.
  induction a as [|x a IH]; intros [|y b] [|z c]; cbn; auto. f_equal; auto. apply app_assoc.
Qed.

Lemma zapp_nil_l n : forall a, length a = n -> zapp (znil n) a = a.
Proof. induction n; intros [|x a] H; cbn in *; try discriminate; auto. f_equal. apply IHn; auto. Qed.

Lemma zapp_nil_r n : forall a, length a = n -> zapp a (znil n) = a.
Proof.
  induction n; intros [|x a] H; cbn in *; try discriminate; auto.
  rewrite app_nil_r. f_equal. apply IHn; auto.
Qed.

Lemma znil_length n : length (znil n) = n.
Proof. apply repeat_length. Qed.

Lemma zconcat_length n ls : Forall (fun l => length l = n) ls -> length (zconcat n ls) = n.
Proof.
  induction 1; cbn; [apply znil_length|]. unfold zconcat in *. rewrite zapp_length; lia.
Qed.

Lemma zconcat_app n l1 l2 :
  Forall (fun l => length l = n) l1 -> Forall (fun l => length l = n) l2 ->
  zconcat n (l1 ++ l2) = zapp (zconcat n l1) (zconcat n l2).
Proof.
  intros H1 H2. induction H1; cbn.
  - rewrite zapp_nil_l; auto. now apply zconcat_length.
  - unfold zconcat in *. now rewrite IHForall, zapp_assoc.
Qed.

Lemma lvl_length d : forall t : tree d, length (lvl d t) = S d.
Proof.
  induction d; intros t; cbn [lvl]; auto. cbn [length]. f_equal.
  apply zconcat_length. apply Forall_forall. intros l Hl. apply in_map_iff in Hl.
  destruct Hl as (p & <- & _). apply IHd.
Qed.

Lemma lvl_Forall d (l : list (Z * tree d)) :
  Forall (fun l => length l = S d) (map (fun p => lvl d (snd p)) l).
Proof.
  apply Forall_forall. intros v Hv. apply in_map_iff in Hv. destruct Hv as (p & <- & _). apply lvl_length.
Qed.

Definition zc {d} (l : list (Z * tree d)) : list vec := zconcat (S d) (map (fun p => lvl d (snd p)) l).

Lemma zc_length {d} (l : list (Z * tree d)) : length (zc l) = S d.
Proof. apply zconcat_length, lvl_Forall. Qed.

Lemma zc_app {d} (l1 l2 : list (Z * tree d)) : zc (l1 ++ l2) = zapp (zc l1) (zc l2).
Proof. unfold zc. rewrite map_app. apply zconcat_app; apply lvl_Forall. Qed.

Lemma zc_cons {d} (p : Z * tree d) l : zc (p :: l) = zapp (lvl d (snd p)) (zc l).
Proof. reflexivity. Qed.

Lemma lvl_S d (t : tree (S d)) : lvl (S d) t = map cl t :: @zc d t.
Proof. reflexivity. Qed.

Lemma hd_lvl d (t : tree d) : length (hd [] (lvl d t)) = tlen t.
Proof. destruct d; cbn; auto. now rewrite map_length. Qed.

Lemma hd_zapp a b : length a = length b -> hd [] (zapp a b) = hd [] a ++ hd [] b.
Proof. destruct a, b; cbn; intros; try discriminate; auto. Qed.

Lemma vsum_app a b : vsum (a ++ b) = vsum a + vsum b.
Proof. induction a; cbn; lia. Qed.

Lemma consis_zapp a : forall b, length a = length b -> consis a -> consis b -> consis (zapp a b).
Proof.
  induction a as [|x a IH]; intros [|y b] Hl Ha Hb; try discriminate; [exact I|].
  destruct a as [|x' a], b as [|y' b]; try discriminate; [exact I|].
  change (zapp (x :: x' :: a) (y :: y' :: b)) with ((x ++ y) :: zapp (x' :: a) (y' :: b)).
  destruct Ha as [Ha1 Ha2], Hb as [Hb1 Hb2].
  change (vsum (x ++ y) = Z.of_nat (length (x' ++ y')) /\ consis (zapp (x' :: a) (y' :: b))).
  split.
  - rewrite vsum_app, app_length, Ha1, Hb1. lia.
  - apply IH; auto.
Qed.

Lemma consis_znil n : consis (znil n).
Proof. induction n as [|[|n] IH]; cbn; auto. Qed.

Lemma consis_lvl d : forall t : tree d, consis (lvl d t).
Proof.
  induction d as [|d IH]; intros t; [exact I|].
  rewrite lvl_S.
  assert (H : vsum (map cl t) = Z.of_nat (length (hd [] (@zc d t))) /\ consis (@zc d t)).
  { cbn [tree] in t. induction t as [|p t IHt].
    - split; [reflexivity|apply consis_znil].
    - rewrite zc_cons, hd_zapp by (rewrite lvl_length, zc_length; auto). destruct IHt as [H1 H2].
      split.
      + cbn [map vsum cl snd]. rewrite H1, app_length, hd_lvl. lia.
      + apply consis_zapp; auto. now rewrite lvl_length, zc_length. }
  destruct H as [H1 H2]. pose proof (@zc_length d t). destruct (@zc d t); [discriminate|].
  split; auto.
Qed.

Lemma consis_zc {d} (l : list (Z * tree d)) :
  consis (zc l) /\ vsum (map cl l) = Z.of_nat (length (hd [] (zc l))).
Proof.
  pose proof (consis_lvl (S d) l) as H. rewrite lvl_S in H.
  pose proof (@zc_length d l). destruct (@zc d l); [discriminate|]. destruct H; auto.
Qed.

Lemma consis_cons v rest : rest <> [] ->
  (consis (v :: rest) <-> vsum v = Z.of_nat (length (hd [] rest)) /\ consis rest).
Proof. destruct rest; [congruence|]. reflexivity. Qed.

(** ** Offsets *)

Lemma offs_app b v w : offs b (v ++ w) = offs b v ++ offs (b + vsum v) w.
Proof.
  revert b. induction v as [|[c n] v IH]; intros b; cbn.
  - now rewrite Z.add_0_r.
  - rewrite IH. f_equal. f_equal. f_equal. lia.
Qed.

Lemma offs_length b v : length (offs b v) = length v.
Proof. revert b; induction v as [|[c n] v IH]; intros; cbn; auto. Qed.

Lemma offs_shift b n v : map (fun e => (fst e, snd e + n)) (offs b v) = offs (b + n) v.
Proof.
  revert b; induction v as [|[c m] v IH]; intros; cbn; auto. f_equal.
  rewrite IH. f_equal. lia.
Qed.

Lemma offs_key b v e : In e (offs b v) -> exists e', In e' v /\ fst e' = fst e.
Proof.
  revert b; induction v as [|[c m] v IH]; intros b; cbn; [tauto|].
  intros [<-|H]; [exists (c, m); auto|]. destruct (IH _ H) as (e' & H1 & H2). exists e'; auto.
Qed.

Lemma cl_key {d} (l : list (Z * tree d)) b e : In e (offs b (map cl l)) -> exists e', In e' l /\ fst e' = fst e.
Proof.
  intros H. apply offs_key in H. destruct H as (e' & H & <-). apply in_map_iff in H.
  destruct H as (p & <- & H). exists p; auto.
Qed.

Lemma enc_cons v rest : rest <> [] -> enc (v :: rest) = offs 0 v :: enc rest.
Proof. destruct rest; [congruence|reflexivity]. Qed.

Lemma enc_hd_length lv : length (hd [] (enc lv)) = length (hd [] lv).
Proof. destruct lv as [|v [|w r]]; cbn; auto. apply offs_length. Qed.

Lemma length_nonnil {A} (l : list A) n : length l = S n -> l <> [].
Proof. destruct l; [discriminate|congruence]. Qed.

Lemma next_offset_enc v w rest :
  rest <> [] -> vsum (v ++ w) = Z.of_nat (length (hd [] rest)) ->
  next_offset (offs 0 (v ++ w)) (length v) (enc rest) = vsum v.
Proof.
  intros Hr Hs. unfold next_offset. rewrite offs_app.
  rewrite nth_error_app_exact by (now rewrite offs_length).
  destruct w as [|[c n] w]; cbn.
  - unfold size_below. rewrite enc_hd_length. rewrite app_nil_r in Hs. lia.
  - lia.
Qed.


Lemma inc_remainder_app (v w : vec) n pos : pos = length v ->
  inc_remainder (v ++ w) pos n = v ++ map (fun e => (fst e, snd e + n)) w.
Proof.
  intros ->. unfold inc_remainder. now rewrite firstn_app_exact, skipn_app_exact by auto.
Qed.

Lemma inc_remainder_offs v w n n' c pos : pos = S (length v) ->
  inc_remainder (offs 0 (v ++ (c, n) :: w)) pos (n' - n) = offs 0 (v ++ (c, n') :: w).
Proof.
  intros ->. rewrite !offs_app. cbn [offs].
  change ((c, 0 + vsum v) :: offs (0 + vsum v + n) w) with ([(c, 0 + vsum v)] ++ offs (0 + vsum v + n) w).
  rewrite app_assoc, inc_remainder_app by (rewrite app_length, offs_length; cbn; lia).
  rewrite offs_shift, <- app_assoc. cbn [app]. do 3 f_equal. lia.
Qed.

Lemma cl_pair {d} c (s : tree d) : cl (c, s) = (c, Z.of_nat (tlen s)).
Proof. reflexivity. Qed.

(** ** Finding a key *)

Lemma upper_bound_enc {d} (a cc : vec) (l1 l2 : list (Z * tree d)) c :
  (forall e, In e l1 -> fst e <= c) -> (forall e, In e l2 -> c < fst e) ->
  upper_bound (offs 0 (a ++ map cl (l1 ++ l2) ++ cc)) (length a) (length a + length (l1 ++ l2)) c =
  (length a + length l1)%nat.
Proof.
  intros H1 H2. rewrite map_app, !offs_app.
  set (A := offs 0 a). set (B := offs _ (map cl l1)). set (D := offs _ (map cl l2)). set (E := offs _ cc).
  replace (length a) with (length A) by (unfold A; now rewrite offs_length).
  replace (length (l1 ++ l2)) with (length (B ++ D))
    by (unfold B, D; rewrite !app_length, !offs_length, !map_length; auto).
  rewrite upper_bound_ctx.
  - unfold B. now rewrite offs_length, map_length.
  - intros e He. apply cl_key in He. destruct He as (e' & He & <-). auto.
  - intros e He. apply cl_key in He. destruct He as (e' & He & <-). auto.
Qed.

(** The search of the C++ helpers at one level: position and entry. *)
Definition find_key (v : vec) (start fin : nat) (c : Z) : option (Z * Z) :=
  let i := upper_bound v start fin c in
  if (i =? start)%nat then None
  else match nth_error v (i - 1) with
       | Some entry => if fst entry =? c then Some entry else None
       | None => None
       end.

Lemma find_key_found {d} (a cc : vec) (l1 l2 : list (Z * tree d)) c s :
  (forall e, In e l1 -> fst e < c) -> (forall e, In e l2 -> c < fst e) ->
  let l := l1 ++ (c, s) :: l2 in
  let v := offs 0 (a ++ map cl l ++ cc) in
  upper_bound v (length a) (length a + length l) c = (length a + length l1 + 1)%nat /\
  nth_error v (length a + length l1) = Some (c, vsum a + vsum (map cl l1)).
Proof.
  intros H1 H2 l v. split.
  - subst l v. replace (l1 ++ (c, s) :: l2) with ((l1 ++ [(c, s)]) ++ l2) by (now rewrite <- app_assoc).
    rewrite upper_bound_enc; auto.
    + rewrite app_length; cbn; lia.
    + intros e He. apply in_app_iff in He. destruct He as [He|[<-|[]]]; cbn; [apply H1 in He|]; lia.
  - subst l v. rewrite map_app, <- app_assoc, app_assoc, offs_app.
    rewrite nth_error_app_exact by (rewrite offs_length, app_length, map_length; auto).
    cbn. rewrite vsum_app. repeat f_equal; lia.
Qed.

Lemma find_key_none {d} (a cc : vec) (l1 l2 : list (Z * tree d)) c :
  (forall e, In e l1 -> fst e < c) -> (forall e, In e l2 -> c < fst e) ->
  let l := l1 ++ l2 in
  let v := offs 0 (a ++ map cl l ++ cc) in
  upper_bound v (length a) (length a + length l) c = (length a + length l1)%nat /\
  (l1 = [] \/ exists entry, nth_error v (length a + length l1 - 1) = Some entry /\ fst entry <> c).
Proof.
  intros H1 H2 l v. split.
  - subst l v. apply upper_bound_enc; auto. intros e He; apply H1 in He; lia.
  - destruct (list_snoc_cases l1) as [->|(l1' & [k s] & ->)]; [left; auto|right].
    exists (k, vsum a + vsum (map cl l1')). split.
    + subst l v. rewrite <- app_assoc. cbn [app]. rewrite map_app, <- app_assoc, app_assoc, offs_app.
      rewrite nth_error_app_exact by (rewrite offs_length, !app_length, map_length; cbn; lia).
      cbn. rewrite vsum_app. repeat f_equal; lia.
    + cbn. specialize (H1 (k, s)). rewrite in_app_iff in H1. cbn in H1.
      specialize (H1 (or_intror (or_introl eq_refl))). lia.
Qed.

Definition ctx {d} (A : list vec) (t : tree d) (C : list vec) : list vec := zapp A (zapp (lvl d t) C).

Lemma ctx_S {d} a A (t : tree (S d)) cc C :
  ctx (a :: A) t (cc :: C) = (a ++ map cl t ++ cc) :: zapp A (zapp (@zc d t) C).
Proof. reflexivity. Qed.

Lemma ctx_descend {d} A (l1 l2 : list (Z * tree d)) c s C :
  zapp A (zapp (zc (l1 ++ (c, s) :: l2)) C) = ctx (zapp A (zc l1)) s (zapp (zc l2) C).
Proof. unfold ctx. rewrite zc_app, zc_cons. cbn [snd]. now rewrite !zapp_assoc. Qed.

Lemma ctx_descend_empty {d} A (l1 l2 : list (Z * tree d)) C :
  length A = S d -> length C = S d ->
  zapp A (zapp (zc (l1 ++ l2)) C) = ctx (zapp A (zc l1)) (tempty d) (zapp (zc l2) C).
Proof.
  intros HA HC. unfold ctx. rewrite zc_app.
  assert (lvl d (tempty d) = znil (S d)) as -> by (destruct d; reflexivity).
  rewrite zapp_nil_l by (now rewrite zapp_length, zc_length; rewrite ?zc_length).
  now rewrite !zapp_assoc.
Qed.

Lemma ctx_length {d} A (t : tree d) C : length A = S d -> length C = S d -> length (ctx A t C) = S d.
Proof.
  intros. unfold ctx. rewrite zapp_length; auto. rewrite zapp_length; rewrite lvl_length; auto.
Qed.

Lemma split_cons (A : list vec) d : length A = S d -> exists a A', A = a :: A' /\ length A' = d.
Proof. destruct A; [discriminate|]. intros H; injection H; eauto. Qed.

Lemma hd_ctx {d} A (t : tree d) C : length A = S d -> length C = S d ->
  hd [] (ctx A t C) = hd [] A ++ hd [] (lvl d t) ++ hd [] C.
Proof.
  intros HA HC. unfold ctx. rewrite hd_zapp.
  - rewrite hd_zapp; auto. rewrite lvl_length; auto.
  - rewrite zapp_length; rewrite lvl_length; auto.
Qed.

(** ** Simulation of insertion *)

Lemma insert_sim d : forall (t : tree d) A C pre cur,
  twf d t -> length pre = d -> fst cur < snd cur ->
  length A = S d -> length C = S d -> consis A -> consis C ->
  insert_helper pre (enc (ctx A t C)) cur (length (hd [] A)) (length (hd [] A) + tlen t) =
  (enc (ctx A (tins d t pre cur) C), Z.of_nat (tlen (tins d t pre cur)) - Z.of_nat (tlen t)).
Proof.
  induction d as [|d IH]; intros t A C pre cur Hwf Hlen Hc HA HC HcA HcC.
  - destruct pre; [|discriminate].
    destruct A as [|a [|]]; try discriminate. destruct C as [|cc [|]]; try discriminate.
    destruct (insert_level0_spec t cur Hwf Hc) as (_ & _ & H).
    cbn. cbn in t. rewrite H. reflexivity.
  - destruct pre as [|c pre]; [discriminate|]. injection Hlen as Hlen.
    destruct (split_cons _ _ HA) as (a & A' & -> & HA').
    destruct (split_cons _ _ HC) as (cc & C' & -> & HC').
    rewrite !ctx_S. cbn [hd].
    apply consis_cons in HcA; [|now apply length_nonnil in HA'].
    apply consis_cons in HcC; [|now apply length_nonnil in HC'].
    destruct HcA as [HsA HcA], HcC as [HsC HcC].
    cbn in Hwf. destruct Hwf as [Hs Hf].
    assert (Hnn : forall l : list (Z * tree d), zapp A' (zapp (zc l) C') <> []).
    { intros l. apply length_nonnil with d. rewrite zapp_length; auto.
      rewrite zapp_length; rewrite zc_length; auto. }
    assert (Hsum : forall l : list (Z * tree d), vsum (a ++ map cl l ++ cc) = Z.of_nat (length (hd [] (zapp A' (zapp (zc l) C'))))).
    { intros l. rewrite !vsum_app, HsA, HsC. destruct (consis_zc l) as [_ ->].
      rewrite hd_zapp, hd_zapp, !app_length; rewrite ?zapp_length; rewrite ?zc_length; auto; lia. }
    rewrite (enc_cons _ _ (Hnn t)).
    rewrite !tlen_S. cbn [insert_helper tins].
    cbn [tree] in t.
    destruct (key_cases t c Hs) as [(l1 & s & l2 & E & H1 & H2)|(l1 & l2 & E & H1 & H2)].
    + subst t. rewrite kupd_found by auto. cbn [odef].
      destruct (find_key_found a cc l1 l2 c s H1 H2) as [Eub Enth].
      rewrite Eub.
      replace (length a + length l1 + 1 =? length a)%nat with false by lia.
      replace (length a + length l1 + 1 - 1)%nat with (length a + length l1)%nat by lia.
      rewrite Enth. cbn [fst snd]. rewrite Z.eqb_refl. cbn [fst snd].
      apply Forall_app in Hf. destruct Hf as [_ Hf]. apply Forall_cons_iff' in Hf.
      cbn in Hf. destruct Hf as ((Hn & Hw) & _).
      destruct (consis_zc l1) as [Hc1 Hs1]. destruct (consis_zc l2) as [Hc2 Hs2].
      (* next level bounds *)
      assert (Eno : next_offset (offs 0 (a ++ map cl (l1 ++ (c, s) :: l2) ++ cc)) (length a + length l1 + 1)
                 (enc (zapp A' (zapp (zc (l1 ++ (c, s) :: l2)) C'))) = vsum a + vsum (map cl l1) + Z.of_nat (tlen s)).
      { pose proof (next_offset_enc (a ++ map cl l1 ++ [(c, Z.of_nat (tlen s))]) (map cl l2 ++ cc)
                      (zapp A' (zapp (zc (l1 ++ (c, s) :: l2)) C')) (Hnn _)) as Hno.
        replace ((a ++ map cl l1 ++ [(c, Z.of_nat (tlen s))]) ++ map cl l2 ++ cc)
          with (a ++ map cl (l1 ++ (c, s) :: l2) ++ cc) in Hno.
        2:{ rewrite map_app, <- !app_assoc. reflexivity. }
        specialize (Hno (Hsum _)).
        rewrite !app_length, map_length in Hno. cbn [length] in Hno. rewrite Nat.add_assoc in Hno.
        rewrite Hno, !vsum_app. cbn. lia. }
      rewrite Eno.
      rewrite ctx_descend.
      assert (HlA : length (zapp A' (zc l1)) = S d) by (rewrite zapp_length; rewrite ?zc_length; auto).
      assert (HlC : length (zapp (zc l2) C') = S d) by (rewrite zapp_length; rewrite ?zc_length; auto).
      assert (Hhd : vsum a + vsum (map cl l1) = Z.of_nat (length (hd [] (zapp A' (zc l1))))).
      { rewrite hd_zapp, app_length by (rewrite zc_length; auto). rewrite HsA, Hs1. lia. }
      rewrite Hhd, Nat2Z.id.
      replace (Z.to_nat (Z.of_nat (length (hd [] (zapp A' (zc l1)))) + Z.of_nat (tlen s)))
        with (length (hd [] (zapp A' (zc l1))) + tlen s)%nat by lia.
      rewrite IH; auto.
      2:{ apply consis_zapp; auto. rewrite zc_length; auto. }
      2:{ apply consis_zapp; auto. rewrite zc_length; auto. }
      f_equal.
      * rewrite enc_cons by apply Hnn. f_equal.
        -- rewrite !map_app. cbn [map]. rewrite !cl_pair.
           rewrite <- !app_assoc. cbn [app].
           rewrite !(app_assoc a).
           apply inc_remainder_offs. rewrite app_length, map_length. lia.
        -- now rewrite ctx_descend.
      * rewrite !app_length. cbn. lia.
    + subst t. rewrite kupd_new by auto. cbn [odef].
      destruct (find_key_none a cc l1 l2 c H1 H2) as [Eub Enth].
      rewrite Eub.
      set (found := (if (length a + length l1 =? length a)%nat then None else _)).
      assert (Hfound : found = None).
      { subst found. destruct Enth as [->|(entry & -> & Hne)].
        - cbn. now rewrite Nat.add_0_r, Nat.eqb_refl.
        - destruct (Nat.eqb_spec (length a + length l1) (length a)); auto.
          destruct (Z.eqb_spec (fst entry) c); [contradiction|auto]. }
      rewrite Hfound. clear found Hfound Enth.
      destruct (consis_zc l1) as [Hc1 Hs1]. destruct (consis_zc l2) as [Hc2 Hs2].
      assert (Eno : next_offset (offs 0 (a ++ map cl (l1 ++ l2) ++ cc)) (length a + length l1)
                 (enc (zapp A' (zapp (zc (l1 ++ l2)) C'))) = vsum a + vsum (map cl l1)).
      { pose proof (next_offset_enc (a ++ map cl l1) (map cl l2 ++ cc)
                      (zapp A' (zapp (zc (l1 ++ l2)) C')) (Hnn _)) as Hno.
        replace ((a ++ map cl l1) ++ map cl l2 ++ cc)
          with (a ++ map cl (l1 ++ l2) ++ cc) in Hno.
        2:{ rewrite map_app, <- !app_assoc. reflexivity. }
        specialize (Hno (Hsum _)).
        rewrite !app_length, map_length in Hno.
        rewrite Hno, !vsum_app. lia. }
      rewrite Eno.
      rewrite ctx_descend_empty by auto.
      assert (HlA : length (zapp A' (zc l1)) = S d) by (rewrite zapp_length; rewrite ?zc_length; auto).
      assert (HlC : length (zapp (zc l2) C') = S d) by (rewrite zapp_length; rewrite ?zc_length; auto).
      assert (Hhd : vsum a + vsum (map cl l1) = Z.of_nat (length (hd [] (zapp A' (zc l1))))).
      { rewrite hd_zapp, app_length by (rewrite zc_length; auto). rewrite HsA, Hs1. lia. }
      rewrite Hhd, Nat2Z.id.
      replace (length (hd [] (zapp A' (zc l1)))) with (length (hd [] (zapp A' (zc l1))) + tlen (tempty d))%nat at 2
        by (destruct d; cbn; lia).
      rewrite IH; auto.
      2:{ apply twf_empty. }
      2:{ apply consis_zapp; auto. rewrite zc_length; auto. }
      2:{ apply consis_zapp; auto. rewrite zc_length; auto. }
      f_equal.
      * rewrite enc_cons by apply Hnn. f_equal.
        -- rewrite <- Hhd. rewrite !map_app. cbn [map]. rewrite !cl_pair.
           rewrite <- !app_assoc. cbn [app].
           rewrite !(app_assoc a).
           rewrite <- (inc_remainder_offs (a ++ map cl l1) (map cl l2 ++ cc) (Z.of_nat (tlen (tempty d))) _ c (length a + length l1 + 1))
             by (rewrite app_length, map_length; lia).
           f_equal.
           rewrite (offs_app 0 (a ++ map cl l1)).
           rewrite firstn_app_exact, skipn_app_exact by (rewrite offs_length, app_length, map_length; auto).
           assert (tlen (tempty d) = O) as -> by (destruct d; auto).
           rewrite !offs_app. cbn [offs]. rewrite !offs_app.
           change (Z.of_nat 0) with 0. rewrite !vsum_app, !Z.add_0_l, !Z.add_0_r. reflexivity.
        -- now rewrite ctx_descend.
      * rewrite !app_length. cbn. lia.
Qed.

Lemma tlen_empty d (t : tree d) : tlen t = O -> t = tempty d.
Proof. destruct d; cbn; destruct t; auto; discriminate. Qed.

(** ** Simulation of removal *)

Lemma remove_sim d : forall (t : tree d) A C pre cur,
  twf d t -> length pre = d -> fst cur < snd cur ->
  length A = S d -> length C = S d -> consis A -> consis C ->
  remove_helper pre (enc (ctx A t C)) cur (length (hd [] A)) (length (hd [] A) + tlen t) =
  (enc (ctx A (trem d t pre cur) C), Z.of_nat (tlen (trem d t pre cur)) - Z.of_nat (tlen t)).
Proof.
  induction d as [|d IH]; intros t A C pre cur Hwf Hlen Hc HA HC HcA HcC.
  - destruct pre; [|discriminate].
    destruct A as [|a [|]]; try discriminate. destruct C as [|cc [|]]; try discriminate.
    destruct (remove_level0_spec t cur Hwf Hc) as (_ & _ & H).
    cbn. cbn in t. rewrite H. reflexivity.
  - destruct pre as [|c pre]; [discriminate|]. injection Hlen as Hlen.
    destruct (split_cons _ _ HA) as (a & A' & -> & HA').
    destruct (split_cons _ _ HC) as (cc & C' & -> & HC').
    rewrite !ctx_S. cbn [hd].
    apply consis_cons in HcA; [|now apply length_nonnil in HA'].
    apply consis_cons in HcC; [|now apply length_nonnil in HC'].
    destruct HcA as [HsA HcA], HcC as [HsC HcC].
    cbn in Hwf. destruct Hwf as [Hs Hf].
    assert (Hnn : forall l : list (Z * tree d), zapp A' (zapp (zc l) C') <> []).
    { intros l. apply length_nonnil with d. rewrite zapp_length; auto.
      rewrite zapp_length; rewrite zc_length; auto. }
    assert (Hsum : forall l : list (Z * tree d), vsum (a ++ map cl l ++ cc) = Z.of_nat (length (hd [] (zapp A' (zapp (zc l) C'))))).
    { intros l. rewrite !vsum_app, HsA, HsC. destruct (consis_zc l) as [_ ->].
      rewrite hd_zapp, hd_zapp, !app_length; rewrite ?zapp_length; rewrite ?zc_length; auto; lia. }
    rewrite (enc_cons _ _ (Hnn t)).
    rewrite !tlen_S. cbn [remove_helper trem].
    cbn [tree] in t.
    destruct (key_cases t c Hs) as [(l1 & s & l2 & E & H1 & H2)|(l1 & l2 & E & H1 & H2)].
    + subst t. rewrite krem_found by auto.
      destruct (find_key_found a cc l1 l2 c s H1 H2) as [Eub Enth].
      rewrite Eub.
      replace (length a + length l1 + 1 =? length a)%nat with false by lia.
      replace (length a + length l1 + 1 - 1)%nat with (length a + length l1)%nat by lia.
      rewrite Enth. cbn [fst snd]. rewrite Z.eqb_refl. cbn [fst snd].
      apply Forall_app in Hf. destruct Hf as [_ Hf]. apply Forall_cons_iff' in Hf.
      cbn in Hf. destruct Hf as ((Hn & Hw) & _).
      destruct (consis_zc l1) as [Hc1 Hs1]. destruct (consis_zc l2) as [Hc2 Hs2].
      assert (Eno : next_offset (offs 0 (a ++ map cl (l1 ++ (c, s) :: l2) ++ cc)) (length a + length l1 + 1)
                 (enc (zapp A' (zapp (zc (l1 ++ (c, s) :: l2)) C'))) = vsum a + vsum (map cl l1) + Z.of_nat (tlen s)).
      { pose proof (next_offset_enc (a ++ map cl l1 ++ [(c, Z.of_nat (tlen s))]) (map cl l2 ++ cc)
                      (zapp A' (zapp (zc (l1 ++ (c, s) :: l2)) C')) (Hnn _)) as Hno.
        replace ((a ++ map cl l1 ++ [(c, Z.of_nat (tlen s))]) ++ map cl l2 ++ cc)
          with (a ++ map cl (l1 ++ (c, s) :: l2) ++ cc) in Hno.
        2:{ rewrite map_app, <- !app_assoc. reflexivity. }
        specialize (Hno (Hsum _)).
        rewrite !app_length, map_length in Hno. cbn [length] in Hno. rewrite Nat.add_assoc in Hno.
        rewrite Hno, !vsum_app. cbn. lia. }
      rewrite Eno.
      rewrite ctx_descend.
      assert (HlA : length (zapp A' (zc l1)) = S d) by (rewrite zapp_length; rewrite ?zc_length; auto).
      assert (HlC : length (zapp (zc l2) C') = S d) by (rewrite zapp_length; rewrite ?zc_length; auto).
      assert (Hhd : vsum a + vsum (map cl l1) = Z.of_nat (length (hd [] (zapp A' (zc l1))))).
      { rewrite hd_zapp, app_length by (rewrite zc_length; auto). rewrite HsA, Hs1. lia. }
      rewrite Hhd, Nat2Z.id.
      replace (Z.to_nat (Z.of_nat (length (hd [] (zapp A' (zc l1)))) + Z.of_nat (tlen s)))
        with (length (hd [] (zapp A' (zc l1))) + tlen s)%nat by lia.
      rewrite IH; auto.
      2:{ apply consis_zapp; auto. rewrite zc_length; auto. }
      2:{ apply consis_zapp; auto. rewrite zc_length; auto. }
      unfold tnil.
      match goal with |- context [if ?b then (inc_remainder _ _ _ :: _, -1) else _] =>
        replace b with (tlen (trem d s pre cur) =? 0)%nat by (apply eq_true_iff_eq; lia) end.
      destruct (Nat.eqb_spec (tlen (trem d s pre cur)) 0) as [Hz|Hz].
      * f_equal.
        -- rewrite enc_cons by apply Hnn. f_equal.
           ++ rewrite !map_app. cbn [map]. rewrite !cl_pair.
              rewrite <- !app_assoc. cbn [app].
              rewrite !(app_assoc a).
              rewrite (offs_app 0 (a ++ map cl l1)). cbn [offs].
              rewrite firstn_app_exact by (rewrite offs_length, app_length, map_length; auto).
              change (?x :: ?y) with ([x] ++ y) at 1. rewrite (app_assoc (offs 0 _) [_]).
              rewrite skipn_app_exact by (rewrite !app_length, offs_length, app_length, map_length; cbn; lia).
              rewrite inc_remainder_app by (rewrite offs_length, app_length, map_length; auto).
              rewrite offs_shift, (offs_app 0 (a ++ map cl l1) (map cl l2 ++ cc)). do 2 f_equal. lia.
           ++ rewrite ctx_descend_empty by auto. do 2 f_equal.
              now apply tlen_empty.
        -- rewrite !app_length. cbn. lia.
      * f_equal.
        -- rewrite enc_cons by apply Hnn. f_equal.
           ++ rewrite !map_app. cbn [map]. rewrite !cl_pair.
              rewrite <- !app_assoc. cbn [app].
              rewrite !(app_assoc a).
              apply inc_remainder_offs. rewrite app_length, map_length. lia.
           ++ now rewrite ctx_descend.
        -- rewrite !app_length. cbn. lia.
    + subst t. rewrite krem_none.
      2:{ intros e He. apply in_app_iff in He. destruct He as [He|He];
          [apply H1 in He|apply H2 in He]; lia. }
      destruct (find_key_none a cc l1 l2 c H1 H2) as [Eub Enth].
      rewrite Eub.
      set (found := (if (length a + length l1 =? length a)%nat then None else _)).
      assert (Hfound : found = None).
      { subst found. destruct Enth as [->|(entry & -> & Hne)].
        - cbn. now rewrite Nat.add_0_r, Nat.eqb_refl.
        - destruct (Nat.eqb_spec (length a + length l1) (length a)); auto.
          destruct (Z.eqb_spec (fst entry) c); [contradiction|auto]. }
      rewrite Hfound. f_equal; [now rewrite enc_cons by apply Hnn|lia].
Qed.

(** ** Simulation of lookup *)

(** An interval lies within a separated list of intervals iff it lies within
    one of them. *)
Lemma wf0_cover l : wf0 l -> forall a b, a < b ->
  (forall x, a <= x < b -> mem0 l x) -> exists e, In e l /\ fst e <= a /\ b <= snd e.
Proof.
  induction l as [|h l IH]; intros Hw a b Hab Hm.
  - destruct (Hm a) as (e & [] & _). lia.
  - apply wf0_cons in Hw. destruct Hw as (H1 & H2 & H3).
    destruct (Z.lt_ge_cases a (snd h)).
    + exists h. split; [left; auto|].
      assert (Ha : mem0 (h :: l) a) by (apply Hm; lia).
      apply mem0_cons in Ha. destruct Ha as [Ha|(e & He & Hx)]; [|specialize (H2 e He); lia].
      split; [lia|]. destruct (Z.le_gt_cases b (snd h)); auto. exfalso.
      assert (Hb : mem0 (h :: l) (snd h)) by (apply Hm; lia).
      apply mem0_cons in Hb. destruct Hb as [Hb|(e & He & Hx)]; [|specialize (H2 e He)]; lia.
    + destruct (IH H3 a b Hab) as (e & He & Hx).
      * intros x Hx. specialize (Hm x Hx). apply mem0_cons in Hm. destruct Hm; auto. lia.
      * exists e. split; [right|]; auto.
Qed.

Lemma lookup_sim d : forall (t : tree d) A C pre cur,
  twf d t -> length pre = d -> fst cur < snd cur ->
  length A = S d -> length C = S d -> consis A -> consis C ->
  (tlen t <> O \/ (A = znil (S d) /\ C = znil (S d))) ->
  exists b, lookup_helper pre (enc (ctx A t C)) cur (length (hd [] A)) (length (hd [] A) + tlen t) = Some b /\
    (b = true <-> (forall x, fst cur <= x < snd cur -> tmem d t pre x)).
Proof.
  induction d as [|d IH]; intros t A C pre cur Hwf Hlen Hc HA HC HcA HcC Hne.
  - destruct pre; [|discriminate].
    destruct A as [|a [|]]; try discriminate. destruct C as [|cc [|]]; try discriminate.
    cbn in Hwf, t. cbn [ctx lvl zapp enc lookup_helper hd tlen].
    destruct (level0_cursor t (fst cur) Hwf) as (P & R & HM & Hp & Hr & Htl & HPc & HPR & Hcur & Hnil).
    assert (Hempty : t = [] -> exists b, Some false = Some b /\ (b = true <-> (forall x, fst cur <= x < snd cur -> tmem 0 t [] x))).
    { intros ->. exists false. split; auto. split; [discriminate|]. intros H.
      destruct (H (fst cur)) as [_ Hm]; [lia|]. now apply mem0_nil in Hm. }
    unfold ctx. cbn [lvl zapp enc].
    destruct (a ++ t ++ cc) as [|e0 l0] eqn:El.
    { apply Hempty. destruct a; [|discriminate]. destruct t; [auto|discriminate]. }
    assert (Ht : t <> []).
    { intros ->. destruct Hne as [Hne|[H1 H2]]; [now apply Hne|].
      inversion H1; inversion H2; subst. discriminate. }
    rewrite <- El. clear e0 l0 El Hempty Hne.
    rewrite (Hcur a cc). rewrite HM.
    destruct R as [|h R].
    { exfalso. destruct Hnil as [->|(? & ? & ? & _)]; [|discriminate]. cbn in HM. congruence. }
    replace (a ++ (P ++ h :: R) ++ cc) with ((a ++ P) ++ (h :: R) ++ cc) by (now rewrite !app_assoc).
    rewrite nth_error_app_exact by (now rewrite app_length). cbn [hd_error app].
    eexists. split; [reflexivity|].
    rewrite HM in Hwf. cbn [tmem]. split.
    + intros Hb x Hx. split; auto. exists h. rewrite in_app_iff. split; [right; left; auto|lia].
    + intros Hm. destruct (wf0_cover _ Hwf (fst cur) (snd cur) Hc) as (e & He & H1 & H2).
      { intros x Hx. now apply Hm. }
      apply in_app_iff in He. destruct He as [He|[<-|He]].
      * specialize (HPc e He). lia.
      * lia.
      * specialize (Htl e He). lia.
  - destruct pre as [|c pre]; [discriminate|]. injection Hlen as Hlen.
    destruct (split_cons _ _ HA) as (a & A' & -> & HA').
    destruct (split_cons _ _ HC) as (cc & C' & -> & HC').
    rewrite !ctx_S. cbn [hd].
    apply consis_cons in HcA; [|now apply length_nonnil in HA'].
    apply consis_cons in HcC; [|now apply length_nonnil in HC'].
    destruct HcA as [HsA HcA], HcC as [HsC HcC].
    cbn in Hwf. destruct Hwf as [Hs Hf].
    assert (Hnn : forall l : list (Z * tree d), zapp A' (zapp (zc l) C') <> []).
    { intros l. apply length_nonnil with d. rewrite zapp_length; auto.
      rewrite zapp_length; rewrite zc_length; auto. }
    assert (Hsum : forall l : list (Z * tree d), vsum (a ++ map cl l ++ cc) = Z.of_nat (length (hd [] (zapp A' (zapp (zc l) C'))))).
    { intros l. rewrite !vsum_app, HsA, HsC. destruct (consis_zc l) as [_ ->].
      rewrite hd_zapp, hd_zapp, !app_length; rewrite ?zapp_length; rewrite ?zc_length; auto; lia. }
    rewrite (enc_cons _ _ (Hnn t)).
    rewrite !tlen_S. cbn [lookup_helper].
    cbn [tree] in t.
    destruct (key_cases t c Hs) as [(l1 & s & l2 & E & H1 & H2)|(l1 & l2 & E & H1 & H2)].
    + subst t.
      destruct (find_key_found a cc l1 l2 c s H1 H2) as [Eub Enth].
      rewrite Eub.
      replace (length a + length l1 + 1 =? length a)%nat with false by lia.
      replace (length a + length l1 + 1 - 1)%nat with (length a + length l1)%nat by lia.
      rewrite Enth. cbn [fst snd]. rewrite Z.eqb_refl. cbn [fst snd].
      apply Forall_app in Hf. destruct Hf as [_ Hf]. apply Forall_cons_iff' in Hf.
      cbn in Hf. destruct Hf as ((Hn & Hw) & _).
      destruct (consis_zc l1) as [Hc1 Hs1]. destruct (consis_zc l2) as [Hc2 Hs2].
      assert (Eno : next_offset (offs 0 (a ++ map cl (l1 ++ (c, s) :: l2) ++ cc)) (length a + length l1 + 1)
                 (enc (zapp A' (zapp (zc (l1 ++ (c, s) :: l2)) C'))) = vsum a + vsum (map cl l1) + Z.of_nat (tlen s)).
      { pose proof (next_offset_enc (a ++ map cl l1 ++ [(c, Z.of_nat (tlen s))]) (map cl l2 ++ cc)
                      (zapp A' (zapp (zc (l1 ++ (c, s) :: l2)) C')) (Hnn _)) as Hno.
        replace ((a ++ map cl l1 ++ [(c, Z.of_nat (tlen s))]) ++ map cl l2 ++ cc)
          with (a ++ map cl (l1 ++ (c, s) :: l2) ++ cc) in Hno.
        2:{ rewrite map_app, <- !app_assoc. reflexivity. }
        specialize (Hno (Hsum _)).
        rewrite !app_length, map_length in Hno. cbn [length] in Hno. rewrite Nat.add_assoc in Hno.
        rewrite Hno, !vsum_app. cbn. lia. }
      rewrite Eno.
      rewrite ctx_descend.
      assert (HlA : length (zapp A' (zc l1)) = S d) by (rewrite zapp_length; rewrite ?zc_length; auto).
      assert (HlC : length (zapp (zc l2) C') = S d) by (rewrite zapp_length; rewrite ?zc_length; auto).
      assert (Hhd : vsum a + vsum (map cl l1) = Z.of_nat (length (hd [] (zapp A' (zc l1))))).
      { rewrite hd_zapp, app_length by (rewrite zc_length; auto). rewrite HsA, Hs1. lia. }
      rewrite Hhd, Nat2Z.id.
      replace (Z.to_nat (Z.of_nat (length (hd [] (zapp A' (zc l1)))) + Z.of_nat (tlen s)))
        with (length (hd [] (zapp A' (zc l1))) + tlen s)%nat by lia.
      destruct (IH s (zapp A' (zc l1)) (zapp (zc l2) C') pre cur) as (b & -> & Hb); auto.
      { apply consis_zapp; auto. rewrite zc_length; auto. }
      { apply consis_zapp; auto. rewrite zc_length; auto. }
      exists b. split; auto. rewrite Hb. cbn [tmem]. split; intros H x Hx.
      * exists s. split; [apply in_mid; auto|apply H; auto].
      * destruct (H x Hx) as (s' & Hin & Hm). apply in_mid in Hin.
        destruct Hin as [Hin|[[_ ->]|Hin]]; auto; [apply H1 in Hin|apply H2 in Hin]; cbn in Hin; lia.
    + subst t.
      destruct (find_key_none a cc l1 l2 c H1 H2) as [Eub Enth].
      rewrite Eub.
      assert (Hno : ~ (forall x, fst cur <= x < snd cur -> tmem (S d) (l1 ++ l2) (c :: pre) x)).
      { intros H. destruct (H (fst cur)) as (s & Hin & _); [lia|]. apply in_app_iff in Hin.
        destruct Hin as [Hin|Hin]; [apply H1 in Hin|apply H2 in Hin]; cbn in Hin; lia. }
      exists false. split; [|split; [discriminate|intros H; now apply Hno in H]].
      destruct Enth as [->|(entry & -> & Hne')].
      * cbn. now rewrite Nat.add_0_r, Nat.eqb_refl.
      * destruct (Nat.eqb_spec (length a + length l1) (length a)); auto.
        destruct (Z.eqb_spec (fst entry) c); [contradiction|auto].
Qed.
