(** Regions reachable through the API: representation invariant and the
    membership characterisation of insert, remove, lookup and equality. *)
From Verif Require Import Base ListFacts RegionModel RegionTree RegionFlat RegionEnc.
From Coq Require Import Sorted.

(** Streaks of a tree in iteration order. *)
Fixpoint tstr (d : nat) : tree d -> list Z -> list streak :=
  match d return tree d -> list Z -> list streak with
  | O => fun t pre => map (fun e => mkStreak pre (fst e) (snd e)) t
  | S d' => fun t pre => flat_map (fun p => tstr d' (snd p) (pre ++ [fst p])) t
  end.

Definition s_pair (s : streak) : Z * Z := (s_x s, s_e s).

Lemma last_zapp a b : length a = length b -> last (zapp a b) [] = last a [] ++ last b [].
Proof.
  revert b. induction a as [|x a IH]; intros [|y b] H; try discriminate; auto.
  destruct a as [|x' a], b as [|y' b]; try discriminate; auto.
  change (last (zapp (x' :: a) (y' :: b)) [] = last (x' :: a) [] ++ last (y' :: b) []).
  apply IH. auto.
Qed.

Lemma last_cons {A} (x : A) l d : l <> [] -> last (x :: l) d = last l d.
Proof. destruct l; [congruence|reflexivity]. Qed.

Lemma last_znil n : last (znil n) [] = [].
Proof. induction n as [|[|n] IH]; cbn; auto. Qed.

Lemma last_lvl d : forall (t : tree d) pre, last (lvl d t) [] = map s_pair (tstr d t pre).
Proof.
  induction d as [|d IH]; intros t pre.
  - cbn. rewrite map_map. cbn. unfold s_pair; cbn. symmetry. erewrite map_ext; [apply map_id|].
    intros []; auto.
  - rewrite lvl_S, last_cons by (apply length_nonnil with d; apply zc_length).
    cbn [tree] in t. cbn [tstr]. induction t as [|p t IHt]; [apply last_znil|].
    rewrite zc_cons. rewrite last_zapp by (rewrite lvl_length, zc_length; auto).
    cbn [flat_map]. rewrite map_app. f_equal; auto.
Qed.

Lemma enc_last lv : last (enc lv) [] = last lv [].
Proof.
  induction lv as [|v lv IH]; auto. destruct lv as [|w lv]; auto.
  rewrite enc_cons by congruence. rewrite last_cons; [|destruct lv; cbn; congruence].
  rewrite IH. symmetry. apply last_cons. congruence.
Qed.

Lemma enc_length lv : length (enc lv) = length lv.
Proof.
  induction lv as [|v lv IH]; auto. destruct lv as [|w lv]; auto.
  rewrite enc_cons by congruence. cbn [length] in *. auto.
Qed.

(** Membership in the streak list of a tree. *)
Lemma tstr_mem d : forall (t : tree d) pre c,
  (exists s, In s (tstr d t pre) /\ in_streak s c) <->
  exists p x, c = pre ++ p ++ [x] /\ tmem d t p x.
Proof.
  induction d as [|d IH]; intros t pre c.
  - cbn. split.
    + intros (s & Hs & x & -> & Hx). apply in_map_iff in Hs. destruct Hs as (e & <- & He). cbn in *.
      exists [], x. split; auto. split; auto. exists e; auto.
    + intros (p & x & -> & -> & e & He & Hx). exists (mkStreak pre (fst e) (snd e)). split.
      * apply in_map_iff. exists e; auto.
      * exists x. auto.
  - cbn [tstr]. split.
    + intros (s & Hs & Hc). apply in_flat_map in Hs. destruct Hs as ([k u] & Hin & Hs). cbn in Hs.
      destruct (proj1 (IH u (pre ++ [k]) c)) as (p & x & -> & Hm); [eauto|].
      exists (k :: p), x. split; [now rewrite <- app_assoc|]. cbn. exists u. auto.
    + intros (p & x & -> & Hm). destruct p as [|k p]; [destruct Hm|]. cbn in Hm.
      destruct Hm as (u & Hin & Hm).
      destruct (proj2 (IH u (pre ++ [k]) (pre ++ (k :: p) ++ [x]))) as (s & Hs & Hc).
      * exists p, x. split; auto. now rewrite <- app_assoc.
      * exists s. split; auto. apply in_flat_map. exists (k, u). auto.
Qed.

Lemma tmem_length d : forall (t : tree d) p x, tmem d t p x -> length p = d.
Proof.
  induction d; intros t p x H.
  - cbn in H. destruct H as [-> _]; auto.
  - destruct p; cbn in H; [tauto|]. destruct H as (s & _ & H). cbn. f_equal. eauto.
Qed.

Lemma tstr_nil d (t : tree d) pre : twf d t -> tstr d t pre = [] -> tlen t = O.
Proof.
  intros Hw H. destruct (tlen t) eqn:E; auto. exfalso.
  destruct (twf_nonempty d t Hw) as (p & x & Hl & Hm); [lia|].
  destruct (proj2 (tstr_mem d t pre (pre ++ p ++ [x]))) as (s & Hs & _); [eauto|].
  rewrite H in Hs. destruct Hs.
Qed.

(** ** Valid regions *)

(** [rvalid d r]: [r] is a Region of dimension [S d] in canonical form. *)
Definition rvalid (d : nat) (r : indices) : Prop := exists t : tree d, twf d t /\ r = enc (lvl d t).

(** API-level membership: [Region::count] answers true. *)
Definition rin (r : indices) (c : coord) : Prop := reg_count r c = Some true.

Lemma coord_split (c : coord) d : length c = S d -> exists p x, c = p ++ [x] /\ length p = d.
Proof.
  destruct c using rev_ind; [discriminate|]. rewrite app_length; cbn. intros H.
  exists c, x. split; auto. lia.
Qed.

Lemma coord_streak_snoc p x : coord_streak (p ++ [x]) = mkStreak p x (x + 1).
Proof. unfold coord_streak. now rewrite removelast_last, last_last. Qed.

Lemma ctx_nil d (t : tree d) : ctx (znil (S d)) t (znil (S d)) = lvl d t.
Proof.
  unfold ctx. rewrite zapp_nil_r by apply lvl_length. apply zapp_nil_l. apply lvl_length.
Qed.

Lemma hd_znil n : hd [] (znil n) = [] :> vec.
Proof. destruct n; auto. Qed.

Lemma hd_enc_lvl d (t : tree d) : length (hd [] (enc (lvl d t))) = tlen t.
Proof. now rewrite enc_hd_length, hd_lvl. Qed.

Lemma count_streak_tree d (t : tree d) s :
  twf d t -> length (s_pre s) = d -> s_x s < s_e s ->
  exists b, reg_count_streak (enc (lvl d t)) s = Some b /\
    (b = true <-> forall x, s_x s <= x < s_e s -> tmem d t (s_pre s) x).
Proof.
  intros Hw Hl Hx. unfold reg_count_streak. rewrite hd_enc_lvl.
  pose proof (lookup_sim d t (znil (S d)) (znil (S d)) (s_pre s) (s_x s, s_e s) Hw Hl Hx
                (znil_length _) (znil_length _) (consis_znil _) (consis_znil _)
                (or_intror (conj eq_refl eq_refl))) as H.
  rewrite ctx_nil in H. cbn [znil repeat hd length Nat.add] in H. exact H.
Qed.

Lemma rin_tree d (t : tree d) p x :
  twf d t -> length p = d -> (rin (enc (lvl d t)) (p ++ [x]) <-> tmem d t p x).
Proof.
  intros Hw Hl. unfold rin, reg_count. rewrite coord_streak_snoc.
  destruct (count_streak_tree d t (mkStreak p x (x + 1)) Hw Hl) as (b & -> & Hb); cbn; [lia|].
  cbn in Hb. split.
  - intros H; injection H as ->. apply Hb; auto. lia.
  - intros H. f_equal. apply Hb. intros x' Hx'. now replace x' with x by lia.
Qed.

Lemma rvalid_empty d : rvalid d (reg_empty (S d)).
Proof.
  exists (tempty d). split; [apply twf_empty|].
  assert (lvl d (tempty d) = znil (S d)) as -> by (destruct d; reflexivity).
  unfold reg_empty. induction d as [|d IH]; auto.
  change (znil (S (S d))) with ([] :: znil (S d)). rewrite enc_cons by (cbn; congruence).
  rewrite <- IH. reflexivity.
Qed.

Lemma rin_empty d c : length c = S d -> ~ rin (reg_empty (S d)) c.
Proof.
  intros Hl. destruct (coord_split c d Hl) as (p & x & -> & Hp).
  assert (reg_empty (S d) = enc (lvl d (tempty d))) as ->.
  { destruct (rvalid_empty d) as (t & Hw & E). rewrite E.
    assert (t = tempty d); [|subst; auto].
    apply tlen_empty. rewrite <- hd_enc_lvl, <- E. reflexivity. }
  rewrite rin_tree by (auto using twf_empty). rewrite tmem_empty. tauto.
Qed.

Lemma insert_tree d (t : tree d) s :
  twf d t -> length (s_pre s) = d -> s_x s < s_e s ->
  reg_insert (enc (lvl d t)) s = enc (lvl d (tins d t (s_pre s) (s_x s, s_e s))).
Proof.
  intros Hw Hl Hx. unfold reg_insert. replace (s_e s <=? s_x s) with false by lia.
  rewrite hd_enc_lvl.
  pose proof (insert_sim d t (znil (S d)) (znil (S d)) (s_pre s) (s_x s, s_e s) Hw Hl Hx
                (znil_length _) (znil_length _) (consis_znil _) (consis_znil _)) as H.
  rewrite !ctx_nil in H. cbn [znil repeat hd length Nat.add] in H. rewrite H. reflexivity.
Qed.

Lemma is_empty_tree d (t : tree d) : twf d t -> reg_is_empty (enc (lvl d t)) = tnil t.
Proof.
  intros Hw. unfold reg_is_empty. rewrite enc_last, (last_lvl d t []).
  unfold tnil. destruct (tstr d t []) eqn:E; cbn.
  - rewrite (tstr_nil d t [] Hw E). reflexivity.
  - symmetry. apply Nat.eqb_neq. intros H. rewrite (tlen_empty _ _ H) in E. destruct d; discriminate.
Qed.

Lemma trem_empty d pre cur : trem d (tempty d) pre cur = tempty d.
Proof. destruct d; cbn; [reflexivity|]. destruct pre; auto. Qed.

Lemma remove_tree d (t : tree d) s :
  twf d t -> length (s_pre s) = d -> s_x s < s_e s ->
  reg_remove (enc (lvl d t)) s = enc (lvl d (trem d t (s_pre s) (s_x s, s_e s))).
Proof.
  intros Hw Hl Hx. unfold reg_remove. replace (s_e s <=? s_x s) with false by lia.
  rewrite is_empty_tree by auto. cbn [orb]. unfold tnil.
  destruct (Nat.eqb_spec (tlen t) 0) as [E|E].
  - rewrite (tlen_empty _ _ E), trem_empty. reflexivity.
  - rewrite hd_enc_lvl.
    pose proof (remove_sim d t (znil (S d)) (znil (S d)) (s_pre s) (s_x s, s_e s) Hw Hl Hx
                (znil_length _) (znil_length _) (consis_znil _) (consis_znil _)) as H.
    rewrite !ctx_nil in H. cbn [znil repeat hd length Nat.add] in H. rewrite H. reflexivity.
Qed.

(** ** Laws *)

Lemma in_streak_snoc s p x : in_streak s (p ++ [x]) <-> p = s_pre s /\ s_x s <= x < s_e s.
Proof.
  unfold in_streak. split.
  - intros (x' & H & Hx). apply app_inj_tail in H. destruct H as [-> ->]. auto.
  - intros [-> H]. eauto.
Qed.

Lemma insert_valid d r s :
  rvalid d r -> length (s_pre s) = d ->
  rvalid d (reg_insert r s) /\
  forall c, length c = S d -> (rin (reg_insert r s) c <-> rin r c \/ in_streak s c).
Proof.
  intros (t & Hw & ->) Hl.
  destruct (Z.lt_ge_cases (s_x s) (s_e s)) as [Hx|Hx].
  - rewrite insert_tree by auto.
    destruct (tins_spec d t (s_pre s) (s_x s, s_e s) Hw Hl Hx) as [Hw' Hm].
    split; [exists (tins d t (s_pre s) (s_x s, s_e s)); auto|].
    intros c Hc. destruct (coord_split c d Hc) as (p & x & -> & Hp).
    rewrite !rin_tree by auto. rewrite Hm, in_streak_snoc. reflexivity.
  - unfold reg_insert. replace (s_e s <=? s_x s) with true by lia.
    split; [exists t; auto|]. intros c Hc. split; auto.
    intros [H|(x & _ & H)]; auto. lia.
Qed.

Lemma remove_valid d r s :
  rvalid d r -> length (s_pre s) = d ->
  rvalid d (reg_remove r s) /\
  forall c, length c = S d -> (rin (reg_remove r s) c <-> rin r c /\ ~ in_streak s c).
Proof.
  intros (t & Hw & ->) Hl.
  destruct (Z.lt_ge_cases (s_x s) (s_e s)) as [Hx|Hx].
  - rewrite remove_tree by auto.
    destruct (trem_spec d t (s_pre s) (s_x s, s_e s) Hw Hl Hx) as [Hw' Hm].
    split; [exists (trem d t (s_pre s) (s_x s, s_e s)); auto|].
    intros c Hc. destruct (coord_split c d Hc) as (p & x & -> & Hp).
    rewrite !rin_tree by auto. rewrite Hm, in_streak_snoc. reflexivity.
  - unfold reg_remove. replace (s_e s <=? s_x s) with true by lia.
    split; [exists t; auto|]. intros c Hc. split; [|tauto].
    intros H. split; auto. intros (x & _ & H'). lia.
Qed.

Lemma count_total d r c : rvalid d r -> length c = S d ->
  reg_count r c = Some true \/ reg_count r c = Some false.
Proof.
  intros (t & Hw & ->) Hl. destruct (coord_split c d Hl) as (p & x & -> & Hp).
  unfold reg_count. rewrite coord_streak_snoc.
  destruct (count_streak_tree d t (mkStreak p x (x + 1)) Hw Hp) as (b & -> & Hb); cbn; [lia|].
  destruct b; auto.
Qed.

Lemma count_streak_valid d r s : rvalid d r -> length (s_pre s) = d -> s_x s < s_e s ->
  exists b, reg_count_streak r s = Some b /\ (b = true <-> forall c, in_streak s c -> rin r c).
Proof.
  intros (t & Hw & ->) Hl Hx.
  destruct (count_streak_tree d t s Hw Hl Hx) as (b & Hb & Hiff). exists b. split; auto.
  rewrite Hiff. split.
  - intros H c (x & -> & Hc). apply rin_tree; auto.
  - intros H x Hc. apply rin_tree; auto. apply H. apply in_streak_snoc. auto.
Qed.

Lemma valid_ext d a b : rvalid d a -> rvalid d b ->
  (forall c, length c = S d -> (rin a c <-> rin b c)) -> a = b.
Proof.
  intros (t & Hw & ->) (u & Hu & ->) H. do 2 f_equal. apply twf_ext; auto.
  intros p x Hp. specialize (H (p ++ [x])). rewrite app_length, Hp in H. cbn in H.
  rewrite !rin_tree in H by auto. apply H. lia.
Qed.

Lemma pair_eqb_spec a b : pair_eqb a b = true <-> a = b.
Proof. destruct a, b; unfold pair_eqb; cbn. split; [intros; f_equal; lia|intros [= -> ->]; lia]. Qed.

Lemma list_eqb_spec {A} (eqb : A -> A -> bool) :
  (forall a b, eqb a b = true <-> a = b) -> forall a b, list_eqb eqb a b = true <-> a = b.
Proof.
  intros H. induction a as [|x a IH]; intros [|y b]; cbn; split; try discriminate; auto.
  - rewrite andb_true_iff, H, IH. intros [-> ->]; auto.
  - intros [= -> ->]. rewrite andb_true_iff, H, IH. auto.
Qed.

Lemma reg_eqb_spec a b : reg_eqb a b = true <-> a = b.
Proof. apply list_eqb_spec. apply list_eqb_spec. apply pair_eqb_spec. Qed.
