(** Lemmas about ContainerCell and FixedArray. *)
From Coq Require Import Permutation Sorted.
From Verif Require Import Base ListFacts RegionModel RegionOpsModel GridModel GridFacts SellFacts ArrayModel ArraySpec.

(** ** Arrays *)

Lemma vec_get_mid {A} (p : list A) x r i : i = Z.of_nat (length p) -> vec_get (p ++ x :: r) i = Some x.
Proof. intros ->. rewrite vec_get_app. rewrite Z.ltb_irrefl, Z.sub_diag. reflexivity. Qed.

Lemma shift_up_spec {A} (b : list A) : forall p x r i, i = Z.of_nat (length p + length b) ->
  shift_up (p ++ b ++ x :: r) i (length b) = Some (p ++ hd x b :: b ++ r).
Proof.
  induction b as [|y b IH] using rev_ind; intros p x r i Hi; [reflexivity|]. rewrite app_length in *. cbn [length] in *. rewrite Nat.add_1_r. cbn [shift_up].
  rewrite <- app_assoc. cbn [app]. rewrite app_assoc. rewrite (vec_get_mid (p ++ b) y (x :: r)) by (rewrite app_length; lia). cbn [obind].
  change (y :: x :: r) with ([y] ++ x :: r). rewrite app_assoc. rewrite (vec_set_app ((p ++ b) ++ [y]) x r y) by (rewrite !app_length; cbn; lia). cbn [obind].
  rewrite <- !app_assoc. cbn [app]. rewrite (IH p y (y :: r)) by lia. f_equal. f_equal. destruct b; reflexivity.
Qed.

Lemma shift_down_spec {A} (b : list A) : forall p x r i, i = Z.of_nat (length p) ->
  shift_down (p ++ x :: b ++ r) i (length b) = Some (p ++ b ++ last b x :: r).
Proof.
  induction b as [|y b IH]; intros p x r i Hi; [reflexivity|]. cbn [shift_down length app].
  change (p ++ x :: y :: b ++ r) with (p ++ [x] ++ y :: b ++ r). rewrite app_assoc. rewrite (vec_get_mid (p ++ [x]) y) by (rewrite app_length; cbn; lia). cbn [obind].
  rewrite <- app_assoc. cbn [app]. rewrite (vec_set_app p x (y :: b ++ r) y i Hi). cbn [obind].
  change (p ++ y :: y :: b ++ r) with (p ++ [y] ++ y :: b ++ r). rewrite app_assoc. rewrite (IH (p ++ [y]) y r) by (rewrite app_length; cbn; lia).
  rewrite <- app_assoc. cbn [app]. f_equal. f_equal. f_equal. f_equal. f_equal. clear. revert y. induction b as [|z b IH]; intros y; [reflexivity|]. cbn [last] in *. destruct b; [reflexivity|]. apply IH.
Qed.

Lemma vec_read_app {A} (l : list A) : forall p r i, i = Z.of_nat (length p) -> vec_read (p ++ l ++ r) i (length l) = Some l.
Proof.
  induction l as [|x l IH]; intros p r i Hi; [reflexivity|]. cbn [vec_read length app]. rewrite (vec_get_mid p x) by exact Hi. cbn [obind].
  change (p ++ x :: l ++ r) with (p ++ [x] ++ l ++ r). rewrite app_assoc, (IH (p ++ [x])) by (rewrite app_length; cbn; lia). reflexivity.
Qed.

(** ** ContainerCell *)

Ltac lens H := repeat (first [rewrite app_length in H | rewrite map_length in H | progress cbn [length] in H]).
Ltac lens_goal := repeat (first [rewrite app_length | rewrite map_length | progress cbn [length]]).

Definition keys_sorted {A} (l : list (Z * A)) : Prop := StronglySorted (fun a b => fst a < fst b) l.

Definition crep {A} (SIZE : Z) (c : ccell A) (l : list (Z * A)) : Prop :=
  keys_sorted l /\ cc_num c = Z.of_nat (length l) /\
  exists r1 r2, cc_ids c = map fst l ++ r1 /\ cc_cells c = map snd l ++ r2 /\ length (cc_ids c) = Z.to_nat SIZE /\ length (cc_cells c) = Z.to_nat SIZE.

Lemma keys_split {A} (l : list (Z * A)) k : keys_sorted l -> exists a b, l = a ++ b /\ count_while (fun x => x <=? k) (map fst l) = length a /\
  Forall (fun p => k < fst p) b /\
  ((exists a' w, a = a' ++ [(k, w)] /\ Forall (fun p => fst p < k) a') \/ Forall (fun p => fst p < k) a).
Proof.
  induction 1 as [|[x w] l Hs IH Hx].
  - exists [], []. repeat split; auto.
  - destruct IH as (a & b & E & Hc & Hb & Ha). cbn [map fst count_while]. destruct (Z.leb_spec x k) as [Hk|Hk].
    + exists ((x, w) :: a), b. split; [now rewrite E|]. split; [cbn; now rewrite Hc|]. split; [exact Hb|]. destruct Ha as [(a' & w' & -> & Ha)|Ha].
      * left. exists ((x, w) :: a'), w'. split; [reflexivity|]. constructor; [|exact Ha]. rewrite Forall_forall in Hx. cbn.
        specialize (Hx (k, w')). cbn in Hx. apply Hx. rewrite E. apply in_app_iff. left. apply in_app_iff. right. now left.
      * destruct (Z.eq_dec x k) as [->|Hn]; [|right; constructor; [cbn; lia|exact Ha]].
        left. exists [], w. split; [|constructor]. cbn. f_equal. destruct a as [|p a]; [reflexivity|exfalso]. rewrite Forall_forall in Hx, Ha.
        specialize (Hx p). specialize (Ha p (or_introl eq_refl)). cbn in Hx. assert (k < fst p); [|lia]. apply Hx. rewrite E. now left.
    + exists [], ((x, w) :: l). split; [reflexivity|]. split; [reflexivity|]. split; [|right; constructor]. constructor; [exact Hk|].
      apply Forall_forall. intros p Hp. rewrite Forall_forall in Hx. specialize (Hx p Hp). cbn in Hx. lia.
Qed.

Lemma crep_upper {A} SIZE (c : ccell A) l k : crep SIZE c l -> cc_upper c k = Z.of_nat (count_while (fun x => x <=? k) (map fst l)).
Proof.
  intros (_ & Hn & r1 & r2 & Hi & _). unfold cc_upper. rewrite Hn, Hi, Nat2Z.id. rewrite <- (map_length fst l) at 1. now rewrite firstn_app, Nat.sub_diag, firstn_all, app_nil_r.
Qed.

(** What lies to both sides of a key. *)
Lemma crep_find {A} SIZE (c : ccell A) l k : crep SIZE c l ->
  (exists a w b, l = a ++ (k, w) :: b /\ cc_find c k = Some (Some (Z.of_nat (length a))) /\ cc_upper c k = Z.of_nat (length a) + 1 /\
     Forall (fun p => fst p < k) a /\ Forall (fun p => k < fst p) b) \/
  (exists a b, l = a ++ b /\ cc_find c k = Some None /\ cc_upper c k = Z.of_nat (length a) /\ Forall (fun p => fst p < k) a /\ Forall (fun p => k < fst p) b /\
     (0 < Z.of_nat (length a) -> exists k', vec_get (cc_ids c) (Z.of_nat (length a) - 1) = Some k' /\ k' < k)).
Proof.
  intros Hc. pose proof Hc as (Hs & Hn & r1 & r2 & Hi & _). destruct (keys_split l k Hs) as (a & b & E & Ec & Hb & Ha).
  unfold cc_find. rewrite (crep_upper SIZE c l k Hc), Ec, Hi, E. destruct Ha as [(a' & w & -> & Ha)|Ha].
  - left. exists a', w, b. rewrite <- app_assoc. split; [reflexivity|]. rewrite app_length. cbn [length app].
    destruct (Z.eqb_spec (Z.of_nat (length a' + 1)) 0); [lia|]. rewrite map_app, <- app_assoc. cbn [map fst app].
    rewrite (vec_get_mid (map fst a') k) by (rewrite map_length; lia). cbn [obind]. rewrite Z.eqb_refl. split; [do 2 f_equal; lia|]. split; [lia|]. auto.
  - right. exists a, b. split; [reflexivity|]. assert (Hlast : 0 < Z.of_nat (length a) -> exists k', vec_get (map fst (a ++ b) ++ r1) (Z.of_nat (length a) - 1) = Some k' /\ k' < k).
    { intros H0. destruct (@exists_last _ a) as (a' & [k' w'] & ->); [intros ->; cbn in H0; lia|]. exists k'. rewrite !map_app, <- !app_assoc. cbn [map fst app]. split.
      - rewrite vec_get_mid; [reflexivity|]. rewrite app_length, map_length. cbn. lia.
      - rewrite Forall_forall in Ha. apply (Ha (k', w')). apply in_app_iff. right. now left. }
    split; [|auto]. destruct (Z.eqb_spec (Z.of_nat (length a)) 0) as [H0|H0]; [reflexivity|]. destruct (Hlast ltac:(lia)) as (k' & -> & Hk). cbn [obind].
    destruct (Z.eqb_spec k' k); [lia|reflexivity].
Qed.

Lemma sorted_app {A} (a : list (Z * A)) k b : keys_sorted (a ++ b) -> Forall (fun p => fst p < fst k) a -> Forall (fun p => fst k < fst p) b -> keys_sorted (a ++ k :: b).
Proof.
  induction a as [|p a IH]; intros Hs Ha Hb; cbn [app] in *.
  - constructor; auto.
  - inversion Hs as [|? ? Hs' Hp]. inversion Ha as [|? ? Hpk Ha']. subst. constructor; [now apply IH|]. apply Forall_forall. intros q Hq. apply in_app_iff in Hq.
    rewrite Forall_forall in Hp. destruct Hq as [Hq|[<-|Hq]]; [apply Hp, in_app_iff; auto|exact Hpk|apply Hp, in_app_iff; auto].
Qed.

Lemma sorted_drop {A} (a : list (Z * A)) k b : keys_sorted (a ++ k :: b) -> keys_sorted (a ++ b).
Proof.
  induction a as [|p a IH]; intros Hs; cbn [app] in *; inversion Hs as [|? ? Hs' Hp]; subst; [assumption|]. constructor; [now apply IH|].
  apply Forall_forall. intros q Hq. rewrite Forall_forall in Hp. apply Hp. apply in_app_iff. apply in_app_iff in Hq. destruct Hq; [auto|right; now right].
Qed.

Lemma has_false {A} (l : list (Z * A)) k : Forall (fun p => fst p <> k) l -> map_has l k = false.
Proof. intros H. unfold map_has. apply Bool.not_true_is_false. intros E. apply existsb_exists in E. destruct E as (p & Hp & E). rewrite Forall_forall in H. specialize (H p Hp). lia. Qed.

Lemma replace_id {A} (l : list (Z * A)) k v : Forall (fun p => fst p <> k) l -> map (fun p => if fst p =? k then (k, v) else p) l = l.
Proof. induction 1 as [|p l Hp _ IH]; [reflexivity|]. cbn [map]. rewrite IH. destruct (Z.eqb_spec (fst p) k); [contradiction|reflexivity]. Qed.

Lemma filter_id {A} (l : list (Z * A)) k : Forall (fun p => fst p <> k) l -> filter (fun p => negb (fst p =? k)) l = l.
Proof. induction 1 as [|p l Hp _ IH]; [reflexivity|]. cbn [filter]. rewrite IH. destruct (Z.eqb_spec (fst p) k); [contradiction|reflexivity]. Qed.

Lemma crep_op {A} SIZE (c : ccell A) l o : 0 <= SIZE -> crep SIZE c l ->
  exists c' l', cc_op SIZE c o = Some (c', snd (map_op SIZE l o)) /\ crep SIZE c' l' /\ Permutation l' (fst (map_op SIZE l o)).
Proof.
  intros HS Hc. pose proof Hc as (Hs & Hn & r1 & r2 & Hi & Hce & L1 & L2).
  assert (HlS : Z.of_nat (length l) <= SIZE) by (rewrite Hi, app_length, map_length in L1; lia).
  destruct o as [k v|k|]; cbn [cc_op map_op].
  - (* insert *)
    destruct (crep_find SIZE c l k Hc) as [(a & w & b & E & Ef & Eu & Ha & Hb)|(a & b & E & Ef & Eu & Ha & Hb & Hk)].
    + (* present *)
      assert (Hh : map_has l k = true). { apply existsb_exists. exists (k, w). split; [rewrite E; apply in_app_iff; right; now left|cbn; apply Z.eqb_refl]. }
      rewrite Hh. cbn [fst snd]. unfold cc_insert. rewrite Eu. destruct (Z.ltb_spec 0 (Z.of_nat (length a) + 1)); [|lia].
      assert (Eg : vec_get (cc_ids c) (Z.of_nat (length a) + 1 - 1) = Some k).
      { rewrite Hi, E, map_app, <- app_assoc. cbn [map fst app]. apply vec_get_mid. rewrite map_length. lia. }
      rewrite Eg. cbn [obind deref]. rewrite Z.eqb_refl. rewrite Hce, E, map_app, <- app_assoc. cbn [map snd app].
      rewrite vec_set_app by (rewrite map_length; lia). cbn [option_map]. eexists. exists (a ++ (k, v) :: b). split; [reflexivity|]. split.
      * split; [apply sorted_app; [apply (sorted_drop _ (k, w)); now rewrite <- E|exact Ha|exact Hb]|]. cbn [cc_num cc_ids cc_cells]. split; [rewrite Hn, E, !app_length; reflexivity|].
        exists r1, r2. rewrite Hi, E, !map_app, <- !app_assoc. cbn [map fst snd app]. split; [reflexivity|]. split; [reflexivity|].
        rewrite Hi, E, map_app, <- app_assoc in L1. rewrite Hce, E, map_app, <- app_assoc in L2. cbn [map fst snd app] in L1, L2. rewrite !app_length in *. cbn [length] in *. auto.
      * rewrite map_app. cbn [map fst]. rewrite Z.eqb_refl.
        rewrite !replace_id; [apply Permutation_refl| |]; eapply Forall_impl; [|exact Hb| |exact Ha]; cbn; intros; lia.
    + (* absent *)
      assert (Hh : map_has l k = false).
      { apply has_false. rewrite E. apply Forall_app. split; eapply Forall_impl; [|exact Ha| |exact Hb]; cbn; intros; lia. }
      rewrite Hh. unfold cc_insert. rewrite Eu, Hn. set (fr := if Z.of_nat (length l) =? SIZE then _ else _).
      assert (Efr : (if 0 <? Z.of_nat (length a) then obind (vec_get (cc_ids c) (Z.of_nat (length a) - 1)) (fun k0 => if k0 =? k then
          obind (deref (cc_cells c) (Val v)) (fun v0 => option_map (fun cells => Done (mkCC (cc_ids c) cells (Z.of_nat (length l)))) (vec_set (cc_cells c) (Z.of_nat (length a) - 1) v0)) else fr) else fr) = fr).
      { destruct (Z.ltb_spec 0 (Z.of_nat (length a))) as [H0|H0]; [|reflexivity]. destruct (Hk H0) as (k' & -> & Hk'). cbn [obind]. destruct (Z.eqb_spec k' k); [lia|reflexivity]. }
      rewrite Efr. clear Efr. unfold fr. destruct (Z.eqb_spec (Z.of_nat (length l)) SIZE) as [Hf|Hf].
      * cbn [option_map fst snd]. exists c, l. split; [reflexivity|]. split; [exact Hc|reflexivity].
      * cbn [fst snd].
        assert (Hins : keys_sorted (a ++ (k, v) :: b)) by (apply sorted_app; [now rewrite <- E|exact Ha|exact Hb]).
        assert (Hperm : Permutation (a ++ (k, v) :: b) ((k, v) :: l)) by (rewrite E; apply Permutation_sym, Permutation_middle).
        assert (Hr1 : exists x r1', r1 = x :: r1'). { destruct r1; [|eauto]. rewrite Hi, app_nil_r, map_length in L1. lia. }
        assert (Hr2 : exists x r2', r2 = x :: r2'). { destruct r2; [|eauto]. rewrite Hce, app_nil_r, map_length in L2. lia. }
        destruct Hr1 as (x1 & r1' & ->). destruct Hr2 as (x2 & r2' & ->).
        destruct (Z.eqb_spec (Z.of_nat (length a)) (Z.of_nat (length l))) as [He|He].
        -- assert (b = []). { destruct b; [reflexivity|]. rewrite E, app_length in He. cbn in He. lia. } subst b. rewrite app_nil_r in E. subst a.
           cbn [deref obind]. rewrite Hce, Hi, !vec_set_app by (rewrite map_length; reflexivity). cbn [obind option_map].
           eexists. exists (l ++ [(k, v)]). split; [reflexivity|]. split; [|exact Hperm]. split; [exact Hins|]. cbn [cc_num cc_ids cc_cells].
           split; [rewrite app_length; cbn; lia|]. exists r1', r2'. rewrite !map_app, <- !app_assoc. cbn [map fst snd app]. split; [reflexivity|]. split; [reflexivity|].
           rewrite Hi in L1. rewrite Hce in L2. rewrite !app_length in *. cbn [length] in *. auto.
        -- replace (Z.to_nat (Z.of_nat (length l) - Z.of_nat (length a))) with (length b) by (rewrite E, app_length; lia).
           rewrite Hce, Hi, E, !map_app, <- !app_assoc.
           assert (Q2 := shift_up_spec (map snd b) (map snd a) x2 r2'). rewrite !map_length, <- app_length in Q2.
           assert (Q1 := shift_up_spec (map fst b) (map fst a) x1 r1'). rewrite !map_length, <- app_length in Q1.
           rewrite Q2 by reflexivity. cbn [obind]. rewrite Q1 by reflexivity. cbn [obind deref].
           rewrite !vec_set_app by (rewrite map_length; reflexivity). cbn [obind option_map].
           eexists. exists (a ++ (k, v) :: b). split; [reflexivity|]. split; [|now rewrite <- E]. split; [exact Hins|]. cbn [cc_num cc_ids cc_cells].
           split; [rewrite !app_length; cbn; lia|]. exists r1', r2'. rewrite !map_app, <- !app_assoc. cbn [map fst snd app]. split; [reflexivity|]. split; [reflexivity|].
           rewrite Hi, E in L1. rewrite Hce, E in L2. lens L1; lens L2; lens_goal. lia.
  - (* remove *)
    unfold cc_remove. destruct (crep_find SIZE c l k Hc) as [(a & w & b & E & Ef & Eu & Ha & Hb)|(a & b & E & Ef & Eu & Ha & Hb & Hk)]; rewrite Ef; cbn [obind fst snd].
    + assert (Hh : map_has l k = true). { apply existsb_exists. exists (k, w). split; [rewrite E; apply in_app_iff; right; now left|cbn; apply Z.eqb_refl]. }
      rewrite Hh. replace (Z.to_nat (cc_num c - 1 - Z.of_nat (length a))) with (length b) by (rewrite Hn, E, app_length; cbn; lia).
      rewrite Hce, Hi, E, !map_app. cbn [map fst snd]. rewrite <- !app_assoc. cbn [app].
      assert (Q2 := shift_down_spec (map snd b) (map snd a) w r2). rewrite !map_length in Q2.
      assert (Q1 := shift_down_spec (map fst b) (map fst a) k r1). rewrite !map_length in Q1.
      rewrite Q2 by reflexivity. cbn [obind]. rewrite Q1 by reflexivity. cbn [obind].
      eexists. exists (a ++ b). split; [reflexivity|]. split.
      * split; [apply (sorted_drop _ (k, w)); now rewrite <- E|]. cbn [cc_num cc_ids cc_cells]. split; [rewrite Hn, E, !app_length; cbn; lia|]. do 2 eexists.
        rewrite !map_app, <- !app_assoc. split; [reflexivity|]. split; [reflexivity|].
        rewrite Hi, E in L1. rewrite Hce, E in L2. lens L1; lens L2; lens_goal. lia.
      * rewrite filter_app. cbn [filter fst]. rewrite Z.eqb_refl. cbn [negb]. rewrite !filter_id; [apply Permutation_refl| |]; eapply Forall_impl; [|exact Hb| |exact Ha]; cbn; intros; lia.
    + assert (Hall : Forall (fun p => fst p <> k) l). { rewrite E. apply Forall_app. split; eapply Forall_impl; [|exact Ha| |exact Hb]; cbn; intros; lia. }
      rewrite (has_false l k Hall), (filter_id l k Hall). exists c, l. split; [reflexivity|]. split; [exact Hc|reflexivity].
  - (* clear *)
    cbn [fst snd]. exists (cc_clear c), []. split; [reflexivity|]. split; [|constructor]. split; [constructor|]. split; [reflexivity|]. exists (cc_ids c), (cc_cells c). auto.
Qed.

Lemma has_perm {A} (l m : list (Z * A)) k : Permutation l m -> map_has l k = map_has m k.
Proof.
  intros H. unfold map_has. apply Bool.eq_iff_eq_true. rewrite !existsb_exists. split; intros (p & Hp & E); exists p; split; auto; [now apply (Permutation_in p H)|apply (Permutation_in p (Permutation_sym H)); auto].
Qed.

Lemma filter_perm {A} (f : A -> bool) (l m : list A) : Permutation l m -> Permutation (filter f l) (filter f m).
Proof.
  induction 1 as [|x l m _ IH|x y l|l m n _ IH1 _ IH2]; cbn [filter]; [constructor| | |eapply Permutation_trans; eassumption].
  - destruct (f x); [now constructor|exact IH].
  - destruct (f x), (f y); try apply Permutation_refl. constructor.
Qed.

Lemma map_op_perm {A} SIZE (l m : list (Z * A)) o : Permutation l m -> Permutation (fst (map_op SIZE l o)) (fst (map_op SIZE m o)) /\ snd (map_op SIZE l o) = snd (map_op SIZE m o).
Proof.
  intros H. destruct o as [k v|k|]; cbn [map_op].
  - rewrite (has_perm l m k H), (Permutation_length H). destruct (map_has m k); [split; [now apply Permutation_map|reflexivity]|].
    destruct (_ =? _); cbn [fst snd]; split; auto.
  - cbn [fst snd]. split; [now apply filter_perm|now apply has_perm].
  - split; auto.
Qed.

Lemma crep_ops {A} SIZE (os : list (ccop A)) : 0 <= SIZE -> forall c l m, crep SIZE c l -> Permutation l m ->
  exists c' l', cc_ops SIZE c os = Some (c', snd (map_ops SIZE m os)) /\ crep SIZE c' l' /\ Permutation l' (fst (map_ops SIZE m os)).
Proof.
  intros HS. induction os as [|o os IH]; intros c l m Hc Hp; cbn [cc_ops map_ops].
  - exists c, l. auto.
  - destruct (crep_op SIZE c l o HS Hc) as (c1 & l1 & -> & Hc1 & Hp1). destruct (map_op_perm SIZE l m o Hp) as [Hm Hb]. rewrite Hb. cbn [obind].
    destruct (map_op SIZE m o) as [m1 b]. cbn [fst snd] in *. destruct (IH c1 l1 m1 Hc1 (Permutation_trans Hp1 Hm)) as (c2 & l2 & -> & Hc2 & Hp2).
    destruct (map_ops SIZE m1 os) as [m2 bs]. cbn [fst snd option_map] in *. exists c2, l2. auto.
Qed.

Lemma find_perm {A} (l m : list (Z * A)) k : keys_sorted l -> Permutation l m -> map_find l k = map_find m k.
Proof.
  intros Hs Hp. assert (Hn : NoDup (map fst l)).
  { clear Hp. induction Hs as [|p l _ IH Hx]; cbn [map]; constructor; [|exact IH]. intros Hi. apply in_map_iff in Hi. destruct Hi as (q & E & Hq).
    rewrite Forall_forall in Hx. specialize (Hx q Hq). lia. }
  clear Hs. revert Hn. unfold map_find. induction Hp as [|p l m _ IH|p q l|l m n H1 IH1 _ IH2]; intros Hn; [reflexivity| | |].
  - cbn [map find] in *. inversion Hn. destruct (fst p =? k); [reflexivity|auto].
  - cbn [map find] in *. inversion Hn as [|? ? Hq _]. subst. destruct (Z.eqb_spec (fst p) k), (Z.eqb_spec (fst q) k); try reflexivity. exfalso. apply Hq. left. lia.
  - rewrite IH1 by exact Hn. apply IH2. apply (Permutation_NoDup (Permutation_map fst H1)). exact Hn.
Qed.

Lemma crep_lookup {A} SIZE (c : ccell A) l k : crep SIZE c l -> cc_lookup c k = Some (map_find l k).
Proof.
  intros Hc. pose proof Hc as (Hs & Hn & r1 & r2 & Hi & Hce & _). unfold cc_lookup, map_find.
  assert (Hnone : forall x : list (Z * A), Forall (fun p => fst p <> k) x -> find (fun p => fst p =? k) x = None).
  { intros x Hx. induction Hx as [|p x Hp _ IH]; [reflexivity|]. cbn [find]. destruct (Z.eqb_spec (fst p) k); [contradiction|exact IH]. }
  assert (Hskip : forall x y : list (Z * A), Forall (fun p => fst p < k) x -> find (fun p => fst p =? k) (x ++ y) = find (fun p => fst p =? k) y).
  { intros x y Hx. induction Hx as [|p x Hp _ IH]; [reflexivity|]. cbn [find app]. destruct (Z.eqb_spec (fst p) k); [lia|exact IH]. }
  destruct (crep_find SIZE c l k Hc) as [(a & w & b & E & -> & _ & Ha & _)|(a & b & E & -> & _ & Ha & Hb & _)]; cbn [obind]; rewrite E, (Hskip a _ Ha).
  - cbn [find fst]. rewrite Z.eqb_refl, Hce, E, map_app, <- app_assoc. cbn [map snd app]. rewrite vec_get_mid by (now rewrite map_length). reflexivity.
  - rewrite Hnone; [reflexivity|]. eapply Forall_impl; [|exact Hb]. cbn. intros. lia.
Qed.

Lemma combine_fst_snd {A B} (l : list (A * B)) : combine (map fst l) (map snd l) = l.
Proof. induction l as [|[a b] l IH]; [reflexivity|]. cbn. now rewrite IH. Qed.

Lemma crep_items {A} SIZE (c : ccell A) l : crep SIZE c l -> cc_items c = Some l.
Proof.
  intros (_ & Hn & r1 & r2 & Hi & Hce & _). unfold cc_items. rewrite Hn, Hi, Hce, Nat2Z.id.
  assert (Q1 := vec_read_app (map fst l) [] r1 0 eq_refl). assert (Q2 := vec_read_app (map snd l) [] r2 0 eq_refl). rewrite map_length in Q1, Q2. cbn [app] in Q1, Q2.
  rewrite Q1. cbn [obind]. rewrite Q2. cbn [option_map]. now rewrite combine_fst_snd.
Qed.

Lemma crep_new {A} SIZE (c : ccell A) : cc_new SIZE c -> crep SIZE c [].
Proof. intros (L1 & L2 & Hn). split; [constructor|]. split; [exact Hn|]. exists (cc_ids c), (cc_cells c). auto. Qed.

(** ** FixedArray *)

Lemma holds_split {A} size (a : farray A) l : holds_list size a l <-> exists r, fa_store a = l ++ r /\ fa_num a = Z.of_nat (length l) /\ fa_num a <= size /\ length (fa_store a) = Z.to_nat size.
Proof.
  split.
  - intros (Hn & Hs & HL & Hf). exists (skipn (length l) (fa_store a)). rewrite <- Hf at 1. rewrite firstn_skipn. auto.
  - intros (r & E & Hn & Hs & HL). split; [exact Hn|]. split; [exact Hs|]. split; [exact HL|]. rewrite E, firstn_app, firstn_all, Nat.sub_diag. apply app_nil_r.
Qed.

Lemma nth_split' {A} (l : list A) i : 0 <= i < Z.of_nat (length l) -> exists p x b, l = p ++ x :: b /\ i = Z.of_nat (length p).
Proof.
  intros Hi. destruct (nth_error l (Z.to_nat i)) as [x|] eqn:E.
  - apply nth_error_split in E. destruct E as (p & b & -> & Hp). exists p, x, b. split; [reflexivity|lia].
  - apply nth_error_None in E. lia.
Qed.

Lemma holds_push {A} SIZE (a : farray A) l v : holds_list SIZE a l ->
  exists r, fa_push SIZE a v = Some r /\
    ((Z.of_nat (length l) < SIZE /\ exists a', r = Done a' /\ holds_list SIZE a' (l ++ [v])) \/ (SIZE <= Z.of_nat (length l) /\ r = Threw a)).
Proof.
  intros H. apply holds_split in H. destruct H as (r & E & Hn & Hs & HL). unfold fa_push. destruct (Z.leb_spec SIZE (fa_num a)) as [Hf|Hf].
  - eexists. split; [reflexivity|]. right. split; [lia|reflexivity].
  - destruct r as [|x r]; [rewrite E, app_nil_r in HL; lia|]. rewrite E, vec_set_app by exact Hn. cbn [option_map]. eexists. split; [reflexivity|]. left. split; [lia|].
    eexists. split; [reflexivity|]. apply holds_split. exists r. cbn [fa_store fa_num]. rewrite <- app_assoc. rewrite E in HL. split; [reflexivity|]. lens HL; lens_goal. lia.
Qed.

Lemma holds_append {A} SIZE (b : list A) : forall a l p q (fb : farray A) i, holds_list SIZE a l -> fa_store fb = p ++ b ++ q -> i = Z.of_nat (length p) ->
  Z.of_nat (length l + length b) <= SIZE ->
  exists a', fa_append SIZE a fb i (length b) = Some (Done a') /\ holds_list SIZE a' (l ++ b).
Proof.
  induction b as [|x b IH]; intros a l p q fb i Ha Ef Hi Hs; cbn [fa_append length].
  - exists a. rewrite app_nil_r. auto.
  - unfold fa_get. rewrite Ef. cbn [app]. rewrite (vec_get_mid p x) by exact Hi. cbn [obind]. cbn [length] in Hs.
    destruct (holds_push SIZE a l x Ha) as (r & -> & [(_ & a1 & -> & H1)|(Hf & _)]); [|lia]. cbn [obind].
    destruct (IH a1 (l ++ [x]) (p ++ [x]) q fb (i + 1) H1) as (a2 & -> & H2).
    + rewrite Ef, <- app_assoc. reflexivity.
    + lens_goal. lia.
    + lens_goal. lia.
    + exists a2. split; [reflexivity|]. now rewrite <- app_assoc in H2.
Qed.

Lemma holds_concat {A} SIZE (a b : farray A) l m : holds_list SIZE a l -> holds_list SIZE b m ->
  exists r, fa_plus_assign SIZE a (Some b) = Some r /\
    ((Z.of_nat (length (l ++ m)) <= SIZE /\ exists a', r = Done a' /\ holds_list SIZE a' (l ++ m)) \/ (SIZE < Z.of_nat (length (l ++ m)) /\ r = Threw a)).
Proof.
  intros Ha Hb. apply holds_split in Hb. destruct Hb as (q & Eb & Hnb & _). assert (Hna : fa_num a = Z.of_nat (length l)) by apply Ha. unfold fa_plus_assign. rewrite app_length.
  destruct (Z.ltb_spec SIZE (fa_num a + fa_num b)) as [Hf|Hf].
  - eexists. split; [reflexivity|]. right. split; [lia|reflexivity].
  - rewrite Hnb, Nat2Z.id. destruct (holds_append SIZE m a l [] q b 0 Ha Eb eq_refl ltac:(lia)) as (a' & -> & Ha'). eexists. split; [reflexivity|]. left. split; [lia|eauto].
Qed.

Lemma holds_plus {A} SIZE ret (a b : farray A) l m : length ret = Z.to_nat SIZE -> holds_list SIZE a l -> holds_list SIZE b m ->
  exists r, fa_plus SIZE ret a b = Some r /\
    ((Z.of_nat (length (l ++ m)) <= SIZE /\ exists a', r = Done a' /\ holds_list SIZE a' (l ++ m)) \/ (SIZE < Z.of_nat (length (l ++ m)) /\ r = Threw a)).
Proof.
  intros HR Ha Hb. assert (HS : 0 <= SIZE) by (destruct Ha as (? & ? & _); lia). apply holds_split in Ha. destruct Ha as (p & Ea & Hna & _). apply holds_split in Hb. destruct Hb as (q & Eb & Hnb & _).
  unfold fa_plus. rewrite app_length. destruct (Z.ltb_spec SIZE (fa_num a + fa_num b)) as [Hf|Hf].
  - eexists. split; [reflexivity|]. right. split; [lia|reflexivity].
  - rewrite Hna, Hnb, !Nat2Z.id. destruct (holds_append SIZE l (mkFA ret 0) [] [] p a 0) as (a1 & -> & H1); auto.
    + apply holds_split. exists ret. cbn. auto.
    + cbn [length]. lia.
    + cbn [obind]. destruct (holds_append SIZE m a1 l [] q b 0 H1 Eb eq_refl ltac:(lia)) as (a2 & -> & H2). eexists. split; [reflexivity|]. left. split; [lia|eauto].
Qed.

Lemma holds_op {A} SIZE (a : farray A) l o : holds_list SIZE a l -> seq_ok SIZE l o ->
  exists r, fa_op SIZE a o = Some r /\ holds_list SIZE (result_state r) (fst (seq_op SIZE l o)) /\ snd (seq_op SIZE l o) = (match r with Done _ => true | Threw _ => false end).
Proof.
  intros Ha Hok. destruct o as [v|b|i| |n]; cbn [fa_op seq_op seq_ok] in *.
  - destruct (holds_push SIZE a l v Ha) as (r & -> & [(Hl & a' & -> & H)|(Hl & ->)]); eexists; (split; [reflexivity|]); cbn [result_state].
    + destruct (Z.ltb_spec (Z.of_nat (length l)) SIZE); [auto|lia].
    + destruct (Z.ltb_spec (Z.of_nat (length l)) SIZE); [lia|auto].
  - destruct Hok as (m & Hm). assert (Em : firstn (Z.to_nat (fa_num b)) (fa_store b) = m). { destruct Hm as (Hn & _ & _ & E). now rewrite Hn, Nat2Z.id. }
    rewrite Em. destruct (holds_concat SIZE a b l m Ha Hm) as (r & -> & [(Hl & a' & -> & H)|(Hl & ->)]); eexists; (split; [reflexivity|]); cbn [result_state].
    + destruct (Z.leb_spec (Z.of_nat (length (l ++ m))) SIZE); [auto|lia].
    + destruct (Z.leb_spec (Z.of_nat (length (l ++ m))) SIZE); [lia|auto].
  - apply holds_split in Ha. destruct Ha as (r & E & Hn & Hs & HL). unfold fa_remove. replace ((i <? 0) || (fa_num a <=? i)) with false by lia.
    destruct (nth_split' l i Hok) as (p & x & b & -> & Hp). rewrite E, <- app_assoc. cbn [app].
    replace (Z.to_nat (fa_num a - 1 - i)) with (length b) by (rewrite Hn; lens_goal; lia). rewrite shift_down_spec by exact Hp. cbn [option_map].
    eexists. split; [reflexivity|]. cbn [result_state fst snd]. split; [|reflexivity]. replace (Z.to_nat i) with (length p) by lia.
    rewrite firstn_app, firstn_all, Nat.sub_diag. cbn [firstn]. rewrite app_nil_r.
    replace (skipn (length p + 1) (p ++ x :: b)) with b by (rewrite skipn_app, skipn_all2 by lia; replace (length p + 1 - length p)%nat with 1%nat by lia; reflexivity).
    apply holds_split. eexists. cbn [fa_store fa_num]. rewrite <- app_assoc. split; [reflexivity|]. rewrite E in HL. lens HL; lens_goal. lens Hn. lia.
  - eexists. split; [reflexivity|]. cbn [result_state fst snd]. split; [|reflexivity]. apply holds_split. exists (fa_store a). destruct Ha as (Hn & Hs & HL & _). unfold fa_clear. cbn. auto with zarith.
  - unfold fa_resize. eexists. split; [reflexivity|]. destruct (Z.ltb_spec SIZE n), (Z.leb_spec n SIZE); try lia; cbn [fst snd result_state]; [auto|]. split; [|reflexivity].
    apply holds_split in Ha. destruct Ha as (r & E & Hn & Hs & HL). apply holds_split. exists (skipn (Z.to_nat n) l ++ r). cbn [fa_store fa_num]. rewrite app_assoc, firstn_skipn, firstn_length. split; [exact E|]. lia.
Qed.

Lemma holds_ops {A} SIZE (os : list (faop A)) : forall a l, holds_list SIZE a l -> seqs_ok SIZE l os ->
  exists a', fa_ops SIZE a os = Some (a', snd (seq_ops SIZE l os)) /\ holds_list SIZE a' (fst (seq_ops SIZE l os)).
Proof.
  induction os as [|o os IH]; intros a l Ha Hok; cbn [fa_ops seq_ops seqs_ok] in *.
  - exists a. auto.
  - destruct Hok as [Ho Hos]. destruct (holds_op SIZE a l o Ha Ho) as (r & -> & H1 & Eb). cbn [obind]. destruct (seq_op SIZE l o) as [l1 b]. cbn [fst snd] in *.
    destruct (IH _ _ H1 Hos) as (a2 & -> & H2). destruct (seq_ops SIZE l1 os) as [l2 bs]. cbn [option_map fst snd] in *. rewrite Eb. eauto.
Qed.

Lemma holds_items {A} SIZE (a : farray A) l : holds_list SIZE a l -> fa_items a = Some l.
Proof. intros H. apply holds_split in H. destruct H as (r & E & Hn & _). unfold fa_items. rewrite E, Hn, Nat2Z.id. apply (vec_read_app l [] r 0 eq_refl). Qed.

Lemma agree_spec {A} (ceq : A -> A -> bool) (Hceq : forall x y, ceq x y = true <-> x = y) (a b : farray A) : forall l m p q r s i, length l = length m ->
  fa_store a = p ++ l ++ r -> fa_store b = q ++ m ++ s -> i = Z.of_nat (length p) -> i = Z.of_nat (length q) ->
  exists v, fa_agree ceq a b i (length l) = Some v /\ (v = true <-> l = m).
Proof.
  induction l as [|x l IH]; intros [|y m] p q r s i HL Ea Eb Hp Hq; try discriminate; cbn [fa_agree length].
  - exists true. split; [reflexivity|tauto].
  - unfold fa_get. rewrite Ea, Eb. cbn [app]. rewrite (vec_get_mid p x), (vec_get_mid q y) by assumption. cbn [obind]. destruct (ceq x y) eqn:E.
    + apply Hceq in E. subst y. destruct (IH m (p ++ [x]) (q ++ [x]) r s (i + 1)) as (v & -> & Hv).
      * cbn in HL. lia.
      * now rewrite <- app_assoc.
      * now rewrite <- app_assoc.
      * lens_goal. lia.
      * lens_goal. lia.
      * exists v. split; [reflexivity|]. rewrite Hv. split; [now intros ->|congruence].
    + exists false. split; [reflexivity|]. split; [discriminate|]. intros H. injection H as H _. apply Hceq in H. congruence.
Qed.

Lemma holds_eqb {A} SIZE (ceq : A -> A -> bool) (Hceq : forall x y, ceq x y = true <-> x = y) (a b : farray A) l m : holds_list SIZE a l -> holds_list SIZE b m ->
  exists v, fa_eqb ceq a b = Some v /\ (v = true <-> l = m).
Proof.
  intros Ha Hb. apply holds_split in Ha, Hb. destruct Ha as (r & Ea & Hna & _), Hb as (s & Eb & Hnb & _). unfold fa_eqb. destruct (Z.eqb_spec (fa_num a) (fa_num b)) as [E|E].
  - rewrite Hna, Nat2Z.id. apply (agree_spec ceq Hceq a b l m [] [] r s); auto. lia.
  - exists false. split; [reflexivity|]. split; [discriminate|]. intros ->. lia.
Qed.

Lemma fill_spec {A} (v : A) : forall n p r i, i = Z.of_nat (length p) -> (n <= length r)%nat -> exists r', fa_fill (p ++ r) i n v = Some (p ++ repeat v n ++ r') /\ (n + length r' = length r)%nat.
Proof.
  induction n as [|n IH]; intros p r i Hi Hn; cbn [fa_fill repeat app].
  - exists r. auto.
  - destruct r as [|x r]; [cbn in Hn; lia|]. rewrite vec_set_app by exact Hi. cbn [obind]. change (p ++ v :: r) with (p ++ [v] ++ r). rewrite app_assoc.
    destruct (IH (p ++ [v]) r (i + 1)) as (r' & -> & HL); [lens_goal; lia|cbn in Hn; lia|]. exists r'. rewrite <- app_assoc. cbn [length]. split; [reflexivity|lia].
Qed.

Lemma holds_make {A} SIZE mem n (v : A) : 0 <= n <= SIZE -> length mem = Z.to_nat SIZE -> exists a, fa_make mem n v = Some a /\ holds_list SIZE a (repeat v (Z.to_nat n)).
Proof.
  intros Hn HL. unfold fa_make. destruct (fill_spec v (Z.to_nat n) [] mem 0 eq_refl) as (r & E & Hr); [lia|]. cbn [app] in E. rewrite E. cbn [option_map]. eexists. split; [reflexivity|].
  apply holds_split. exists r. cbn [fa_store fa_num]. rewrite app_length, repeat_length. split; [reflexivity|]. lia.
Qed.
