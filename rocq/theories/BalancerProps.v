(** C32, C33, C34: load balancers. *)
From Coq Require Import QArith Lqa.
From Verif Require Import Base BalancerModel BalancerSpec.
From Coq Require Import Lia.

(** ** Sums and truncation *)

Lemma qsum_acc l : forall a, (fold_left Qplus l a == a + qsum l)%Q.
Proof.
  induction l as [|x l IH]; intros a; cbn [fold_left qsum]; unfold qsum; cbn [fold_left]; [lra|].
  rewrite IH, (IH (0 + x)%Q). lra.
Qed.

Lemma qsum_cons x l : (qsum (x :: l) == x + qsum l)%Q.
Proof. unfold qsum at 1. cbn [fold_left]. rewrite qsum_acc. lra. Qed.

Lemma qsum_app l1 l2 : (qsum (l1 ++ l2) == qsum l1 + qsum l2)%Q.
Proof.
  induction l1 as [|x l1 IH]; [cbn [app]; change (qsum []) with 0%Q; lra|]. cbn [app]. rewrite !qsum_cons, IH. lra.
Qed.

Lemma zsum_acc l : forall a, fold_left Z.add l a = a + zsum l.
Proof.
  induction l as [|x l IH]; intros a; unfold zsum; cbn [fold_left]; [lia|]. rewrite IH, (IH (0 + x)). lia.
Qed.

Lemma zsum_cons x l : zsum (x :: l) = x + zsum l.
Proof. unfold zsum at 1. cbn [fold_left]. rewrite zsum_acc. lia. Qed.

Lemma zsum_right l : zsum l = fold_right Z.add 0 l.
Proof. induction l as [|x l IH]; [reflexivity|]. rewrite zsum_cons, IH. reflexivity. Qed.

Lemma qsum_nonneg l : Forall (fun x => 0 <= x)%Q l -> (0 <= qsum l)%Q.
Proof. induction 1 as [|x l Hx Hl IH]; [unfold qsum; cbn; lra|]. rewrite qsum_cons. lra. Qed.

Lemma zsum_nonneg l : Forall (fun x => 0 <= x) l -> 0 <= zsum l.
Proof. induction 1 as [|x l Hx Hl IH]; [cbn; lia|]. rewrite zsum_cons. lia. Qed.

Lemma qtrunc_spec q : (0 <= q)%Q -> 0 <= qtrunc q /\ (inject_Z (qtrunc q) <= q)%Q /\ (q < inject_Z (qtrunc q) + 1)%Q.
Proof.
  intros Hq. unfold qtrunc. destruct q as [n d]. cbn [Qnum Qden]. unfold Qle in Hq. cbn [Qnum Qden] in Hq.
  rewrite Z.quot_div_nonneg by lia. pose proof (Z.div_mod n (Zpos d) ltac:(lia)) as Hdm. pose proof (Z.mod_pos_bound n (Zpos d) ltac:(lia)) as Hm.
  split; [apply Z.div_pos; lia|]. split.
  - unfold Qle, inject_Z. cbn [Qnum Qden]. lia.
  - unfold Qlt, Qplus, inject_Z. cbn [Qnum Qden]. lia.
Qed.

Lemma qtrunc_mono a b : (0 <= a)%Q -> (a <= b)%Q -> qtrunc a <= qtrunc b.
Proof.
  intros Ha Hab. destruct (qtrunc_spec a Ha) as (_ & H1 & _). destruct (qtrunc_spec b ltac:(lra)) as (_ & _ & H2).
  assert (H : (inject_Z (qtrunc a) < inject_Z (qtrunc b + 1))%Q) by (rewrite inject_Z_plus; unfold inject_Z at 3; lra).
  rewrite <- Zlt_Qlt in H. lia.
Qed.

Lemma qdiv_nonneg a b : (0 <= a)%Q -> (0 < b)%Q -> (0 <= a / b)%Q.
Proof. intros Ha Hb. apply Qle_shift_div_l; [exact Hb|lra]. Qed.

Lemma qdiv_le a b c : (0 < c)%Q -> (a <= b)%Q -> (a / c <= b / c)%Q.
Proof. intros Hc Hab. apply Qle_shift_div_l; [exact Hc|]. setoid_replace (a / c * c)%Q with a by (field; lra). exact Hab. Qed.

Lemma inject_nonneg z : 0 <= z -> (0 <= inject_Z z)%Q.
Proof. intros H. change 0%Q with (inject_Z 0). now rewrite <- Zle_Qle. Qed.

(** ** C32 *)

(** The share of items due to each node. *)
Lemma initial_ok items total : (0 < total)%Q -> 0 <= items -> forall speeds last_pos partial,
  speeds <> [] -> Forall (fun x => 0 <= x)%Q speeds -> (0 <= partial)%Q -> (partial + qsum speeds == total)%Q ->
  last_pos = qtrunc (inject_Z items * partial / total) ->
  let l := initial_loop items total last_pos partial speeds in
  length l = length speeds /\ Forall (fun x => 0 <= x) l /\ last_pos + zsum l = items /\
  Forall2 (fun x s => inject_Z x - 1 < inject_Z items * s / total /\ inject_Z items * s / total < inject_Z x + 1)%Q l speeds.
Proof.
  intros Ht Hi. pose proof (inject_nonneg items Hi) as Hi'.
  induction speeds as [|s speeds IH]; intros lp partial Hne Hs Hp Hsum Hlp; [contradiction|].
  inversion Hs as [|? ? Hs0 Hs']; subst. cbn [initial_loop].
  assert (Hshare : forall p, (0 <= p)%Q -> (0 <= inject_Z items * p / total)%Q) by (intros p Hp'; apply qdiv_nonneg; [nra|exact Ht]).
  destruct (qtrunc_spec _ (Hshare partial Hp)) as (Q0 & Q1 & Q2). set (lp := qtrunc (inject_Z items * partial / total)) in *.
  destruct speeds as [|s' speeds].
  - rewrite qsum_cons in Hsum. unfold qsum in Hsum. cbn [fold_left] in Hsum.
    assert (Hle : (inject_Z items * partial / total <= inject_Z items)%Q).
    { setoid_replace (inject_Z items) with (inject_Z items * total / total)%Q at 2 by (field; lra). apply qdiv_le; [exact Ht|nra]. }
    assert (Hlp : lp <= items).
    { assert (H : (inject_Z lp <= inject_Z items)%Q) by lra. now rewrite <- Zle_Qle in H. }
    cbn [length]. split; [reflexivity|]. split; [repeat constructor; lia|]. split; [unfold zsum; cbn; lia|].
    repeat constructor.
    + unfold Z.sub. rewrite inject_Z_plus, inject_Z_opp. assert (E : (inject_Z items * s / total == inject_Z items - inject_Z items * partial / total)%Q).
      { setoid_replace s with (total - partial)%Q by lra. field. lra. } lra.
    + unfold Z.sub. rewrite inject_Z_plus, inject_Z_opp. assert (E : (inject_Z items * s / total == inject_Z items - inject_Z items * partial / total)%Q).
      { setoid_replace s with (total - partial)%Q by lra. field. lra. } lra.
  - set (next := qtrunc (inject_Z items * (partial + s) / total)).
    destruct (qtrunc_spec _ (Hshare (partial + s)%Q ltac:(lra))) as (R0 & R1 & R2). fold next in R0, R1, R2.
    assert (Hmono : lp <= next). { apply qtrunc_mono; [apply Hshare; exact Hp|]. apply qdiv_le; [exact Ht|nra]. }
    destruct (IH next (partial + s)%Q) as (L1 & L2 & L3 & L4); [discriminate|exact Hs'|lra| |reflexivity|].
    { rewrite qsum_cons in Hsum. lra. }
    set (rest := initial_loop items total next (partial + s) (s' :: speeds)) in *. cbn [length]. split; [now rewrite L1|].
    split; [constructor; [lia|exact L2]|]. split; [rewrite zsum_cons; lia|]. constructor; [|exact L4].
    assert (E : (inject_Z items * (partial + s) / total == inject_Z items * partial / total + inject_Z items * s / total)%Q) by (field; lra).
    unfold Z.sub. rewrite inject_Z_plus, inject_Z_opp. lra.
Qed.

(** Complete, and each node's share differs from the ideal one by less than an
    item. *)
Theorem C32_initial_weights : forall items speeds,
  0 <= items -> Forall (fun x => 0 <= x)%Q speeds -> (0 < qsum speeds)%Q ->
  exists l, initial_weights items speeds = Some l /\ distributes (length speeds) items l /\
    Forall2 (fun x s => inject_Z x - 1 < inject_Z items * s / qsum speeds < inject_Z x + 1)%Q l speeds.
Proof.
  intros items speeds Hi Hs Ht. assert (Hne : speeds <> []) by (intros ->; unfold qsum in Ht; cbn in Ht; lra).
  destruct (initial_ok items (qsum speeds) Ht Hi speeds 0 0%Q Hne Hs) as (H1 & H2 & H3 & H4).
  - lra.
  - lra.
  - assert (E : qtrunc (inject_Z items * 0 / qsum speeds) = 0).
    { unfold qtrunc, Qdiv, Qmult, inject_Z. cbn [Qnum Qden]. rewrite Z.mul_0_r. reflexivity. }
    now rewrite E.
  - eexists. split; [|split; [|exact H4]].
    + unfold initial_weights. destruct speeds; [contradiction|reflexivity].
    + split; [exact H1|]. split; [exact H2|]. rewrite <- zsum_right. lia.
Qed.
Print Assumptions C32_initial_weights.

Example C32_example : initial_weights 100 [1 # 3; 2; 0; 7 # 2]%Q = Some [5; 35; 0; 60] /\ initial_weights 100 [] = None.
Proof. split; reflexivity. Qed.

(** ** C33: rounding *)

Lemma qfrac_spec q : (0 <= q)%Q -> (q == inject_Z (qtrunc q) + qfrac q)%Q /\ (0 <= qfrac q)%Q /\ (qfrac q < 1)%Q.
Proof.
  intros Hq. destruct (qtrunc_spec q Hq) as (_ & H1 & H2). unfold qfrac.
  destruct (Qle_bool 0 (q - inject_Z (qtrunc q))) eqn:E.
  - lra.
  - exfalso. assert (H : (0 <= q - inject_Z (qtrunc q))%Q) by lra. apply Qle_bool_iff in H. congruence.
Qed.

Lemma qle_false a b : Qle_bool a b = false -> (b < a)%Q.
Proof. intros H. apply Qnot_le_lt. intros Hle. apply Qle_bool_iff in Hle. congruence. Qed.

Lemma equalize_step b q q' loads : equalize_loop b (q :: q' :: loads) =
  if negb (Qle_bool b (1 - qfrac q)) then (qtrunc q + 1) :: equalize_loop (b - (1 - qfrac q)) (q' :: loads)
  else qtrunc q :: equalize_loop (b + qfrac q) (q' :: loads).
Proof. reflexivity. Qed.

Lemma equalize_ok : forall loads balance K, loads <> [] -> Forall (fun x => 0 <= x)%Q loads -> (0 <= balance)%Q -> (balance <= 1)%Q ->
  (balance + qsum loads == inject_Z K)%Q ->
  let l := equalize_loop balance loads in
  length l = length loads /\ Forall (fun x => 0 <= x) l /\ zsum l = K /\
  Forall2 (fun x q => inject_Z x - 1 <= q /\ q <= inject_Z x + 1)%Q l loads.
Proof.
  induction loads as [|q loads IH]; intros b K Hne Hl Hb0 Hb1 Hsum; [contradiction|]. inversion Hl as [|? ? Hq Hl']; subst.
  destruct (qtrunc_spec q Hq) as (T0 & _). destruct (qfrac_spec q Hq) as (F0 & F1 & F2).
  destruct loads as [|q' loads].
  - cbn [equalize_loop]. rewrite qsum_cons in Hsum. change (qsum []) with 0%Q in Hsum.
    assert (Hint : (inject_Z (K - qtrunc q) == b + qfrac q)%Q) by (unfold Z.sub; rewrite inject_Z_plus, inject_Z_opp; lra).
    destruct (Qle_bool (qfrac q) ((1 # 2) - b)) eqn:E.
    + apply Qle_bool_iff in E. assert (H0 : K = qtrunc q).
      { assert (L1 : (inject_Z (K - qtrunc q) < inject_Z 1)%Q) by (change (inject_Z 1) with 1%Q; lra).
        assert (L2 : (inject_Z 0 <= inject_Z (K - qtrunc q))%Q) by (change (inject_Z 0) with 0%Q; lra).
        rewrite <- Zlt_Qlt in L1. rewrite <- Zle_Qle in L2. lia. }
      cbn [length]. split; [reflexivity|]. split; [repeat constructor; lia|]. split; [unfold zsum; cbn; lia|]. repeat constructor; lra.
    + apply qle_false in E. assert (H0 : K = qtrunc q + 1).
      { assert (L1 : (inject_Z (K - qtrunc q) < inject_Z 2)%Q) by (change (inject_Z 2) with 2%Q; lra).
        assert (L2 : (inject_Z 0 < inject_Z (K - qtrunc q))%Q) by (change (inject_Z 0) with 0%Q; lra).
        rewrite <- Zlt_Qlt in L1. rewrite <- Zlt_Qlt in L2. lia. }
      cbn [length]. split; [reflexivity|]. split; [repeat constructor; lia|]. split; [unfold zsum; cbn; lia|].
      repeat constructor; rewrite inject_Z_plus; change (inject_Z 1) with 1%Q; lra.
  - rewrite qsum_cons in Hsum. cbv zeta. rewrite equalize_step. destruct (Qle_bool b (1 - qfrac q)) eqn:E; cbn [negb].
    + apply Qle_bool_iff in E. destruct (IH (b + qfrac q)%Q (K - qtrunc q)) as (H1 & H2 & H3 & H4); [discriminate|exact Hl'|lra|lra| |].
      { unfold Z.sub. rewrite inject_Z_plus, inject_Z_opp. lra. }
      set (rest := equalize_loop (b + qfrac q) (q' :: loads)) in *. cbn [length] in *.
      split; [now rewrite H1|]. split; [constructor; auto|]. split; [rewrite zsum_cons; lia|]. constructor; [lra|exact H4].
    + apply qle_false in E. destruct (IH (b - (1 - qfrac q))%Q (K - (qtrunc q + 1))) as (H1 & H2 & H3 & H4); [discriminate|exact Hl'|lra|lra| |].
      { unfold Z.sub. rewrite inject_Z_plus, inject_Z_opp, inject_Z_plus. change (inject_Z 1) with 1%Q. lra. }
      set (rest := equalize_loop (b - (1 - qfrac q)) (q' :: loads)) in *. cbn [length] in *.
      split; [now rewrite H1|]. split; [constructor; [lia|auto]|]. split; [rewrite zsum_cons; lia|].
      constructor; [rewrite inject_Z_plus; change (inject_Z 1) with 1%Q; lra|exact H4].
Qed.

(** ** C33: the optimal distribution *)

Definition dot (l1 l2 : list Q) : Q := qsum (map (fun '(a, b) => a * b)%Q (combine l1 l2)).
Definition rests (l : list Q) : list Q := map (fun f => 1 - f)%Q l.

Lemma dot_cons a l1 b l2 : (dot (a :: l1) (b :: l2) == a * b + dot l1 l2)%Q.
Proof. unfold dot. cbn [combine map]. now rewrite qsum_cons. Qed.

Definition one (x : Q) : Prop := (x == 1)%Q.

(** Items are assigned in order. *)
Fixpoint shape (l : list Q) : Prop :=
  match l with
  | [] => True
  | f :: l' => (f == 0 /\ shape l')%Q \/ ((0 <= f)%Q /\ (f <= 1)%Q /\ Forall one l')
  end.

Lemma ones_shape l : Forall one l -> shape l.
Proof. intros H. destruct l as [|f l]; [exact Logic.I|]. inversion H; subst. unfold one in *. right. repeat split; auto; lra. Qed.

Lemma shape_bounds l : shape l -> Forall (fun f => 0 <= f /\ f <= 1)%Q l.
Proof.
  induction l as [|f l IH]; intros Hs; [constructor|]. destruct Hs as [[H0 Hs]|(H0 & H1 & Hs)].
  - constructor; [lra|auto].
  - constructor; [lra|]. eapply Forall_impl; [|exact Hs]. unfold one. intros a Ha. lra.
Qed.

Lemma dot_nonneg l : forall ps, Forall (fun f => 0 <= f /\ f <= 1)%Q l -> Forall (fun p => 0 <= p)%Q ps -> (0 <= dot l ps)%Q.
Proof.
  induction l as [|f l IH]; intros [|p ps] Hl Hp; try (unfold dot; cbn; lra). inversion Hl; inversion Hp; subst.
  rewrite dot_cons. specialize (IH ps H2 H6). nra.
Qed.

Lemma fill_node_ok : forall fract ps rl, shape fract -> Forall (fun p => 0 <= p)%Q ps -> length ps = length fract -> (0 < rl)%Q ->
  let '(r, fs) := fill_node rl fract ps in
  length fs = length fract /\ shape fs /\ (0 <= r)%Q /\ (r + qsum fs == qsum fract)%Q /\
  ((rl <= dot fract ps)%Q -> (dot fs ps == dot fract ps - rl)%Q).
Proof.
  induction fract as [|f fract IH]; intros [|p ps] rl Hs Hp Hlen Hrl; try discriminate.
  - cbn. repeat split; lra.
  - inversion Hp as [|? ? Hp0 Hp']; subst. cbn [length] in Hlen. injection Hlen as Hlen. cbn [fill_node].
    destruct (Qeq_bool f 0) eqn:E0.
    + apply Qeq_bool_iff in E0. assert (Hs' : shape fract) by (destruct Hs as [[_ Hs]|(_ & _ & Hs)]; [exact Hs|now apply ones_shape]).
      specialize (IH ps rl Hs' Hp' Hlen Hrl). destruct (fill_node rl fract ps) as [r fs]. destruct IH as (H1 & H2 & H3 & H4 & H5).
      cbn [length]. split; [now rewrite H1|]. split; [left; auto|]. split; [exact H3|]. rewrite !qsum_cons, !dot_cons. split; [lra|].
      intros H. rewrite E0 in *. rewrite H5 by lra. lra.
    + assert (Hf : (0 < f)%Q /\ (f <= 1)%Q /\ Forall one fract).
      { destruct Hs as [[H _]|(H & H1 & Hs)]; [apply Qeq_bool_iff in H; congruence|]. split; [|auto].
        apply Qnot_le_lt. intros H'. assert (E : (f == 0)%Q) by lra. apply Qeq_bool_iff in E. congruence. }
      destruct Hf as (Hf0 & Hf1 & Hones). destruct (Qle_bool (f * p) rl) eqn:E1.
      * apply Qle_bool_iff in E1. destruct (Qeq_bool (rl - f * p) 0) eqn:E2.
        -- apply Qeq_bool_iff in E2. cbn [length]. split; [reflexivity|]. split; [left; split; [lra|now apply ones_shape]|]. split; [lra|].
           rewrite !qsum_cons, !dot_cons. split; [lra|]. intros _. lra.
        -- assert (Hrl' : (0 < rl - f * p)%Q).
           { apply Qnot_le_lt. intros H. assert (E : (rl - f * p == 0)%Q) by lra. apply Qeq_bool_iff in E. congruence. }
           specialize (IH ps (rl - f * p)%Q (ones_shape _ Hones) Hp' Hlen Hrl'). destruct (fill_node (rl - f * p) fract ps) as [r fs].
           destruct IH as (H1 & H2 & H3 & H4 & H5). cbn [length]. split; [now rewrite H1|]. split; [left; split; [lra|exact H2]|]. split; [lra|].
           rewrite !qsum_cons, !dot_cons. split; [lra|]. intros H. rewrite H5 by lra. lra.
      * apply qle_false in E1. assert (Hp1 : (0 < p)%Q).
        { apply Qnot_le_lt. intros H. assert (E : (p == 0)%Q) by lra. rewrite E in E1. lra. }
        assert (Hc : (rl / p * p == rl)%Q) by (field; lra). assert (Hc0 : (0 <= rl / p)%Q) by (apply qdiv_nonneg; lra).
        assert (Hc1 : (rl / p < f)%Q) by (apply Qlt_shift_div_r; lra).
        set (q := (rl / p)%Q) in *. cbn [length]. split; [reflexivity|]. split; [right; repeat split; auto; lra|]. split; [lra|].
        rewrite !qsum_cons, !dot_cons. split; [lra|]. intros _. rewrite <- Hc. ring.
Qed.

(** The load of the first [x] items. *)
Fixpoint items_load (ps : list Q) (x : Q) : Q :=
  match ps with
  | [] => 0
  | p :: ps' => if Qle_bool x 1 then p * x else p + items_load ps' (x - 1)
  end.

Lemma qle_bool_ext a b c d : (a == b)%Q -> (c == d)%Q -> Qle_bool a c = Qle_bool b d.
Proof. intros H1 H2. apply eq_true_iff_eq. rewrite !Qle_bool_iff, H1, H2. reflexivity. Qed.

Lemma items_load_ext ps : forall x y, (x == y)%Q -> (items_load ps x == items_load ps y)%Q.
Proof.
  induction ps as [|p ps IH]; intros x y H; cbn [items_load]; [reflexivity|]. rewrite (qle_bool_ext x y 1 1) by (auto; reflexivity).
  destruct (Qle_bool y 1); [now rewrite H|]. rewrite (IH (x - 1)%Q (y - 1)%Q) by lra. reflexivity.
Qed.

Lemma items_load_0 ps x : (x == 0)%Q -> (items_load ps x == 0)%Q.
Proof.
  intros H. destruct ps as [|p ps]; cbn [items_load]; [reflexivity|]. rewrite (proj2 (Qle_bool_iff x 1)) by lra. rewrite H. ring.
Qed.

Lemma rests_ones l : forall ps, Forall one l -> (qsum (rests l) == 0)%Q /\ (dot (rests l) ps == 0)%Q.
Proof.
  induction l as [|f l IH]; intros ps Hl; [split; [reflexivity|unfold dot; reflexivity]|]. inversion Hl; subst. unfold one in *.
  cbn [rests map]. fold (rests l). split; [rewrite qsum_cons; rewrite (proj1 (IH ps H2)); lra|].
  destruct ps as [|p ps]; [reflexivity|]. rewrite dot_cons, (proj2 (IH ps H2)), H1. ring.
Qed.

Lemma rests_nonneg l : Forall (fun f => 0 <= f /\ f <= 1)%Q l -> (0 <= qsum (rests l))%Q.
Proof. intros H. apply qsum_nonneg. unfold rests. rewrite Forall_map. eapply Forall_impl; [|exact H]. cbn. intros. lra. Qed.

Lemma shape_load : forall l ps, shape l -> length ps = length l -> (items_load ps (qsum (rests l)) == dot (rests l) ps)%Q.
Proof.
  induction l as [|f l IH]; intros [|p ps] Hs Hlen; try discriminate; [reflexivity|]. cbn [length] in Hlen. injection Hlen as Hlen.
  cbn [rests map]. fold (rests l). rewrite dot_cons. cbn [items_load]. pose proof (qsum_cons (1 - f) (rests l)) as Eq.
  destruct Hs as [[H0 Hs]|(H0 & H1 & Hs)].
  - specialize (IH ps Hs Hlen). pose proof (rests_nonneg l (shape_bounds l Hs)) as Hnn.
    rewrite (qle_bool_ext _ (1 + qsum (rests l)) 1 1) by (lra || reflexivity). destruct (Qle_bool (1 + qsum (rests l)) 1) eqn:E.
    + apply Qle_bool_iff in E. rewrite items_load_0 in IH by lra. rewrite Eq, <- IH, H0. setoid_replace (qsum (rests l)) with 0%Q by lra. ring.
    + rewrite (items_load_ext ps _ (qsum (rests l))) by lra. rewrite IH, H0. ring.
  - destruct (rests_ones l ps Hs) as [R1 R2]. rewrite (qle_bool_ext _ (1 - f) 1 1) by (lra || reflexivity).
    rewrite (proj2 (Qle_bool_iff _ _)) by lra. rewrite R2, Eq, R1. ring.
Qed.

Lemma rests_qsum l : (qsum (rests l) == qlen l - qsum l)%Q.
Proof.
  unfold qlen. induction l as [|f l IH]; [reflexivity|]. cbn [rests map]. fold (rests l). rewrite !qsum_cons, IH. cbn [length].
  rewrite Nat2Z.inj_succ, <- Z.add_1_r, inject_Z_plus. change (inject_Z 1) with 1%Q. ring.
Qed.

Lemma rests_dot l : forall ps, length ps = length l -> (dot (rests l) ps == qsum ps - dot l ps)%Q.
Proof.
  induction l as [|f l IH]; intros [|p ps] H; try discriminate; [reflexivity|]. cbn [length] in H. injection H as H.
  cbn [rests map]. fold (rests l). rewrite !dot_cons, qsum_cons, (IH ps H). ring.
Qed.

Lemma fill_nodes_ok ps target : Forall (fun p => 0 <= p)%Q ps -> (0 < target)%Q -> forall n fract, shape fract -> length ps = length fract ->
  let '(rs, fs) := fill_nodes n target fract ps in
  length rs = n /\ length fs = length fract /\ shape fs /\ Forall (fun r => 0 <= r)%Q rs /\ (qsum rs + qsum fs == qsum fract)%Q /\
  ((inject_Z (Z.of_nat n) * target <= dot fract ps)%Q -> forall k, (k <= n)%nat ->
     (items_load ps (qsum (rests fract) + qsum (firstn k rs)) == dot (rests fract) ps + inject_Z (Z.of_nat k) * target)%Q).
Proof.
  intros Hp Ht. induction n as [|n IH]; intros fract Hs Hlen; cbn [fill_nodes].
  - split; [reflexivity|]. split; [reflexivity|]. split; [exact Hs|]. split; [constructor|]. split; [unfold qsum; cbn; lra|].
    intros _ k Hk. assert (k = O) by lia. subst k. cbn [firstn]. change (qsum []) with 0%Q. change (inject_Z (Z.of_nat 0)) with 0%Q.
    rewrite (items_load_ext ps _ (qsum (rests fract))) by ring. rewrite shape_load by auto. ring.
  - pose proof (fill_node_ok fract ps target Hs Hp Hlen Ht) as H. destruct (fill_node target fract ps) as [r fract'].
    destruct H as (L1 & S1 & N1 & E1 & D1). specialize (IH fract' S1). destruct (fill_nodes n target fract' ps) as [rs fs].
    destruct IH as (L2 & L3 & S2 & N2 & E2 & D2); [congruence|]. cbn [length]. split; [now rewrite L2|]. split; [congruence|]. split; [exact S2|].
    split; [constructor; auto|]. split; [rewrite qsum_cons; lra|].
    rewrite Nat2Z.inj_succ, <- Z.add_1_r, inject_Z_plus. change (inject_Z 1) with 1%Q. intros Hd k Hk.
    assert (Hn : (0 <= inject_Z (Z.of_nat n))%Q) by (apply inject_nonneg; lia).
    assert (Hd' : (dot fract' ps == dot fract ps - target)%Q) by (apply D1; nra).
    destruct k as [|k].
    + cbn [firstn]. change (qsum []) with 0%Q. change (inject_Z (Z.of_nat 0)) with 0%Q.
      rewrite (items_load_ext ps _ (qsum (rests fract))) by ring. rewrite shape_load by auto. ring.
    + cbn [firstn]. rewrite (items_load_ext ps _ (qsum (rests fract') + qsum (firstn k rs))).
      2:{ rewrite qsum_cons, !rests_qsum. unfold qlen. rewrite L1. lra. }
      rewrite D2 by (lia || (rewrite Hd'; lra)). rewrite !rests_dot by congruence. rewrite Hd'.
      rewrite Nat2Z.inj_succ, <- Z.add_1_r, inject_Z_plus. change (inject_Z 1) with 1%Q. ring.
Qed.

Lemma per_item_ok : forall weights loads, Forall (fun w => 0 <= w) weights -> Forall (fun l => 0 <= l)%Q loads -> length loads = length weights ->
  Forall (fun p => 0 <= p)%Q (load_per_item weights loads) /\ length (load_per_item weights loads) = Z.to_nat (zsum weights).
Proof.
  induction weights as [|w ws IH]; intros [|l ls] Hw Hl Hlen; try discriminate; [split; [constructor|reflexivity]|].
  inversion Hw; inversion Hl; subst. cbn [length] in Hlen. injection Hlen as Hlen. destruct (IH ls H2 H6 Hlen) as [H7 H8].
  cbn [load_per_item]. rewrite zsum_cons, app_length, H8. pose proof (zsum_nonneg ws H2) as Hnn. destruct (Z.eqb_spec w 0) as [->|Hne].
  - cbn [app length]. split; [exact H7|lia].
  - rewrite repeat_length. split; [|lia]. apply Forall_app. split; [|exact H7]. apply Forall_forall. intros x Hx. apply repeat_spec in Hx. subst x.
    apply qdiv_nonneg; [exact H5|]. change 0%Q with (inject_Z 0). rewrite <- Zlt_Qlt. lia.
Qed.

Lemma qsum_repeat x n : (qsum (repeat x n) == inject_Z (Z.of_nat n) * x)%Q.
Proof.
  induction n as [|n IH]; [cbn; unfold qsum; cbn; ring|]. cbn [repeat]. rewrite qsum_cons, IH, Nat2Z.inj_succ, <- Z.add_1_r, inject_Z_plus.
  change (inject_Z 1) with 1%Q. ring.
Qed.

Lemma dot_ones ps : forall n, length ps = n -> (dot (repeat 1%Q n) ps == qsum ps)%Q.
Proof.
  induction ps as [|p ps IH]; intros [|n] H; try discriminate; [reflexivity|]. cbn [repeat]. rewrite dot_cons, qsum_cons, IH by (cbn in H; lia). ring.
Qed.

Lemma expected_ok weights loads : weights <> [] -> Forall (fun w => 0 <= w) weights -> Forall (fun l => 0 <= l)%Q loads -> length loads = length weights ->
  exists opt, expected_optimal weights loads = Some opt /\ length opt = length weights /\ Forall (fun x => 0 <= x)%Q opt /\
    (qsum opt == inject_Z (zsum weights))%Q.
Proof.
  intros Hne Hw Hl Hlen. unfold expected_optimal. destruct (length weights) as [|n] eqn:En; [destruct weights; [contradiction|discriminate]|].
  pose proof (zsum_nonneg weights Hw) as HW. pose proof (inject_nonneg _ HW) as HW'. pose proof (qsum_nonneg loads Hl) as HL.
  assert (Hq : (0 < qlen weights)%Q) by (unfold qlen; rewrite En; change 0%Q with (inject_Z 0); rewrite <- Zlt_Qlt; lia).
  destruct (Qeq_bool (qsum loads / qlen weights) 0) eqn:E.
  - eexists. split; [reflexivity|]. split; [apply repeat_length|]. split.
    + apply Forall_forall. intros x Hx. apply repeat_spec in Hx. subst x. now apply qdiv_nonneg.
    + rewrite qsum_repeat. rewrite <- En. unfold qlen in *. field. lra.
  - destruct (per_item_ok weights loads Hw Hl ltac:(congruence)) as [P1 P2].
    assert (Ht : (0 < qsum loads / qlen weights)%Q).
    { apply Qnot_le_lt. intros H. pose proof (qdiv_nonneg _ _ HL Hq) as H'. assert (E0 : (qsum loads / qlen weights == 0)%Q) by lra.
      apply Qeq_bool_iff in E0. congruence. }
    pose proof (fill_nodes_ok (load_per_item weights loads) _ P1 Ht n (repeat 1%Q (Z.to_nat (zsum weights)))) as H.
    destruct (fill_nodes n _ _ _) as [rs fs]. destruct H as (L1 & L2 & S & N & Es & _).
    { apply ones_shape. apply Forall_forall. intros x Hx. apply repeat_spec in Hx. subst x. unfold one. reflexivity. }
    { now rewrite repeat_length. }
    eexists. split; [reflexivity|]. split; [rewrite app_length, L1; cbn; lia|].
    assert (Hfs : (0 <= qsum fs)%Q). { apply qsum_nonneg. eapply Forall_impl; [|exact (shape_bounds fs S)]. cbn. tauto. }
    split; [apply Forall_app; split; [exact N|constructor; [lra|constructor]]|].
    rewrite qsum_app, qsum_cons. change (qsum []) with 0%Q. rewrite qsum_repeat in Es. rewrite Z2Nat.id in Es by exact HW. lra.
Qed.

Lemma combo_ok weight : (0 <= weight)%Q -> (weight <= 1)%Q -> forall old new, length old = length new -> Forall (fun w => 0 <= w) old -> Forall (fun l => 0 <= l)%Q new ->
  length (linear_combo weight old new) = length old /\ Forall (fun x => 0 <= x)%Q (linear_combo weight old new) /\
  (qsum (linear_combo weight old new) == weight * qsum new + (1 - weight) * inject_Z (zsum old))%Q.
Proof.
  intros H0 H1. induction old as [|o old IH]; intros [|n new] Hlen Ho Hn; try discriminate.
  - split; [reflexivity|]. split; [constructor|]. cbn [linear_combo]. change (qsum []) with 0%Q. change (inject_Z (zsum [])) with 0%Q. ring.
  - inversion Ho; inversion Hn; subst. cbn [length] in Hlen. destruct (IH new ltac:(lia) H4 H8) as (L & N & E). cbn [linear_combo length].
    pose proof (inject_nonneg o H3) as Ho'. split; [now rewrite L|]. split; [constructor; [nra|exact N]|].
    rewrite !qsum_cons, E, zsum_cons, inject_Z_plus. ring.
Qed.

(** No items get lost; each node's number of items differs by at most one from
    the linear combination aimed at. *)
Theorem C33_ooze_preserves_sum : forall weight weights loads,
  (0 <= weight)%Q -> (weight <= 1)%Q -> weights <> [] -> Forall (fun w => 0 <= w) weights -> Forall (fun l => 0 <= l)%Q loads -> length loads = length weights ->
  exists ret, ooze_balance weight weights loads = Some ret /\ distributes (length weights) (fold_right Z.add 0 weights) ret /\
    exists opt, expected_optimal weights loads = Some opt /\
      Forall2 (fun x q => inject_Z x - 1 <= q /\ q <= inject_Z x + 1)%Q ret (linear_combo weight weights opt).
Proof.
  intros weight weights loads H0 H1 Hne Hw Hl Hlen. destruct (expected_ok weights loads Hne Hw Hl Hlen) as (opt & Eo & Lo & No & So).
  destruct (combo_ok weight H0 H1 weights opt (eq_sym Lo) Hw No) as (Lc & Nc & Sc).
  destruct (equalize_ok (linear_combo weight weights opt) 0 (zsum weights)) as (Le & Ne & Se & Fe); [|exact Nc|lra|lra| |].
  { intros E. rewrite E in Lc. destruct weights; [contradiction|discriminate]. }
  { rewrite Sc, So. ring. }
  exists (equalize (linear_combo weight weights opt)). unfold ooze_balance. rewrite Eo. fold (equalize (linear_combo weight weights opt)) in *.
  rewrite Se, Z.eqb_refl. split; [reflexivity|]. split; [|eauto]. split; [congruence|]. split; [exact Ne|]. rewrite <- !zsum_right. exact Se.
Qed.
Print Assumptions C33_ooze_preserves_sum.

(** ** C33: what the balancer aims at *)

Lemma items_load_repeat p ps : forall m x, (0 <= x)%Q ->
  (items_load (repeat p m ++ ps) x ==
   if Qle_bool x (inject_Z (Z.of_nat m)) then p * x else p * inject_Z (Z.of_nat m) + items_load ps (x - inject_Z (Z.of_nat m)))%Q.
Proof.
  induction m as [|m IH]; intros x Hx.
  - cbn [repeat app]. change (inject_Z (Z.of_nat 0)) with 0%Q. destruct (Qle_bool x 0) eqn:E.
    + apply Qle_bool_iff in E. rewrite items_load_0 by lra. setoid_replace x with 0%Q by lra. ring.
    + rewrite (items_load_ext ps x (x - 0)) by ring. ring.
  - cbn [repeat app items_load]. rewrite Nat2Z.inj_succ, <- Z.add_1_r, inject_Z_plus. change (inject_Z 1) with 1%Q.
    assert (Hm : (0 <= inject_Z (Z.of_nat m))%Q) by (apply inject_nonneg; lia). set (im := inject_Z (Z.of_nat m)) in *.
    destruct (Qle_bool x 1) eqn:E1.
    + apply Qle_bool_iff in E1. rewrite (proj2 (Qle_bool_iff x (im + 1))) by lra. reflexivity.
    + apply qle_false in E1. rewrite IH by lra. destruct (Qle_bool (x - 1) im) eqn:E2.
      * apply Qle_bool_iff in E2. rewrite (proj2 (Qle_bool_iff x (im + 1))) by lra. ring.
      * apply qle_false in E2. destruct (Qle_bool x (im + 1)) eqn:E3; [apply Qle_bool_iff in E3; lra|].
        rewrite (items_load_ext ps _ (x - (im + 1))) by ring. ring.
Qed.

(** Nodes without items have no load. *)
Definition idle_if_empty (w : Z) (l : Q) : Prop := w = 0 -> (l == 0)%Q.

Lemma load_items : forall weights loads x, Forall (fun w => 0 <= w) weights -> Forall2 idle_if_empty weights loads -> (0 <= x)%Q ->
  (items_load (load_per_item weights loads) x == load_of_first weights loads x)%Q.
Proof.
  induction weights as [|w ws IH]; intros [|l ls] x Hw Hl Hx; try reflexivity.
  inversion Hw as [|? ? Hw0 Hw']; inversion Hl as [|? ? ? ? Hl0 Hl']; subst. cbn [load_per_item load_of_first]. destruct (Z.eqb_spec w 0) as [->|Hne].
  - cbn [app]. change (inject_Z 0) with 0%Q. destruct (Qle_bool x 0) eqn:E.
    + apply Qle_bool_iff in E. apply items_load_0. lra.
    + apply qle_false in E. rewrite (Hl0 eq_refl). rewrite <- (IH ls (x - 0)%Q) by (auto; lra).
      rewrite (items_load_ext _ x (x - 0)) by ring. ring.
  - rewrite items_load_repeat by exact Hx. rewrite Z2Nat.id by exact Hw0.
    assert (Hq : (0 < inject_Z w)%Q) by (change 0%Q with (inject_Z 0); rewrite <- Zlt_Qlt; lia).
    destruct (Qle_bool x (inject_Z w)) eqn:E; [field; lra|]. apply qle_false in E. rewrite <- IH by (auto; lra). field. lra.
Qed.

Lemma per_item_sum : forall weights loads, Forall (fun w => 0 <= w) weights -> Forall2 idle_if_empty weights loads ->
  (qsum (load_per_item weights loads) == qsum loads)%Q.
Proof.
  induction weights as [|w ws IH]; intros [|l ls] Hw Hl; [reflexivity|inversion Hl|inversion Hl|].
  inversion Hw as [|? ? Hw0 Hw']; inversion Hl as [|? ? ? ? Hl0 Hl']; subst. cbn [load_per_item]. rewrite qsum_app, qsum_cons, IH by auto.
  destruct (Z.eqb_spec w 0) as [->|Hne].
  - change (qsum []) with 0%Q. rewrite (Hl0 eq_refl). reflexivity.
  - rewrite qsum_repeat, Z2Nat.id by exact Hw0.
    assert (Hq : (0 < inject_Z w)%Q) by (change 0%Q with (inject_Z 0); rewrite <- Zlt_Qlt; lia). field. lra.
Qed.

Lemma load_of_all : forall weights loads, Forall (fun w => 0 <= w) weights -> Forall2 idle_if_empty weights loads ->
  (load_of_first weights loads (inject_Z (zsum weights)) == qsum loads)%Q.
Proof.
  induction weights as [|w ws IH]; intros [|l ls] Hw Hl; [reflexivity|inversion Hl|inversion Hl|].
  inversion Hw as [|? ? Hw0 Hw']; inversion Hl as [|? ? ? ? Hl0 Hl']; subst. pose proof (zsum_nonneg ws Hw') as Hnn.
  rewrite <- load_items; [|exact Hw|exact Hl|apply inject_nonneg; rewrite zsum_cons; lia].
  cbn [load_per_item]. rewrite qsum_cons, zsum_cons. rewrite <- (IH ls Hw' Hl'), <- load_items by (auto; now apply inject_nonneg).
  destruct (Z.eqb_spec w 0) as [->|Hne]; [cbn [app]; rewrite (Hl0 eq_refl), Z.add_0_l; ring|].
  rewrite items_load_repeat by (apply inject_nonneg; lia). rewrite Z2Nat.id by exact Hw0.
  assert (Hq : (0 < inject_Z w)%Q) by (change 0%Q with (inject_Z 0); rewrite <- Zlt_Qlt; lia).
  pose proof (inject_nonneg _ Hnn) as Hnn'. rewrite inject_Z_plus.
  destruct (Qle_bool _ _) eqn:E.
  2:{ rewrite (items_load_ext (load_per_item ws ls) (inject_Z w + inject_Z (zsum ws) - inject_Z w) (inject_Z (zsum ws))) by ring. field. lra. }
  apply Qle_bool_iff in E. rewrite items_load_0 by lra.
  setoid_replace (inject_Z (zsum ws)) with 0%Q by lra. field. lra.
Qed.

(** The (fractional) distribution the balancer moves towards assigns the same
    load to every node: if the items of each node are equally expensive, then the
    first [k] nodes get the fraction [k/n] of the total load, for each [k]. *)
Theorem C33_optimal_is_even : forall weights loads,
  weights <> [] -> Forall (fun w => 0 <= w) weights -> Forall (fun l => 0 <= l)%Q loads -> Forall2 idle_if_empty weights loads -> (0 < qsum loads)%Q ->
  exists opt, expected_optimal weights loads = Some opt /\ length opt = length weights /\
    forall k, (k <= length weights)%nat ->
      (load_of_first weights loads (qsum (firstn k opt)) == inject_Z (Z.of_nat k) * (qsum loads / inject_Z (Z.of_nat (length weights))))%Q.
Proof.
  intros weights loads Hne Hw Hl Hi HL. assert (Hlen : length loads = length weights) by (clear - Hi; induction Hi; cbn; congruence).
  destruct (expected_ok weights loads Hne Hw Hl Hlen) as (opt & Eo & Lo & No & So). exists opt. split; [exact Eo|]. split; [exact Lo|].
  revert Eo. unfold expected_optimal. destruct (length weights) as [|n] eqn:En; [destruct weights; [contradiction|discriminate]|].
  assert (Hq : (0 < qlen weights)%Q) by (unfold qlen; rewrite En; change 0%Q with (inject_Z 0); rewrite <- Zlt_Qlt; lia).
  assert (Eq : inject_Z (Z.of_nat (S n)) = qlen weights) by (unfold qlen; now rewrite En).
  assert (Ht : (0 < qsum loads / qlen weights)%Q) by (apply Qlt_shift_div_l; lra).
  destruct (Qeq_bool (qsum loads / qlen weights) 0) eqn:E; [apply Qeq_bool_iff in E; lra|].
  destruct (per_item_ok weights loads Hw Hl ltac:(congruence)) as [P1 P2].
  pose proof (zsum_nonneg weights Hw) as HW. pose proof (inject_nonneg _ HW) as HW'.
  set (m := Z.to_nat (zsum weights)) in *.
  assert (Hones : Forall one (repeat 1%Q m)) by (apply Forall_forall; intros x Hx; apply repeat_spec in Hx; subst x; unfold one; reflexivity).
  pose proof (fill_nodes_ok (load_per_item weights loads) _ P1 Ht n (repeat 1%Q m) (ones_shape _ Hones)) as H.
  destruct (fill_nodes n _ _ _) as [rs fs]. destruct H as (L1 & L2 & Sh & N & Es & D); [now rewrite repeat_length|].
  intros Eo. injection Eo as Eo. subst opt. intros k Hk. rewrite Eq.
  destruct (Nat.eq_dec k (S n)) as [->|Hk'].
  - rewrite firstn_all2 by (rewrite app_length, L1; cbn; lia). rewrite Eq.
    assert (Hge : (0 <= qsum (rs ++ [0 + qsum fs]%Q))%Q) by (rewrite So; exact HW').
    rewrite <- load_items by (auto). rewrite (items_load_ext (load_per_item weights loads) _ (inject_Z (zsum weights))) by exact So.
    rewrite load_items by auto. rewrite load_of_all by auto. field. lra.
  - assert (Hfn : firstn k (rs ++ [0 + qsum fs]%Q) = firstn k rs).
    { rewrite firstn_app. replace (k - length rs)%nat with O by lia. now rewrite app_nil_r. }
    rewrite Hfn. assert (Hge : (0 <= qsum (firstn k rs))%Q).
    { apply qsum_nonneg. apply Forall_forall. intros x Hx. rewrite Forall_forall in N. apply N.
      rewrite <- (firstn_skipn k rs). apply in_or_app. now left. }
    rewrite <- load_items by auto. destruct (rests_ones (repeat 1%Q m) (load_per_item weights loads) Hones) as [R1 R2].
    rewrite (items_load_ext (load_per_item weights loads) _ (qsum (rests (repeat 1%Q m)) + qsum (firstn k rs))) by lra.
    rewrite D; [rewrite R2; ring| |lia]. rewrite dot_ones by exact P2. rewrite per_item_sum by auto.
    assert (En' : (qlen weights == inject_Z (Z.of_nat n) + 1)%Q).
    { rewrite <- Eq. rewrite Nat2Z.inj_succ, <- Z.add_1_r, inject_Z_plus. reflexivity. }
    assert (Em : (qlen weights * (qsum loads / qlen weights) == qsum loads)%Q) by (field; lra).
    rewrite En' in Em at 1. lra.
Qed.
Print Assumptions C33_optimal_is_even.

(** Node 1 is slow: its items move to the other nodes. *)
Example C33_example :
  ooze_balance (1 # 2) [10; 10; 10] [2; 6; 1]%Q = Some [10; 8; 12] /\ distributes 3 30 [10; 8; 12] /\
  Forall2 idle_if_empty [10; 10; 10] [2; 6; 1]%Q.
Proof. split; [vm_compute; reflexivity|]. split; [repeat split; repeat constructor; lia|repeat constructor; unfold idle_if_empty; lia]. Qed.

(** ** C34: BiasBalancer and RandomBalancer *)

Lemma fold_repeat0 n : fold_right Z.add 0 (repeat 0 n) = 0.
Proof. induction n; cbn; auto. Qed.

(** What a balancer promises. *)
Definition preserves {S} (inv : S -> Prop) (bal : S -> list Z -> list Q -> option (S * list Z)) : Prop :=
  forall s weights loads, inv s -> weights <> [] -> Forall (fun w => 0 <= w) weights -> Forall (fun l => 0 <= l)%Q loads -> length loads = length weights ->
  exists s' ret, bal s weights loads = Some (s', ret) /\ inv s' /\ distributes (length weights) (fold_right Z.add 0 weights) ret.

(** The first call yields everything to node 0; any later call is passed to the
    other balancer. In both cases nothing is lost. *)
Theorem C34_bias : forall S (inv : S -> Prop) (other : S -> list Z -> list Q -> option (S * list Z)),
  preserves inv other -> preserves (fun st => inv (snd st)) (bias_balance other).
Proof.
  intros S inv other Ho [pristine s] weights loads Hs Hne Hw Hl Hlen. cbn [bias_balance snd] in *. destruct pristine.
  - destruct weights as [|w ws]; [contradiction|]. cbn [load_on_one_node]. do 2 eexists. split; [reflexivity|]. split; [exact Hs|].
    pose proof (zsum_nonneg _ Hw) as Hnn. split; [cbn; now rewrite repeat_length|]. split.
    + constructor; [exact Hnn|]. apply Forall_forall. intros x Hx. apply repeat_spec in Hx. lia.
    + rewrite (zsum_right (w :: ws)). cbn [fold_right]. rewrite fold_repeat0. lia.
  - destruct (Ho s weights loads Hs Hne Hw Hl Hlen) as (s' & ret & E & Hi & Hd). rewrite E. do 2 eexists. split; [reflexivity|]. split; [exact Hi|exact Hd].
Qed.
Print Assumptions C34_bias.

Definition ooze_bal (weight : Q) (s : unit) (weights : list Z) (loads : list Q) : option (unit * list Z) :=
  match ooze_balance weight weights loads with Some l => Some (s, l) | None => None end.

Theorem C34_bias_ooze : forall weight, (0 <= weight)%Q -> (weight <= 1)%Q -> preserves (fun _ => True) (bias_balance (ooze_bal weight)).
Proof.
  intros weight H0 H1 s weights loads _ Hne Hw Hl Hlen. destruct (C34_bias unit (fun _ => True) (ooze_bal weight)) with (s := s) (weights := weights) (loads := loads) as (s' & ret & E & _ & Hd); auto.
  - intros [] ws ls _ Hne' Hw' Hl' Hlen'. destruct (C33_ooze_preserves_sum weight ws ls H0 H1 Hne' Hw' Hl' Hlen') as (ret & E & Hd & _).
    unfold ooze_bal. rewrite E. eauto.
  - exists s', ret. auto.
Qed.
Print Assumptions C34_bias_ooze.

Lemma incr_ok : forall l k, (k < length l)%nat -> Forall (fun x => 0 <= x) l ->
  length (incr l k) = length l /\ Forall (fun x => 0 <= x) (incr l k) /\ zsum (incr l k) = zsum l + 1.
Proof.
  induction l as [|x l IH]; intros k Hk Hl; [cbn in Hk; lia|]. inversion Hl; subst. destruct k as [|k]; cbn [incr length].
  - split; [reflexivity|]. split; [constructor; [lia|auto]|]. rewrite !zsum_cons. lia.
  - destruct (IH k) as (L & N & E); [cbn in Hk; lia|auto|]. split; [now rewrite L|]. split; [constructor; auto|]. rewrite !zsum_cons. lia.
Qed.

Lemma scatter_ok : forall ks l, Forall (fun k => (k < length l)%nat) ks -> Forall (fun x => 0 <= x) l ->
  length (scatter l ks) = length l /\ Forall (fun x => 0 <= x) (scatter l ks) /\ zsum (scatter l ks) = zsum l + Z.of_nat (length ks).
Proof.
  unfold scatter. induction ks as [|k ks IH]; intros l Hk Hl; cbn [fold_left length]; [repeat split; auto; lia|]. inversion Hk; subst.
  destruct (incr_ok l k H1 Hl) as (L & N & E). destruct (IH (incr l k)) as (L' & N' & E'); [|exact N|].
  - eapply Forall_impl; [|exact H2]. cbn. intros. lia.
  - split; [congruence|]. split; [exact N'|]. lia.
Qed.

Lemma trunc_sum (f : Q -> Q) base : Forall (fun b => 0 <= f b)%Q base ->
  Forall (fun x => 0 <= x) (map (fun b => qtrunc (f b)) base) /\ (inject_Z (zsum (map (fun b => qtrunc (f b)) base)) <= qsum (map f base))%Q.
Proof.
  induction base as [|b base IH]; intros H; [split; [apply Forall_nil|vm_compute; congruence]|]. inversion H; subst. destruct (IH H3) as [N E].
  destruct (qtrunc_spec _ H2) as (T0 & T1 & _). cbn [map]. split; [constructor; auto|]. rewrite zsum_cons, qsum_cons, inject_Z_plus. lra.
Qed.

Lemma qsum_scale c d base : (qsum (map (fun b => b * c / d) base) == qsum base * c / d)%Q.
Proof. unfold Qdiv. induction base as [|b base IH]; [cbn; unfold qsum; cbn; ring|]. cbn [map]. rewrite !qsum_cons, IH. ring. Qed.

(** Whatever the random numbers, nothing is lost. *)
Theorem C34_random : forall base draw weights,
  length base = length weights -> Forall (fun b => 0 <= b)%Q base -> (0 < qsum base)%Q ->
  (forall i, (draw i < length weights)%nat) -> Forall (fun w => 0 <= w) weights ->
  distributes (length weights) (fold_right Z.add 0 weights) (random_balance base draw weights).
Proof.
  intros base draw weights Hlen Hb Hsum Hd Hw. unfold random_balance. rewrite <- zsum_right. pose proof (zsum_nonneg weights Hw) as HW.
  pose proof (inject_nonneg _ HW) as HW'. set (f := fun b => (b * inject_Z (zsum weights) / qsum base)%Q).
  destruct (trunc_sum f base) as [N E].
  { eapply Forall_impl; [|exact Hb]. cbn. intros b H. unfold f. apply qdiv_nonneg; [nra|exact Hsum]. }
  change (map (fun b => qtrunc (b * inject_Z (zsum weights) / qsum base)) base) with (map (fun b => qtrunc (f b)) base).
  set (ret := map (fun b => qtrunc (f b)) base) in *. change (map f base) with (map (fun b => b * inject_Z (zsum weights) / qsum base)%Q base) in E. rewrite qsum_scale in E.
  assert (E1 : (qsum base * inject_Z (zsum weights) / qsum base == inject_Z (zsum weights))%Q) by (field; lra). rewrite E1 in E.
  rewrite <- Zle_Qle in E. assert (Lr : length ret = length weights) by (unfold ret; now rewrite map_length).
  destruct (scatter_ok (map draw (seq 0 (Z.to_nat (zsum weights - zsum ret)))) ret) as (L & N' & E').
  { apply Forall_forall. intros k Hk. apply in_map_iff in Hk. destruct Hk as (i & <- & _). rewrite Lr. apply Hd. }
  { exact N. }
  split; [congruence|]. split; [exact N'|]. rewrite <- zsum_right, E', map_length, seq_length. lia.
Qed.
Print Assumptions C34_random.

Example C34_example :
  random_balance [1 # 4; 1 # 3; 1 # 5]%Q (fun i => (i mod 3)%nat) [5; 0; 12] = [6; 7; 4] /\
  bias_balance (ooze_bal (1 # 2)) (true, tt) [10; 10; 10] [2; 6; 1]%Q = Some ((false, tt), [30; 0; 0]) /\
  bias_balance (ooze_bal (1 # 2)) (false, tt) [30; 0; 0] [3; 0; 0]%Q = Some ((false, tt), [20; 5; 5]).
Proof. split; [vm_compute; reflexivity|]. split; vm_compute; reflexivity. Qed.
