(** Facts on boxes, linear indices and topologies. *)
From Verif Require Import Base ListFacts RegionSpec RegionModel RegionTree RegionFlat RegionEnc RegionRep
  RegionIterModel RegionIter RegionStreaks CoordModel CoordSpec RegionOpsModel RegionOps.
From Coq Require Import Sorted.

Ltac Zify.zify_post_hook ::= Z.div_mod_to_equations.

(** ** Linear indices *)

Definition allpos (dim : coord) : Prop := Forall (fun k => 0 < k) dim.

Lemma prod_pos dim : allpos dim -> 0 < prod dim.
Proof. induction 1; cbn; nia. Qed.

Fixpoint from_index (dim : coord) (k : Z) : coord :=
  match dim with [] => [] | _ :: dim' => k / prod dim' :: from_index dim' (k mod prod dim') end.

Lemma from_index_length dim : forall k, length (from_index dim k) = length dim.
Proof. induction dim; intros; cbn; auto. Qed.

Lemma in_grid_cons n dim x c : in_grid (n :: dim) (x :: c) <-> 0 <= x < n /\ in_grid dim c.
Proof. unfold in_grid. cbn. split; intros []; split; auto; lia. Qed.

Lemma from_index_in dim : allpos dim -> forall k, 0 <= k < prod dim -> in_grid dim (from_index dim k).
Proof.
  induction 1 as [|n dim Hn Hd IH]; intros k Hk; [exact I|]. cbn [from_index prod] in *.
  pose proof (prod_pos dim Hd) as HP. apply in_grid_cons. split.
  - split; [apply Z.div_pos; lia|apply Z.div_lt_upper_bound; nia].
  - apply IH. apply Z.mod_pos_bound. auto.
Qed.

Lemma to_from dim : allpos dim -> forall k, 0 <= k < prod dim -> to_index (from_index dim k) dim = k.
Proof.
  induction 1 as [|n dim Hn Hd IH]; intros k Hk; cbn [from_index prod to_index] in *; [lia|].
  pose proof (prod_pos dim Hd) as HP. rewrite IH by (apply Z.mod_pos_bound; auto).
  pose proof (Z.div_mod k (prod dim)). lia.
Qed.

Lemma to_index_bound dim : allpos dim -> forall c, in_grid dim c -> 0 <= to_index c dim < prod dim.
Proof.
  induction 1 as [|n dim Hn Hd IH]; intros [|x c] Hc; try (now destruct Hc); try (cbn; lia).
  apply in_grid_cons in Hc. destruct Hc as [Hx Hc]. specialize (IH c Hc). cbn [to_index prod]. nia.
Qed.

Lemma from_to dim : allpos dim -> forall c, in_grid dim c -> from_index dim (to_index c dim) = c.
Proof.
  induction 1 as [|n dim Hn Hd IH]; intros [|x c] Hc; try (now destruct Hc); try reflexivity.
  apply in_grid_cons in Hc. destruct Hc as [Hx Hc]. pose proof (to_index_bound dim Hd c Hc).
  cbn [to_index from_index]. f_equal.
  - rewrite Z.div_add_l by lia. rewrite Z.div_small; lia.
  - rewrite Z.add_comm, Z.mod_add by lia. rewrite Z.mod_small by lia. auto.
Qed.

Lemma from_index_mono dim : allpos dim -> forall k k', 0 <= k -> k < k' -> k' < prod dim ->
  coord_lt (from_index dim k) (from_index dim k').
Proof.
  induction 1 as [|n dim Hn Hd IH]; intros k k' H0 H1 H2; cbn [from_index prod coord_lt] in *; [lia|].
  pose proof (prod_pos dim Hd) as HP.
  assert (k / prod dim <= k' / prod dim) by (apply Z.div_le_mono; lia).
  destruct (Z.eq_dec (k / prod dim) (k' / prod dim)) as [E|E]; [right|left; lia]. split; auto.
  apply IH.
  - apply Z.mod_pos_bound; auto.
  - rewrite !Z.mod_eq by lia. rewrite E. lia.
  - apply Z.mod_pos_bound; auto.
Qed.

Lemma index_to_coord_from dim k : (1 <= length dim <= 3)%nat -> allpos dim -> 0 <= k < prod dim ->
  index_to_coord dim k = Some (from_index dim k).
Proof.
  intros Hl Hp Hk. destruct dim as [|a [|b [|c [|]]]]; cbn in Hl; try lia.
  - cbn [index_to_coord from_index prod]. do 2 f_equal. now rewrite Z.div_1_r.
  - apply Forall_cons_iff' in Hp. destruct Hp as [Ha Hp]. apply Forall_cons_iff' in Hp. destruct Hp as [Hb _].
    cbn [index_to_coord from_index prod] in *. rewrite !Z.mul_1_r, Z.div_1_r in *.
    rewrite Z.quot_div_nonneg, Z.rem_mod_nonneg by lia. reflexivity.
  - apply Forall_cons_iff' in Hp. destruct Hp as [Ha Hp]. apply Forall_cons_iff' in Hp. destruct Hp as [Hb Hp].
    apply Forall_cons_iff' in Hp. destruct Hp as [Hc _].
    cbn [index_to_coord from_index prod] in *. rewrite !Z.mul_1_r, Z.div_1_r in *.
    assert (0 <= k / c) by (apply Z.div_pos; lia).
    rewrite !Z.quot_div_nonneg, !Z.rem_mod_nonneg by (try lia; rewrite ?Z.quot_div_nonneg; lia).
    f_equal. f_equal; [|f_equal; [|f_equal]].
    + rewrite Z.mul_comm, Z.div_div; auto. lia.
    + rewrite (Z.mul_comm b c), Z.rem_mul_r by lia.
      rewrite Z.mul_comm, Z.add_comm, Z.div_add_l by lia.
      rewrite (Z.div_small (k mod c)) by (apply Z.mod_pos_bound; auto). lia.
    + rewrite (Z.mul_comm b c), Z.rem_mul_r by lia.
      rewrite Z.add_mod, Z.mul_comm, Z.mod_mul, Z.add_0_r, !Z.mod_mod by lia. reflexivity.
Qed.

(** ** Box iteration *)

Lemma inside_zadd org : forall dim c, length org = length dim ->
  (inside org dim c <-> exists c', in_grid dim c' /\ c = zadd org c').
Proof.
  induction org as [|o org IH]; intros [|n dim] c Hl; try discriminate.
  - destruct c; cbn; split; try tauto; [exists []; split; auto; exact I|intros ([|] & H & E); [discriminate|destruct H]].
  - injection Hl as Hl. destruct c as [|x c]; cbn [inside].
    + split; [tauto|]. intros ([|y c'] & H & E); [destruct H|discriminate].
    + rewrite (IH dim c Hl). split.
      * intros [Hx (c' & Hc & ->)]. exists (x - o :: c'). split; [apply in_grid_cons; split; auto; lia|].
        cbn. f_equal. lia.
      * intros ([|y c'] & H & E); [discriminate|]. apply in_grid_cons in H. cbn in E. injection E as -> ->.
        destruct H as [H1 H2]. split; [lia|]. eauto.
Qed.

Lemma zadd_lt org : forall a b, length org = length a -> length org = length b ->
  (coord_lt (zadd org a) (zadd org b) <-> coord_lt a b).
Proof.
  induction org as [|o org IH]; intros [|x a] [|y b] H1 H2; try discriminate; [tauto|].
  injection H1 as H1. injection H2 as H2. cbn. rewrite IH by auto. split; intros [H|[H H']]; auto; try (left; lia).
  right; split; auto; lia. right; split; auto; lia.
Qed.

Lemma carry_spec dim : allpos dim -> forall org k, length org = length dim -> 0 <= k < prod dim ->
  box_carry (zadd org (from_index dim k)) org (zadd org dim) =
  (zadd org (from_index dim ((k + 1) mod prod dim)), (k + 1 =? prod dim)).
Proof.
  induction 1 as [|n dim Hn Hd IH]; intros [|o org] k Hl Hk; try discriminate.
  - cbn in *. f_equal. lia.
  - injection Hl as Hl. cbn [prod] in Hk |- *. pose proof (prod_pos dim Hd) as HP. set (P := prod dim) in *.
    cbn [from_index zadd box_carry]. fold P. rewrite IH by (auto; apply Z.mod_pos_bound; auto). fold P.
    pose proof (Z.div_mod k P ltac:(lia)) as Ek. pose proof (Z.mod_pos_bound k P HP).
    assert (0 <= k / P < n) by (split; [apply Z.div_pos; lia|apply Z.div_lt_upper_bound; nia]).
    destruct (Z.eqb_spec (k mod P + 1) P) as [E|E].
    + rewrite E, Z.mod_same by lia.
      assert (Ek1 : k + 1 = P * (k / P + 1)) by nia.
      destruct (Z.eqb_spec (o + k / P + 1) (o + n)) as [E2|E2].
      * assert (k / P = n - 1) by lia. assert (k + 1 = n * P) as -> by nia.
        rewrite Z.eqb_refl, Z.mod_same by nia. rewrite Z.div_0_l, Z.mod_0_l by lia.
        f_equal. f_equal. lia.
      * assert (k + 1 < n * P) by nia. replace (k + 1 =? n * P) with false by lia.
        rewrite (Z.mod_small (k + 1) (n * P)) by lia.
        rewrite Ek1, Z.mul_comm, Z.div_mul, Z.mod_mul by lia. f_equal. f_equal. lia.
    + assert (Hd1 : (k + 1) / P = k / P).
      { symmetry. apply Z.div_unique with (r := k mod P + 1); lia. }
      assert (Hm1 : (k + 1) mod P = k mod P + 1).
      { symmetry. apply Z.mod_unique with (q := k / P); lia. }
      assert (k + 1 < n * P) by nia. replace (k + 1 =? n * P) with false by lia.
      rewrite (Z.mod_small (k + 1) (n * P)) by lia. rewrite Hd1, Hm1.
      rewrite (Z.mod_small (k mod P + 1)) by lia. reflexivity.
Qed.

Lemma next_spec n dim o org k : allpos dim -> length org = length dim -> 0 <= k < n * prod dim ->
  box_next (zadd (o :: org) (from_index (n :: dim) k)) (o :: org) (zadd (o :: org) (n :: dim)) =
  zadd (o :: org) (from_index (n :: dim) (k + 1)).
Proof.
  intros Hd Hl Hk. pose proof (prod_pos dim Hd) as HP. cbn [from_index zadd box_next tl].
  rewrite carry_spec by (auto; apply Z.mod_pos_bound; auto). set (P := prod dim) in *.
  pose proof (Z.div_mod k P ltac:(lia)) as Ek. pose proof (Z.mod_pos_bound k P HP).
  destruct (Z.eqb_spec (k mod P + 1) P) as [E|E].
  - assert (Ek1 : k + 1 = P * (k / P + 1)) by nia. rewrite E, Z.mod_same by lia.
    rewrite Ek1, Z.mul_comm, Z.div_mul, Z.mod_mul by lia. f_equal. lia.
  - assert (Hd1 : (k + 1) / P = k / P).
    { symmetry. apply Z.div_unique with (r := k mod P + 1); lia. }
    assert (Hm1 : (k + 1) mod P = k mod P + 1).
    { symmetry. apply Z.mod_unique with (q := k / P); lia. }
    rewrite Hd1, Hm1. rewrite (Z.mod_small (k mod P + 1)) by lia. reflexivity.
Qed.

(** All coordinates of a box in iteration order. *)
Definition box_list (b : box) : list coord :=
  map (fun k => zadd (b_origin b) (from_index (b_dim b) (Z.of_nat k))) (seq 0 (Z.to_nat (prod (b_dim b)))).

Lemma from_index_top_bound dim k n : allpos dim -> 0 <= k < n * prod dim -> k / prod dim < n.
Proof. intros Hd Hk. pose proof (prod_pos dim Hd). apply Z.div_lt_upper_bound; nia. Qed.

Lemma zadd_from_zero org dim : allpos dim -> length org = length dim -> zadd org (from_index dim 0) = org.
Proof.
  intros Hd. revert org. induction Hd as [|n dim Hn Hd IH]; intros [|o org] Hl; try discriminate; auto.
  pose proof (prod_pos dim Hd). cbn [zadd from_index]. rewrite Z.div_0_l, Z.mod_0_l by lia. rewrite IH by (now injection Hl).
  f_equal; lia.
Qed.

Lemma box_run_spec b m : box_regular (S m) b ->
  forall j fuel, (j <= fuel)%nat -> (j <= Z.to_nat (prod (b_dim b)))%nat ->
  box_run fuel (zadd (b_origin b) (from_index (b_dim b) (prod (b_dim b) - Z.of_nat j))) (box_end b)
     (b_origin b) (zadd (b_origin b) (b_dim b)) =
  Some (map (fun k => zadd (b_origin b) (from_index (b_dim b) (Z.of_nat k)))
     (seq (Z.to_nat (prod (b_dim b)) - j) j)).
Proof.
  destruct b as [org dim]. intros (Hlo & Hld & Hreg). cbn [b_origin b_dim] in *.
  destruct org as [|o org]; [discriminate|]. destruct dim as [|n dim]; [discriminate|].
  destruct Hreg as [Hn Hd]. injection Hlo as Hlo. injection Hld as Hld.
  pose proof (prod_pos dim Hd) as HP. unfold box_end. cbn [b_origin b_dim]. cbn [prod].
  induction j as [|j IH]; intros fuel Hf Hj.
  - rewrite Z.sub_0_r. cbn [seq map]. cbn [from_index zadd]. rewrite Z.div_mul, Z.mod_mul by lia.
    rewrite zadd_from_zero by (auto; lia). destruct fuel; cbn [box_run]; rewrite coord_eqb_refl; auto.
  - destruct fuel as [|fuel]; [lia|]. cbn [box_run].
    set (k := n * prod dim - Z.of_nat (S j)). assert (Hk : 0 <= k < n * prod dim) by (unfold k; nia).
    destruct (coord_eqb _ _) eqn:E.
    { apply coord_eqb_spec in E. cbn [from_index zadd] in E. injection E as E _.
      pose proof (from_index_top_bound dim k n Hd Hk). lia. }
    rewrite next_spec by (auto; lia). replace (k + 1) with (n * prod dim - Z.of_nat j) by (unfold k; lia).
    rewrite IH by lia.
    replace (Z.to_nat (n * prod dim) - j)%nat with (S (Z.to_nat (n * prod dim) - S j)) by lia.
    cbn [seq map]. do 3 f_equal. unfold k. f_equal. lia.
Qed.

Lemma box_coords_spec b m fuel : box_regular (S m) b -> (Z.to_nat (prod (b_dim b)) <= fuel)%nat ->
  box_coords fuel b = Some (box_list b).
Proof.
  intros Hreg Hf. unfold box_coords, box_list. pose proof Hreg as (Hlo & Hld & Hp).
  pose proof (box_run_spec b m Hreg (Z.to_nat (prod (b_dim b))) fuel Hf (le_n _)) as H.
  destruct (b_dim b) as [|n dim] eqn:Ed; [destruct Hp|]. destruct Hp as [Hn Hd].
  pose proof (prod_pos dim Hd) as HP. cbn [prod] in *.
  replace (n * prod dim - Z.of_nat (Z.to_nat (n * prod dim))) with 0 in H by nia.
  rewrite Nat.sub_diag in H.
  assert (Ez : zadd (b_origin b) (from_index (n :: dim) 0) = b_origin b).
  { destruct (b_origin b) as [|o org]; [discriminate|]. cbn [zadd from_index]. rewrite Z.div_0_l, Z.mod_0_l by lia.
    rewrite zadd_from_zero by (auto; cbn in *; lia). f_equal; lia. }
  rewrite Ez in H. exact H.
Qed.

Lemma prod_nonneg_regular b m : box_regular (S m) b -> 0 <= prod (b_dim b).
Proof.
  intros (_ & _ & H). destruct (b_dim b) as [|n dim]; [destruct H|]. destruct H as [Hn Hd].
  pose proof (prod_pos dim Hd). cbn. nia.
Qed.

Lemma regular_cases b m : box_regular (S m) b -> prod (b_dim b) = 0 \/ allpos (b_dim b).
Proof.
  intros (_ & _ & H). destruct (b_dim b) as [|n dim]; [destruct H|]. destruct H as [Hn Hd].
  destruct (Z.eq_dec n 0); [left; subst; reflexivity|right; constructor; auto; lia].
Qed.

Lemma box_list_in b m : box_regular (S m) b -> forall c, In c (box_list b) <-> in_box b c.
Proof.
  intros Hreg c. pose proof Hreg as (Hlo & Hld & Hp). unfold box_list, in_box.
  rewrite in_map_iff, inside_zadd by congruence.
  destruct (regular_cases b m Hreg) as [E|Hpos].
  - rewrite E. cbn. split; [intros (k & _ & [])|]. intros (c' & Hc & _).
    destruct (b_dim b) as [|n dim]; [destruct Hp|]. destruct Hp as [Hn Hd]. destruct c'; [destruct Hc|].
    apply in_grid_cons in Hc. destruct Hc as [Hz _]. pose proof (prod_pos dim Hd). cbn [prod] in E.
    apply Z.mul_eq_0 in E. lia.
  - split.
    + intros (k & <- & Hk). apply in_seq in Hk. exists (from_index (b_dim b) (Z.of_nat k)). split; auto.
      apply from_index_in; auto. lia.
    + intros (c' & Hc & ->). pose proof (to_index_bound _ Hpos c' Hc).
      exists (Z.to_nat (to_index c' (b_dim b))). split; [|apply in_seq; lia].
      rewrite Z2Nat.id by lia. now rewrite from_to.
Qed.

Lemma box_list_sorted b m : box_regular (S m) b -> StronglySorted coord_lt (box_list b).
Proof.
  intros Hreg. pose proof Hreg as (Hlo & Hld & Hp). unfold box_list.
  destruct (regular_cases b m Hreg) as [E|Hpos]; [rewrite E; constructor|].
  assert (H : forall a n, (a + n <= Z.to_nat (prod (b_dim b)))%nat -> StronglySorted coord_lt
    (map (fun k => zadd (b_origin b) (from_index (b_dim b) (Z.of_nat k))) (seq a n))).
  { intros a n. revert a. induction n as [|n IH]; intros a Ha; [constructor|].
    cbn [seq map]. apply ss_cons. split; [apply IH; lia|].
    intros y Hy. apply in_map_iff in Hy. destruct Hy as (k & <- & Hk). apply in_seq in Hk.
    apply zadd_lt; [now rewrite from_index_length, Hlo, Hld..|]. apply from_index_mono; auto; lia. }
  apply H. lia.
Qed.

Lemma box_list_length b : length (box_list b) = Z.to_nat (prod (b_dim b)).
Proof. unfold box_list. now rewrite map_length, seq_length. Qed.

Lemma prod_app1 l n : prod (l ++ [n]) = prod l * n.
Proof. induction l as [|a l IH]; cbn [app prod]; [lia|rewrite IH; ring]. Qed.

(** ** Streak iteration of boxes *)

(** The box of the streaks' origins. *)
Definition origins_box (b : box) : box :=
  mkBox (b_origin b)
    (match b_dim b with [n] => [if 0 <? n then 1 else 0] | dim => removelast dim ++ [1] end).

(** Boxes whose streak iteration is finite. *)
Definition box_streakable (n : nat) (b : box) : Prop := box_regular n (origins_box b).

Lemma removelast_cons {A} (x : A) l : l <> [] -> removelast (x :: l) = x :: removelast l.
Proof. destruct l; [congruence|reflexivity]. Qed.

Lemma streak_fin_origins b n : length (b_origin b) = n -> length (b_dim b) = n -> (2 <= n)%nat ->
  box_streak_fin b = zadd (b_origin (origins_box b)) (b_dim (origins_box b)).
Proof.
  unfold box_streak_fin, origins_box. destruct b as [org dim]; cbn [b_origin b_dim]. intros Ho Hd Hn.
  assert (H : forall org dim, length org = length dim -> org <> [] ->
     removelast (zadd org dim) ++ [last org 0 + 1] = zadd org (removelast dim ++ [1])).
  { clear. induction org as [|o org IH]; intros [|n dim] Hl Hne; try discriminate; [congruence|].
    injection Hl as Hl. destruct org as [|o' org]; [destruct dim; [reflexivity|discriminate]|].
    destruct dim as [|n' dim]; [discriminate|].
    rewrite (removelast_cons n) by congruence. change (zadd (o :: o' :: org) (n :: n' :: dim)) with
      (o + n :: zadd (o' :: org) (n' :: dim)). rewrite (removelast_cons (o + n)) by (cbn; congruence).
    rewrite (last_cons o) by congruence. rewrite <- app_comm_cons, IH; [reflexivity|exact Hl|congruence]. }
  destruct dim as [|a [|b dim]]; cbn [length] in *; try lia. apply H; [cbn [length]; lia|].
  destruct org; [cbn in Ho; lia|congruence].
Qed.

Lemma box_streaks_spec b m fuel : length (b_origin b) = S m -> length (b_dim b) = S m ->
  box_streakable (S m) b -> (Z.to_nat (prod (b_dim (origins_box b))) <= fuel)%nat ->
  box_streaks fuel b = Some (map (fun c => mkStreak (removelast c) (last c 0)
      (last (b_origin b) 0 + last (b_dim b) 0)) (box_list (origins_box b))).
Proof.
  intros Ho Hd Hreg Hf. unfold box_streaks.
  assert (Hend : box_end_streak b = box_end (origins_box b)).
  { unfold box_end_streak, box_end, origins_box. destruct b as [org dim]; cbn [b_origin b_dim] in *.
    destruct dim as [|n [|n' dim]]; destruct org as [|o [|o' org]]; cbn in *; try discriminate; try reflexivity.
    all: destruct (0 <? n); f_equal; lia. }
  pose proof (box_coords_spec (origins_box b) m fuel Hreg Hf) as H. unfold box_coords in H.
  rewrite <- Hend in H. destruct m as [|m].
  - (* 1D: the upper bound is not used *)
    destruct b as [org dim]. cbn [b_origin b_dim] in *.
    destruct org as [|o [|]]; try discriminate. destruct dim as [|n [|]]; try discriminate.
    assert (Hfin : forall fuel cur stop f1 f2, length cur = 1%nat ->
       box_run fuel cur stop [o] f1 = box_run fuel cur stop [o] f2).
    { clear. induction fuel as [|f IH]; intros cur stop f1 f2 Hc; cbn [box_run]; auto.
      destruct cur as [|c [|]]; try discriminate. destruct (coord_eqb [c] stop); auto. cbn [box_next box_carry].
      rewrite (IH _ _ f1 f2); auto. }
    rewrite (Hfin _ _ _ _ (zadd (b_origin (origins_box (mkBox [o] [n]))) (b_dim (origins_box (mkBox [o] [n]))))) by reflexivity.
    cbn [origins_box b_origin] in H. cbn [origins_box b_origin]. rewrite H. reflexivity.
  - rewrite (streak_fin_origins b (S (S m))) by (auto; lia). change (b_origin (origins_box b)) with (b_origin b) in *.
    rewrite H. reflexivity.
Qed.

Lemma inside_app o1 : forall d1 c1 o2 d2 c2, length o1 = length d1 -> length o1 = length c1 ->
  (inside (o1 ++ o2) (d1 ++ d2) (c1 ++ c2) <-> inside o1 d1 c1 /\ inside o2 d2 c2).
Proof.
  induction o1 as [|o o1 IH]; intros [|n d1] [|x c1] o2 d2 c2 H1 H2; try discriminate; cbn; [tauto|].
  rewrite IH by auto. tauto.
Qed.

Lemma inside_length o : forall d c, inside o d c -> length o = length d /\ length o = length c.
Proof.
  induction o as [|x o IH]; intros [|y d] [|z c] H; cbn in H; try tauto; auto.
  destruct H as [_ H]. apply IH in H. cbn; lia.
Qed.

Lemma snoc_of {A} (l : list A) (dft : A) n : length l = S n -> l = removelast l ++ [last l dft].
Proof. intros H. apply app_removelast_last. intros ->; discriminate. Qed.

(** The streaks of a box cover exactly the box. *)
Lemma box_streaks_cover b m : length (b_origin b) = S m -> length (b_dim b) = S m ->
  box_streakable (S m) b -> forall c,
  in_streaks (map (fun c => mkStreak (removelast c) (last c 0)
      (last (b_origin b) 0 + last (b_dim b) 0)) (box_list (origins_box b))) c <-> in_box b c.
Proof.
  intros Ho Hd Hreg c. unfold in_streaks.
  destruct b as [org dim]; cbn [b_origin b_dim] in *.
  assert (Horg : org = removelast org ++ [last org 0]) by (now apply snoc_of with m).
  assert (Hdim : dim = removelast dim ++ [last dim 0]) by (now apply snoc_of with m).
  set (po := removelast org) in *. set (lo := last org 0) in *.
  set (pd := removelast dim) in *. set (ld := last dim 0) in *.
  assert (Hpo : length po = m) by (rewrite Horg, app_length in Ho; cbn in Ho; lia).
  assert (Hpd : length pd = m) by (rewrite Hdim, app_length in Hd; cbn in Hd; lia).
  set (lx := match dim with [n] => if 0 <? n then 1 else 0 | _ => 1 end).
  assert (Eod : b_dim (origins_box (mkBox org dim)) = pd ++ [lx]).
  { unfold origins_box, lx, pd; cbn [b_dim]. destruct dim as [|a [|b dim]]; try discriminate; auto. }
  unfold in_box. cbn [b_origin b_dim].
  assert (Hlist : forall o, In o (box_list (origins_box (mkBox org dim))) <-> inside org (pd ++ [lx]) o).
  { intros o. rewrite (box_list_in _ m Hreg). unfold in_box. rewrite Eod. reflexivity. }
  split.
  - intros (s & Hs & x & -> & Hx). apply in_map_iff in Hs. destruct Hs as (o & <- & Hin).
    cbn [s_pre s_x s_e] in *. apply Hlist in Hin. pose proof (inside_length _ _ _ Hin) as [_ Hlen].
    rewrite Ho in Hlen. symmetry in Hlen. pose proof (snoc_of o 0 m Hlen) as Es.
    assert (length (removelast o) = m) by (rewrite Es, app_length in Hlen; cbn in Hlen; lia).
    rewrite Horg, Es in Hin. apply inside_app in Hin; [|lia|lia]. destruct Hin as [Hin [Hxo _]].
    rewrite Horg, Hdim. apply inside_app; [lia|lia|]. split; auto. cbn.
    assert (lx <= 1) by (unfold lx; destruct dim as [|a [|]]; try lia; destruct (0 <? a); lia).
    split; auto. lia.
  - intros Hin. pose proof (inside_length _ _ _ Hin) as [_ Hlen]. rewrite Ho in Hlen. symmetry in Hlen.
    pose proof (snoc_of c 0 m Hlen) as Es. set (pc := removelast c) in *. set (lc := last c 0) in *.
    assert (Hpc : length pc = m) by (rewrite Es, app_length in Hlen; cbn in Hlen; lia).
    rewrite Horg, Hdim, Es in Hin. apply inside_app in Hin; [|lia|lia]. destruct Hin as [Hin [Hxo _]].
    assert (lx = 1).
    { unfold lx. destruct dim as [|a [|]]; auto. unfold ld in Hxo. cbn in Hxo. replace (0 <? a) with true by lia. auto. }
    exists (mkStreak pc lo (lo + ld)). split.
    + apply in_map_iff. exists (pc ++ [lo]). rewrite removelast_last, last_last. split; auto.
      apply Hlist. rewrite Horg. apply inside_app; [lia|lia|]. split; auto. cbn. lia.
    + exists lc. cbn. split; auto.
Qed.

Lemma box_streaks_dims b m : box_streakable (S m) b ->
  dims_ok m (map (fun c => mkStreak (removelast c) (last c 0)
      (last (b_origin b) 0 + last (b_dim b) 0)) (box_list (origins_box b))).
Proof.
  intros Hreg. apply Forall_forall. intros s Hs. apply in_map_iff in Hs. destruct Hs as (c & <- & Hc).
  cbn. apply (box_list_in _ m Hreg) in Hc. apply inside_length in Hc. destruct Hc as [_ Hc].
  destruct Hreg as (Ho & _). rewrite Ho in Hc. symmetry in Hc. pose proof (snoc_of c 0 m Hc) as E.
  rewrite E, app_length in Hc. cbn in Hc. lia.
Qed.

(** ** Inserting and removing boxes *)

Lemma insert_box_valid d r b fuel : rvalid d r ->
  length (b_origin b) = S d -> length (b_dim b) = S d -> box_streakable (S d) b ->
  (Z.to_nat (prod (b_dim (origins_box b))) <= fuel)%nat ->
  exists r', reg_insert_box fuel r b = Some r' /\ rvalid d r' /\
    forall c, length c = S d -> (rin r' c <-> rin r c \/ in_box b c).
Proof.
  intros Hr Ho Hd Hreg Hf. unfold reg_insert_box. rewrite (box_streaks_spec b d fuel) by auto. cbn [obind].
  rewrite (valid_length d r Hr).
  destruct (insert_all_valid d _ (reg_empty (S d)) (rvalid_empty d) (box_streaks_dims b d Hreg)) as [Hv Hm].
  set (buf := insert_all _ _) in *.
  destruct (streaks_valid d r Hr) as (la & Hoka & Hina & Hla & _).
  destruct (streaks_valid d buf Hv) as (lb & Hokb & Hinb & Hlb & _).
  rewrite Hla, Hlb. cbn [obind].
  destruct (merge2way_valid d (reg_empty (S d)) la lb (rvalid_empty d) (ok_dims _ _ Hoka) (ok_dims _ _ Hokb))
    as (r' & H1 & H2 & H3).
  exists r'. split; auto. split; auto. intros c Hc. rewrite H3 by auto. rewrite <- Hina, <- Hinb, Hm by auto.
  rewrite (box_streaks_cover b d) by auto. pose proof (rin_empty d c Hc). tauto.
Qed.

Lemma remove_box_valid d r b fuel : rvalid d r ->
  length (b_origin b) = S d -> length (b_dim b) = S d -> box_streakable (S d) b ->
  (Z.to_nat (prod (b_dim (origins_box b))) <= fuel)%nat ->
  exists r', reg_remove_box fuel r b = Some r' /\ rvalid d r' /\
    forall c, length c = S d -> (rin r' c <-> rin r c /\ ~ in_box b c).
Proof.
  intros Hr Ho Hd Hreg Hf. unfold reg_remove_box. rewrite (box_streaks_spec b d fuel) by auto. cbn [obind].
  rewrite (valid_length d r Hr).
  destruct (insert_all_valid d _ (reg_empty (S d)) (rvalid_empty d) (box_streaks_dims b d Hreg)) as [Hv Hm].
  destruct (reg_diff_valid d r _ Hr Hv) as (r' & H1 & H2 & H3).
  exists r'. split; auto. split; auto. intros c Hc. rewrite H3, Hm by auto.
  rewrite (box_streaks_cover b d) by auto. pose proof (rin_empty d c Hc). tauto.
Qed.
