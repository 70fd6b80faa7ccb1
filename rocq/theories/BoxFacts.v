From Coq Require Import Sorted Permutation QArith.
From Verif Require Import Base RegionSpec RegionModel RegionOpsModel RegionStreaks CoordModel CoordSpec CoordFacts GridSpec GridFacts GeometryProps UpdateModel ArrayModel ParamModel BoxModel BoxSpec.
Open Scope Z_scope.

Lemma ceq_spec (a : coord) : forall b, CoordModel.coord_eqb a b = true <-> a = b.
Proof.
  induction a as [|x a IH]; intros [|y b]; cbn; try (split; congruence).
  rewrite andb_true_iff, Z.eqb_eq, IH. split; [intros [-> ->]; reflexivity|intros E; injection E; auto].
Qed.

(** * The neighborhood's coordinates *)

Lemma hood_regular n : (1 <= n)%nat -> box_regular (S (n - 1)) (hood_box n).
Proof.
  intros Hn. unfold box_regular, hood_box, diagonal. cbn [b_origin b_dim]. rewrite !repeat_length. split; [lia|]. split; [lia|].
  destruct n as [|m]; [lia|]. cbn. split; [lia|]. apply Forall_forall. intros x Hx. apply repeat_spec in Hx. lia.
Qed.

Lemma hood_inside n : forall c, inside (diagonal n (-1)) (diagonal n 3) c <-> length c = n /\ Forall (fun x => -1 <= x <= 1) c.
Proof.
  induction n as [|n IH]; intros [|x c]; cbn [diagonal repeat inside].
  - now split; [split|].
  - split; [intros []|]. intros [H _]. discriminate.
  - split; [intros []|]. intros [H _]. discriminate.
  - change (repeat (-1) n) with (diagonal n (-1)). change (repeat 3 n) with (diagonal n 3). rewrite IH. split.
    + intros (H1 & H2 & H3). split; [cbn; lia|]. constructor; [lia|exact H3].
    + intros [H1 H2]. inversion H2; subst. cbn in H1. split; [lia|]. split; [lia|assumption].
Qed.

Lemma hood_coords n : (1 <= n)%nat -> box_coords (hood_fuel n) (hood_box n) = Some (box_list (hood_box n)).
Proof. intros Hn. apply (box_coords_spec _ (n - 1)); [now apply hood_regular|apply le_n]. Qed.

Lemma hood_list_in n c : (1 <= n)%nat -> In c (box_list (hood_box n)) <-> length c = n /\ Forall (fun x => -1 <= x <= 1) c.
Proof. intros Hn. rewrite (box_list_in _ (n - 1)) by now apply hood_regular. apply hood_inside. Qed.

Lemma hood_list_nodup n : (1 <= n)%nat -> NoDup (box_list (hood_box n)).
Proof. intros Hn. apply sorted_NoDup. apply (box_list_sorted _ (n - 1)). now apply hood_regular. Qed.

Lemma hood_list_last n : (1 <= n <= 3)%nat -> last (box_list (hood_box n)) [] = diagonal n 1 /\ box_list (hood_box n) <> [].
Proof. intros Hn. destruct n as [|[|[|[|n]]]]; try lia; (split; [vm_compute; reflexivity|discriminate]). Qed.

(** * Walking through the neighborhood *)

Section Walk.
Context {N P : Type}.
Variable cells : place -> boxcell N P.
Variable hood : coord -> place.
Variable n : nat.
Let org := b_origin (hood_box n).
Let fin := zadd (b_origin (hood_box n)) (b_dim (hood_box n)).
Let stop := box_end (hood_box n).
Let parts (c : coord) : list P := bx_parts (cells (hood c)).

(** [l] is what follows [cur]. *)
Inductive chain : coord -> list coord -> Prop :=
| ch_end : forall cur, box_next cur org fin = stop -> chain cur []
| ch_next : forall cur l, box_next cur org fin <> stop -> chain (box_next cur org fin) l -> chain cur (box_next cur org fin :: l).

Lemma run_chain f : forall cur c l, box_run f cur stop org fin = Some (c :: l) -> c = cur /\ chain cur l.
Proof using.
  induction f as [|f IH]; intros cur c l E; cbn [box_run] in E.
  - destruct (CoordModel.coord_eqb cur stop); discriminate.
  - destruct (CoordModel.coord_eqb cur stop); [discriminate|]. destruct (box_run f (box_next cur org fin) stop org fin) as [l'|] eqn:E'; [|discriminate].
    injection E as <- <-. split; [reflexivity|]. destruct l' as [|c' l'].
    + constructor. destruct f as [|f']; cbn [box_run] in E'; destruct (CoordModel.coord_eqb (box_next cur org fin) stop) eqn:Es; try discriminate; try exact (proj1 (ceq_spec _ _) Es).
      now destruct (box_run f' _ _ _ _).
    + pose proof (IH _ _ _ E') as [-> Hc]. constructor; [|exact Hc]. intros Es.
      destruct f; cbn [box_run] in E'; rewrite (proj2 (ceq_spec _ _) Es) in E'; discriminate.
Qed.

Let first_full (l : list coord) : option coord := find (fun c => (0 <? size_of cells (hood c))%nat) l.

Lemma settle_here f c pos : (pos < size_of cells (hood c))%nat -> settle cells hood n f c (hood c) pos = Some (mkNit c (hood c) pos).
Proof using. intros H. destruct f; cbn [settle]; rewrite (proj2 (Nat.eqb_neq _ _)) by lia; reflexivity. Qed.

(** Leaving a cell leads to the next particle, if there is one. *)
Lemma settle_spec l : forall f cur, chain cur l -> (length l <= f)%nat -> last (cur :: l) [] = diagonal n 1 ->
  (flat_map parts l = [] /\ exists i, settle cells hood n f cur (hood cur) (size_of cells (hood cur)) = Some i /\ nit_eqb i (nit_end cells hood n) = true) \/
  (exists c l', settle cells hood n f cur (hood cur) (size_of cells (hood cur)) = Some (mkNit c (hood c) 0) /\ parts c <> [] /\
    flat_map parts l = parts c ++ flat_map parts l' /\ chain c l' /\ last (c :: l') [] = diagonal n 1 /\ (length l' <= length l)%nat).
Proof using.
  induction l as [|c l IH]; intros f cur H Hf Hl.
  - left. split; [reflexivity|]. inversion H as [cur' Hs|]; subst cur'. exists (mkNit stop (hood cur) (size_of cells (hood cur))). split.
    + destruct f; cbn [settle]; rewrite Nat.eqb_refl; fold fin org; rewrite Hs; fold stop; rewrite (proj2 (ceq_spec stop stop) eq_refl); reflexivity.
    + cbn in Hl. subst cur. unfold nit_eqb, nit_end, place_eqb. cbn [n_cell n_pos]. destruct (place_dec _ _) as [_|Hx]; [|congruence]. now rewrite Nat.eqb_refl.
  - inversion H as [|cur' l' Hne Hc]; subst cur' l'. destruct f as [|f]; [cbn in Hf; lia|]. cbn [settle]. rewrite Nat.eqb_refl. fold fin org. rewrite H1. rewrite H1 in Hne.
    destruct (CoordModel.coord_eqb c (box_end (hood_box n))) eqn:Es; [apply ceq_spec in Es; fold stop in Es; congruence|]. rewrite H1 in Hc. change (last (c :: l) [] = diagonal n 1) in Hl. cbn in Hf.
    destruct (parts c) as [|p ps] eqn:Ep.
    + assert (Ez : size_of cells (hood c) = 0%nat) by (unfold size_of; fold (parts c); now rewrite Ep).
      destruct (IH f c Hc ltac:(lia) Hl) as [(H2 & i & H3 & H4)|(c1 & l1 & H3 & H4 & H5 & H6 & H7 & H8)]; rewrite Ez in H3.
      * left. split; [cbn [flat_map]; now rewrite Ep|]. exists i. now split.
      * right. exists c1, l1. split; [exact H3|]. split; [exact H4|]. split; [cbn [flat_map]; now rewrite Ep|]. split; [exact H6|]. split; [exact H7|]. cbn; lia.
    + right. exists c, l. rewrite settle_here by (unfold size_of; fold (parts c); rewrite Ep; cbn; lia). split; [reflexivity|]. split; [now rewrite Ep|].
      split; [reflexivity|]. split; [exact Hc|]. split; [exact Hl|]. cbn; lia.
Qed.

Lemma not_end c pos : (pos < size_of cells (hood c))%nat -> nit_eqb (mkNit c (hood c) pos) (nit_end cells hood n) = false.
Proof using.
  intros H. unfold nit_eqb, nit_end, place_eqb. cbn [n_cell n_pos]. destruct (place_dec _ _) as [Hx|_]; [|reflexivity]. cbn [andb]. apply Nat.eqb_neq. rewrite <- Hx. lia.
Qed.

Lemma walk_spec f : forall cur l pos, chain cur l -> (length l <= hood_fuel n)%nat -> last (cur :: l) [] = diagonal n 1 -> (pos < length (parts cur))%nat ->
  (length (skipn pos (parts cur) ++ flat_map parts l) <= f)%nat ->
  walk cells hood n f (mkNit cur (hood cur) pos) = Some (skipn pos (parts cur) ++ flat_map parts l).
Proof using.
  induction f as [|f IH]; intros cur l pos Hc Hl Hd Hp Hf.
  - rewrite app_length, skipn_length in Hf. lia.
  - cbn [walk]. rewrite not_end by exact Hp. cbn [n_cell n_pos]. fold (parts cur). destruct (nth_error (parts cur) pos) as [p|] eqn:Ep; [|apply nth_error_None in Ep; lia].
    cbn [obind]. unfold nit_next. cbn [n_cell n_pos n_at].
    assert (Es : skipn pos (parts cur) = p :: skipn (S pos) (parts cur)).
    { clear - Ep. revert pos Ep. generalize (parts cur) as l. induction l as [|a l IHl]; intros [|pos] E; try discriminate; cbn in *; [congruence|now apply IHl]. }
    rewrite Es in Hf |- *. cbn [app length] in Hf |- *. destruct (Nat.eq_dec (S pos) (length (parts cur))) as [Ee|Ene].
    + rewrite Ee. fold (size_of cells (hood cur)). change (length (parts cur)) with (size_of cells (hood cur)).
      rewrite Ee, skipn_all in Hf. change (size_of cells (hood cur)) with (length (parts cur)) at 2. rewrite skipn_all. cbn [app] in Hf |- *.
      destruct (settle_spec l (hood_fuel n) cur Hc Hl Hd) as [(H2 & i & -> & H4)|(c1 & l1 & -> & H4 & H5 & H6 & H7 & H8)]; cbn [obind].
      * rewrite H2. destruct f; cbn [walk]; rewrite H4; reflexivity.
      * rewrite (IH c1 l1 0%nat H6); [cbn [skipn option_map]; now rewrite H5|lia|exact H7|destruct (parts c1); [congruence|cbn; lia]|]. cbn [skipn]. rewrite <- H5. lia.
    + rewrite settle_here by (change (size_of cells (hood cur)) with (length (parts cur)); lia). cbn [obind]. rewrite (IH cur l (S pos)) by (assumption || lia). reflexivity.
Qed.

Lemma find_spec l : forall cur, chain cur l -> last (cur :: l) [] = diagonal n 1 ->
  match first_full (cur :: l) with
  | Some c => exists l', parts c <> [] /\ flat_map parts (cur :: l) = parts c ++ flat_map parts l' /\ chain c l' /\ last (c :: l') [] = diagonal n 1 /\ (length l' <= length l)%nat
  | None => flat_map parts (cur :: l) = []
  end.
Proof using.
  induction l as [|c l IH]; intros cur H Hl; unfold first_full; cbn [find].
  - destruct (Nat.ltb_spec 0 (size_of cells (hood cur))) as [Hs|Hs].
    + exists []. unfold size_of in Hs. fold (parts cur) in Hs. split; [destruct (parts cur); [cbn in Hs; lia|discriminate]|]. split; [reflexivity|]. split; [exact H|]. split; [exact Hl|cbn; lia].
    + unfold size_of in Hs. fold (parts cur) in Hs. cbn. destruct (parts cur); [reflexivity|cbn in Hs; lia].
  - destruct (Nat.ltb_spec 0 (size_of cells (hood cur))) as [Hs|Hs]; unfold size_of in Hs; fold (parts cur) in Hs.
    + exists (c :: l). split; [destruct (parts cur); [cbn in Hs; lia|discriminate]|]. split; [reflexivity|]. split; [exact H|]. split; [exact Hl|cbn; lia].
    + assert (E : parts cur = []) by (destruct (parts cur); [reflexivity|cbn in Hs; lia]). inversion H as [|cur' l' Hne Hc]; subst cur' l'. rewrite H1 in Hc |- *.
      specialize (IH c Hc Hl). unfold first_full in IH. cbn [find] in IH. cbn [flat_map] in IH |- *. rewrite E. cbn [app].
      destruct (if (0 <? size_of cells (hood c))%nat then Some c else _) as [c1|]; [|exact IH]. destruct IH as (l1 & H2 & H3 & H4 & H5 & H6). exists l1.
      split; [exact H2|]. split; [exact H3|]. split; [exact H4|]. split; [exact H5|cbn; lia].
Qed.

Lemma hood_particles_spec (Hn : (1 <= n <= 3)%nat) : hood_particles cells hood n = Some (flat_map parts (box_list (hood_box n))).
Proof using.
  unfold hood_particles, nit_begin, walk_fuel. rewrite hood_coords by lia. cbn [option_map obind]. change (fun c => bx_parts (cells (hood c))) with parts.
  destruct (hood_list_last n Hn) as [Hlast Hne]. pose proof (hood_coords n ltac:(lia)) as Hrun. unfold box_coords in Hrun. fold fin org stop in Hrun.
  assert (Hlen : (length (box_list (hood_box n)) <= hood_fuel n)%nat) by now rewrite box_list_length.
  destruct (box_list (hood_box n)) as [|c0 l0]; [congruence|]. destruct (run_chain _ _ _ _ Hrun) as [E0 Hc]. rewrite <- E0 in Hc.
  pose proof (find_spec l0 c0 Hc Hlast) as HF. unfold first_full in HF. destruct (find _ (c0 :: l0)) as [c1|].
  - destruct HF as (l1 & H1 & H2 & H3 & H4 & H5). rewrite (walk_spec _ c1 l1 0%nat H3); [cbn [skipn]; now rewrite H2|cbn in Hlen; lia|exact H4|destruct (parts c1); [congruence|cbn; lia]|].
    cbn [skipn]. rewrite H2. apply le_n.
  - rewrite HF. cbn [length walk]. unfold nit_eqb at 1, place_eqb. destruct (place_dec _ _); [|congruence]. now rewrite Nat.eqb_refl.
Qed.

End Walk.

(** * Coordinates of grids *)

Lemma all_coords_in dim : forall c, In c (all_coords dim) <-> in_grid dim c.
Proof.
  induction dim as [|m dim IH]; intros c; cbn [all_coords].
  - unfold in_grid. cbn. destruct c; split; intros H; [exact I|now left| |destruct H]. destruct H as [H|[]]; discriminate.
  - rewrite in_flat_map. split.
    + intros (x & Hx & Hc). apply in_map_iff in Hc as (c' & <- & Hc). apply IH in Hc. apply in_seq in Hx. apply in_grid_cons. split; [lia|exact Hc].
    + intros H. destruct c as [|x c]; [destruct H|]. apply in_grid_cons in H as [Hx Hc]. exists (Z.to_nat x). split; [apply in_seq; lia|].
      rewrite Z2Nat.id by lia. apply in_map. now apply IH.
Qed.

Lemma nodup_flat_map {A B} (f : A -> list B) l : NoDup l -> (forall a, In a l -> NoDup (f a)) ->
  (forall a a' b, In a l -> In a' l -> In b (f a) -> In b (f a') -> a = a') -> NoDup (flat_map f l).
Proof.
  induction 1 as [|a l Ha Hl IH]; intros H1 H2; cbn [flat_map]; [constructor|].
  assert (Hd : forall b, In b (f a) -> ~ In b (flat_map f l)).
  { intros b Hb Hb'. apply in_flat_map in Hb' as (a' & Ha' & Hb'). assert (a = a') as <- by (apply (H2 a a' b); [now left|now right|assumption..]). now apply Ha. }
  assert (IH' : NoDup (flat_map f l)) by (apply IH; [intros; apply H1; now right|intros; eapply H2; [now right|now right|eassumption..]]).
  specialize (H1 a (or_introl eq_refl)). induction H1 as [|b bs Hb Hbs IHb]; [exact IH'|]. cbn [app]. constructor.
  - intros Hi. apply in_app_iff in Hi as [Hi|Hi]; [now apply Hb|]. apply (Hd b); [now left|exact Hi].
  - apply IHb. intros x Hx. apply Hd. now right.
Qed.

Lemma all_coords_nodup dim : NoDup (all_coords dim).
Proof.
  induction dim as [|m dim IH]; cbn [all_coords]; [repeat constructor; intros []|]. apply nodup_flat_map.
  - apply seq_NoDup.
  - intros x _. apply FinFun.Injective_map_NoDup; [|exact IH]. intros a b E. congruence.
  - intros a a' b _ _ H H'. apply in_map_iff in H as (c & <- & _). apply in_map_iff in H' as (c' & E & _). injection E as E _. lia.
Qed.

(** * Neighbours *)

Lemma large_allpos t : forall dim, large_enough t dim -> length t = length dim /\ allpos dim.
Proof.
  induction t as [|w t IH]; intros [|m dim] H; try destruct H; [now split; [|constructor]|]. destruct (IH dim H0) as [E A]. split; [cbn; lia|].
  constructor; [destruct w; lia|exact A].
Qed.

Lemma denotes_cons w t m dim x c r : denotes (w :: t) (m :: dim) (x :: c) = Some r <->
  exists r', denotes t dim c = Some r' /\ ((w = true /\ r = x mod m :: r') \/ (w = false /\ 0 <= x < m /\ r = x :: r')).
Proof.
  cbn [denotes]. destruct (denotes t dim c) as [r'|]; [|split; [discriminate|intros (r' & E & _); discriminate]]. destruct w; cbv iota.
  - split; [intros E; exists r'; split; [reflexivity|]; left; split; [reflexivity|congruence]|]. intros (r2 & E & [[_ ->]|[E' _]]); [|discriminate]. injection E as ->. reflexivity.
  - destruct (Z.leb_spec 0 x), (Z.ltb_spec x m); cbn [andb]; cbv iota.
    2-4: split; [discriminate|]; intros (r2 & E & [[E' _]|(_ & Hx & ->)]); [discriminate E'|lia].
    split.
    + intros E. exists r'. split; [reflexivity|]. right. split; [reflexivity|]. split; [lia|congruence].
    + intros (r2 & E & [[E' _]|(_ & Hx & ->)]); [discriminate E'|]. injection E as ->. reflexivity.
Qed.

Lemma step_inj t : forall dim c a b r, large_enough t dim -> length c = length dim -> length a = length dim -> length b = length dim ->
  Forall (fun x => -1 <= x <= 1) a -> Forall (fun x => -1 <= x <= 1) b ->
  denotes t dim (zadd c a) = Some r -> denotes t dim (zadd c b) = Some r -> a = b.
Proof.
  induction t as [|w t IH]; intros [|m dim] c a b r HL Hc Ha Hb Fa Fb Da Db; try (exfalso; exact HL); [|destruct HL as [Hm HL]].
  - destruct a, b; try discriminate. reflexivity.
  - destruct c as [|x c], a as [|y a], b as [|z b]; try discriminate. cbn [zadd] in Da, Db.
    apply denotes_cons in Da as (r1 & Da & Ha'). apply denotes_cons in Db as (r2 & Db & Hb').
    assert (r1 = r2) as <- by (destruct Ha' as [[_ ->]|(_ & _ & ->)], Hb' as [[_ E]|(_ & _ & E)]; congruence).
    inversion Fa as [|? ? Fy Fa']; inversion Fb as [|? ? Fz Fb']; subst. f_equal.
    + destruct Ha' as [[Hw ->]|(Hw & _ & ->)], Hb' as [[Hw' E]|(Hw' & _ & E)]; try congruence.
      * assert (E' : (x + y) mod m = (x + z) mod m) by congruence. rewrite Hw in Hm. cbv iota in Hm. assert (Hm0 : m <> 0) by (clear - Hm; lia). clear - E' Fy Fz Hm Hm0.
        assert (Hd : (y - z) mod m = 0). { replace (y - z) with (x + y - (x + z)) by ring. rewrite Zminus_mod, E', Z.sub_diag. apply Zmod_0_l. }
        apply Z.mod_divide in Hd; [|exact Hm0]. destruct Hd as [k Hk]. clear E'. destruct (Z.eq_dec k 0) as [->|]; [lia|]. nia.
      * assert (E' : x + y = x + z) by congruence. lia.
    + cbn in Hc, Ha, Hb. apply (IH dim c a b r1); auto; lia.
Qed.

Lemma denotes_grid t : forall dim c r, large_enough t dim -> denotes t dim c = Some r -> in_grid dim r.
Proof.
  induction t as [|w t IH]; intros [|m dim] c r HL D; try (exfalso; exact HL); [|destruct HL as [Hm HL]].
  - destruct c; [|discriminate]. injection D as <-. exact I.
  - destruct c as [|x c]; [discriminate|]. apply denotes_cons in D as (r' & D & H). specialize (IH dim c r' HL D).
    destruct H as [[-> ->]|(-> & Hx & ->)]; apply in_grid_cons; (split; [|exact IH]); [|exact Hx]. apply Z.mod_pos_bound. lia.
Qed.

Lemma step_back t : forall dim c a r, large_enough t dim -> in_grid dim c -> length a = length dim -> denotes t dim (zadd c a) = Some r ->
  denotes t dim (zadd r (map Z.opp a)) = Some c.
Proof.
  induction t as [|w t IH]; intros [|m dim] c a r HL Hc Ha D; try (exfalso; exact HL); [|destruct HL as [Hm HL]].
  - destruct a; [|discriminate]. destruct c; [|destruct Hc]. injection D as <-. reflexivity.
  - destruct c as [|x c]; [destruct Hc|]. destruct a as [|y a]; [discriminate|]. apply in_grid_cons in Hc as [Hx Hc]. cbn [zadd] in D.
    apply denotes_cons in D as (r' & D & H). specialize (IH dim c a r' HL Hc ltac:(cbn in Ha; lia) D).
    destruct H as [[-> ->]|(-> & Hxy & ->)]; cbn [map zadd]; apply denotes_cons; exists c; (split; [exact IH|]).
    + left. split; [reflexivity|]. f_equal. rewrite Zplus_mod_idemp_l. replace (x + y + - y) with x by ring. symmetry. now apply Z.mod_small.
    + right. split; [reflexivity|]. replace (x + y + - y) with x by ring. auto.
Qed.

Lemma neighbours_sym t dim c c' : large_enough t dim -> in_grid dim c -> neighbours t dim c c' -> neighbours t dim c' c.
Proof.
  intros HL Hc (r & L & F & D). exists (map Z.opp r). split; [now rewrite map_length|]. split; [|now apply (step_back t dim c r c')].
  apply Forall_map. eapply Forall_impl; [|exact F]. cbn. intros; lia.
Qed.

(** * Exchanging the order *)

Lemma flat_map_app_perm {A B} (f g : A -> list B) l : Permutation (flat_map (fun a => f a ++ g a) l) (flat_map f l ++ flat_map g l).
Proof.
  induction l as [|a l IH]; cbn [flat_map]; [constructor|]. rewrite <- !app_assoc. apply Permutation_app_head. rewrite IH.
  rewrite !app_assoc. apply Permutation_app_tail. apply Permutation_app_comm.
Qed.

Lemma flat_map_nil {A B} (f : A -> list B) l : (forall a, In a l -> f a = []) -> flat_map f l = [].
Proof. induction l as [|a l IH]; intros H; cbn; [reflexivity|]. rewrite (H a) by now left. apply IH. intros; apply H; now right. Qed.

Lemma flat_map_swap {A B C} (G : A -> B -> list C) l l' :
  Permutation (flat_map (fun a => flat_map (fun b => G a b) l') l) (flat_map (fun b => flat_map (fun a => G a b) l) l').
Proof.
  induction l as [|a l IH]; cbn [flat_map].
  - rewrite flat_map_nil; [constructor|reflexivity].
  - rewrite IH. symmetry. apply (flat_map_app_perm (G a) (fun b => flat_map (fun a => G a b) l)).
Qed.

Lemma flat_map_perm_ext {A B} (f g : A -> list B) l : (forall a, In a l -> Permutation (f a) (g a)) -> Permutation (flat_map f l) (flat_map g l).
Proof. induction l as [|a l IH]; intros H; cbn; [constructor|]. apply Permutation_app; [apply H; now left|apply IH; intros; apply H; now right]. Qed.

Lemma flat_map_filter {A B} (f : A -> list B) (q : A -> bool) l : flat_map f (filter q l) = flat_map (fun a => if q a then f a else []) l.
Proof. induction l as [|a l IH]; cbn; [reflexivity|]. destruct (q a); cbn; now rewrite IH. Qed.

Lemma filter_flat_map {A B} (f : A -> list B) (q : B -> bool) l : filter q (flat_map f l) = flat_map (fun a => filter q (f a)) l.
Proof. induction l as [|a l IH]; cbn; [reflexivity|]. now rewrite filter_app, IH. Qed.

(** If exactly one bin takes each element, distributing changes nothing. *)
Lemma distribute {A B} (take : A -> B -> bool) bins : NoDup bins -> forall l,
  (forall x, In x l -> exists a, In a bins /\ take a x = true /\ forall a', In a' bins -> take a' x = true -> a' = a) ->
  Permutation (flat_map (fun a => filter (take a) l) bins) l.
Proof.
  intros Hn l. induction l as [|x l IH]; intros H.
  - rewrite flat_map_nil; [constructor|reflexivity].
  - transitivity (flat_map (fun a => (if take a x then [x] else []) ++ filter (take a) l) bins).
    { apply flat_map_perm_ext. intros a _. cbn [filter]. now destruct (take a x). }
    rewrite flat_map_app_perm. rewrite IH by (intros; apply H; now right). change (x :: l) with ([x] ++ l). apply Permutation_app_tail.
    destruct (H x (or_introl eq_refl)) as (a & Ha & Ht & Hu). clear - Hn Ha Ht Hu. induction Hn as [|b bins Hb Hn IH]; [destruct Ha|]. cbn [flat_map].
    destruct Ha as [->|Ha].
    + rewrite Ht. rewrite flat_map_nil; [reflexivity|]. intros b Hb'. destruct (take b x) eqn:E; [|reflexivity].
      exfalso. apply Hb. rewrite <- (Hu b) at 1; [exact Hb'|now right|exact E].
    + destruct (take b x) eqn:E.
      * exfalso. apply Hb. rewrite (Hu b); [exact Ha|now left|exact E].
      * cbn [app]. apply IH; [exact Ha|]. intros a' Ha' E'. apply Hu; [now right|exact E'].
Qed.
