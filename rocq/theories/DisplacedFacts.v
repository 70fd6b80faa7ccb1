(** Facts on DisplacedGrid and on the transfer of regions. *)
From Verif Require Import Base ListFacts RegionSpec RegionModel RegionRep RegionIterModel RegionStreaks RegionOpsModel
  CoordModel CoordSpec CoordFacts TopologyFacts PatchModel GridModel GridSpec GridFacts.

Lemma forall2_le_pos a b : allpos a -> Forall2 Z.le a b -> allpos b.
Proof. intros Hp H. induction H; [constructor|]. apply Forall_cons_iff' in Hp. destruct Hp. constructor; [lia|]. now apply IHForall2. Qed.

Lemma forall2_length {A B} (R : A -> B -> Prop) a b : Forall2 R a b -> length a = length b.
Proof. induction 1; cbn; auto. Qed.

Lemma in_grid_le a b : Forall2 Z.le a b -> forall c, in_grid a c -> in_grid b c.
Proof.
  induction 1 as [|x y a b Hxy H IH]; intros [|z c] Hc; try (now destruct Hc).
  apply in_grid_cons in Hc. destruct Hc as [Hc1 Hc2]. apply in_grid_cons. split; [lia|]. now apply IH.
Qed.

Lemma oob_diag2 t : forall topo dim c, length t = length topo -> length t = length dim -> length c = length topo ->
  out_of_bounds t c topo = true -> out_of_bounds t (diagonal (length c) (-1)) dim = true.
Proof.
  induction t as [|w t IH]; intros [|m topo] [|n dim] [|x c] H1 H2 H3 H; try discriminate.
  cbn [out_of_bounds length diagonal repeat] in *. apply orb_true_iff in H. apply orb_true_iff.
  destruct H as [H|H]; [left; destruct w; [discriminate|reflexivity]|right]. apply (IH topo dim c); auto.
Qed.

Lemma zsub_length a b : length a = length b -> length (zsub a b) = length b.
Proof. revert b. induction a as [|x a IH]; intros [|y b] H; try discriminate; cbn; auto. Qed.

Lemma zsub_snoc pre x o y : length pre = length o -> zsub (pre ++ [x]) (o ++ [y]) = zsub pre o ++ [x - y].
Proof. revert o. induction pre as [|z pre IH]; intros [|w o] H; try discriminate; cbn; auto. now rewrite IH by (now injection H). Qed.

Lemma zadd_snoc pre x o y : length pre = length o -> zadd (pre ++ [x]) (o ++ [y]) = zadd pre o ++ [x + y].
Proof. revert o. induction pre as [|z pre IH]; intros [|w o] H; try discriminate; cbn; auto. now rewrite IH by (now injection H). Qed.

Lemma zadd_length' a b : length a = length b -> length (zadd a b) = length b.
Proof. revert b. induction a as [|x a IH]; intros [|y b] H; try discriminate; cbn; auto. Qed.

Lemma zsub_long pre : forall o y, length pre = length o -> zsub pre (o ++ [y]) = zsub pre o.
Proof. induction pre as [|z pre IH]; intros [|w o] y H; try discriminate; cbn; auto. now rewrite IH by (now injection H). Qed.

Lemma zadd_long pre : forall o y, length pre = length o -> zadd pre (o ++ [y]) = zadd pre o.
Proof. induction pre as [|z pre IH]; intros [|w o] y H; try discriminate; cbn; auto. now rewrite IH by (now injection H). Qed.

Lemma zadd_zsub a : forall b c, length a = length b -> length b = length c -> zadd a (zsub b c) = zsub (zadd a b) c.
Proof.
  induction a as [|x a IH]; intros [|y b] [|z c] H1 H2; try discriminate; [reflexivity|].
  cbn. rewrite IH by (cbn in *; lia). f_equal. lia.
Qed.

Lemma in_box_zsub org : forall dim c, length org = length dim -> (inside org dim c <-> length c = length dim /\ in_grid dim (zsub c org)).
Proof.
  induction org as [|o org IH]; intros [|n dim] [|x c] Hl; try discriminate.
  - cbn. tauto.
  - cbn. split; [tauto|]. intros [? _]; discriminate.
  - cbn. split; [tauto|]. intros [? _]; discriminate.
  - injection Hl as Hl. cbn [inside zsub]. rewrite (IH dim c Hl), in_grid_cons. cbn [length]. split; intros H.
    + destruct H as (H1 & H2 & H3). split; [lia|]. split; [lia|exact H3].
    + destruct H as (H1 & H2 & H3). split; [lia|]. split; [lia|exact H3].
Qed.

Lemma snoc_parts {A} (l : list A) n dft : length l = S n -> l = removelast l ++ [last l dft] /\ length (removelast l) = n.
Proof.
  intros H. assert (E : l = removelast l ++ [last l dft]) by (apply app_removelast_last; intros ->; discriminate).
  split; [exact E|]. rewrite E, app_length in H. cbn in H. lia.
Qed.

Lemma map_zrange_shift (a b k : Z) : map (fun x => x + k) (zrange a b) = zrange (a + k) (b + k).
Proof. unfold zrange. rewrite map_map. replace (b + k - (a + k)) with (b - a) by lia. apply map_ext. intros. lia. Qed.

(** The coordinates of displaced streaks. *)
Lemma shift_coords off s : length off = S (length (s_pre s)) ->
  streak_coords (s_shift off 0 s) = map (fun c => zadd c off) (streak_coords s).
Proof.
  intros H. destruct (snoc_parts off _ 0 H) as [E Hlen]. rewrite E. unfold streak_coords, s_shift. cbn [s_pre s_x s_e]. rewrite last_last, Z.add_0_r.
  rewrite zadd_long by lia. rewrite <- map_zrange_shift, !map_map. apply map_ext. intros x. now rewrite zadd_snoc by lia.
Qed.

Lemma rel_coords org s : length org = S (length (s_pre s)) ->
  streak_coords (mkStreak (zsub (s_pre s) org) (s_x s - last org 0) (s_e s - last org 0)) = map (fun c => zsub c org) (streak_coords s).
Proof.
  intros H. destruct (snoc_parts org _ 0 H) as [E Hlen]. rewrite E. unfold streak_coords. cbn [s_pre s_x s_e]. rewrite last_last.
  rewrite zsub_long by lia. replace (zrange (s_x s - last org 0) (s_e s - last org 0)) with (map (fun x => x + - last org 0) (zrange (s_x s) (s_e s))).
  - rewrite !map_map. apply map_ext. intros x. rewrite zsub_snoc by lia. reflexivity.
  - apply map_zrange_shift.
Qed.

Lemma diag_close dim : allpos dim -> close_by dim (diagonal (length dim) (-1)).
Proof.
  induction 1 as [|n dim Hn _ IH]; [exact Logic.I|].
  cbn [length]. change (diagonal (S (length dim)) (-1)) with (-1 :: diagonal (length dim) (-1)). cbn [close_by]. split; [lia|exact IH].
Qed.

Lemma bool_cases (b : bool) : b = true \/ b = false.
Proof. destruct b; auto. Qed.

Section Displaced.
Context {C : Type} (t : topology) (correct : bool) (b : box) (topo : coord).
Context (Hs : setup_ok t correct b topo).

Notation dim := (b_dim b).
Notation org := (b_origin b).

Lemma so_len : length t = length dim.
Proof using Hs. destruct Hs as (_ & _ & H & _). lia. Qed.
Lemma so_pos : allpos dim.
Proof using Hs. apply Hs. Qed.
Lemma so_ne : dim <> [].
Proof using Hs. destruct Hs as (H & _ & H1 & _). intros E. rewrite E in H1. destruct t; [congruence|discriminate]. Qed.
Lemma so_org : length org = length dim.
Proof using Hs. destruct Hs as (_ & H & H1 & _). lia. Qed.
Lemma so_topo : correct = true -> length t = length topo /\ allpos topo.
Proof using Hs.
  intros Hc. destruct Hs as (_ & _ & H1 & H2 & H3). specialize (H3 Hc). split.
  - apply forall2_length in H3. lia.
  - now apply (forall2_le_pos dim).
Qed.

(** The grid is located at the box and holds [f]. *)
Definition drep (d : dgrid C) (f : place -> C) : Prop :=
  d_org d = org /\ d_topo d = topo /\ rep dim (d_grid d) f.

Lemma drep_make dflt edge : drep (dg_make b dflt edge topo) (fresh dflt edge).
Proof using Hs. split; [reflexivity|]. split; [reflexivity|]. exact (rep_make t dim so_len so_pos dflt edge). Qed.

Lemma drep_coord d f c : drep d f -> reachable_coord t correct b topo c ->
  close_by dim (dg_coord t correct d c) /\ denotes t dim (dg_coord t correct d c) = ddenotes t correct b topo c.
Proof using Hs.
  intros (H1 & H2 & _). unfold reachable_coord, ddenotes, dg_coord. rewrite H1, H2. cbv zeta. intros [Hlc Hr].
  destruct (bool_cases correct) as [Ec|Ec]; rewrite Ec in Hr |- *; [|auto]. destruct Hr as [Hc Hin]. destruct so_topo as [Ht Hpt]; [exact Ec|].
  pose proof so_len as Hl. pose proof so_pos as Hp.
  pose proof (normalize_spec t topo (zsub c org) Ht Hpt (proj1 (close_one _ _) Hc)) as [N1 N2].
  destruct (denotes t topo (zsub c org)) as [c'|] eqn:Ed.
  - pose proof (proj1 (denotes_wraps t topo _ c' Ht Hpt) Ed) as Hw. rewrite (N1 c' Hw). specialize (Hin c' eq_refl).
    split; [now apply in_grid_close|]. now apply denotes_self.
  - rewrite N2.
    + pose proof (close_length _ _ Hc) as Hlen. split.
      * rewrite Hlen, <- Ht, Hl. now apply diag_close.
      * apply denotes_oob; auto. apply (oob_diag2 t topo); auto.
        destruct (out_of_bounds t (zsub c org) topo) eqn:Eo; [reflexivity|].
        apply (normalize_edges_spec t topo _ Ht Hpt (proj1 (close_one _ _) Hc)) in Eo.
        apply denotes_wraps in Eo; auto. congruence.
    + intros c' Hw. apply denotes_wraps in Hw; auto. congruence.
Qed.

Lemma drep_get d f c : drep d f -> reachable_coord t correct b topo c ->
  dg_get t correct d c = Some (f (ddenotes t correct b topo c)).
Proof using Hs.
  intros Hd Hc. destruct (drep_coord d f c Hd Hc) as [H1 H2]. unfold dg_get. rewrite <- H2.
  apply (rep_get t dim so_len so_pos); [apply Hd|exact H1].
Qed.

Lemma drep_with d g f : drep d f -> forall f', rep dim g f' -> drep (dg_with d g) f'.
Proof using. intros (H1 & H2 & _) f' Hr. split; [exact H1|]. split; [exact H2|exact Hr]. Qed.

(** Streaks. *)
Lemma in_streak_denotes s : Forall (reachable_in_streak correct b) (streak_coords s) ->
  Forall (close_by dim) (map (fun c => zsub c org) (streak_coords s)) /\
  map (denotes t dim) (map (fun c => zsub c org) (streak_coords s)) = map (ddenotes t correct b topo) (streak_coords s).
Proof using Hs.
  intros H. pose proof so_org as Ho. pose proof so_len as Hl. pose proof so_pos as Hp. split.
  - apply Forall_forall. intros c Hc. apply in_map_iff in Hc. destruct Hc as (c0 & <- & Hc). rewrite Forall_forall in H. specialize (H c0 Hc).
    unfold reachable_in_streak in H. destruct (bool_cases correct) as [Ec|Ec]; rewrite Ec in H; [|apply H]. apply in_box_zsub in H; [|exact Ho]. apply in_grid_close; [exact Hp|apply H].
  - rewrite map_map. apply map_ext_in. intros c Hc. rewrite Forall_forall in H. specialize (H c Hc). unfold ddenotes, reachable_in_streak in *.
    destruct (bool_cases correct) as [Ec|Ec]; rewrite Ec in H |- *; [|reflexivity]. apply in_box_zsub in H; [|exact Ho]. destruct H as [_ H]. destruct so_topo as [Ht Hpt]; [exact Ec|].
    rewrite (denotes_self t dim _ Hl Hp H). symmetry. apply denotes_self; auto. apply (in_grid_le dim); [apply Hs; exact Ec|exact H].
Qed.

Lemma streak_pre s : s_x s < s_e s -> Forall (reachable_in_streak correct b) (streak_coords s) -> length org = S (length (s_pre s)).
Proof using Hs.
  intros Hx H. unfold streak_coords in H. rewrite zrange_cons in H by lia. cbn [map] in H. inversion H as [|? ? H1 _]; subst.
  pose proof so_org as Ho. unfold reachable_in_streak in H1. destruct (bool_cases correct) as [Ec|Ec]; rewrite Ec in H1.
  - apply inside_length in H1. rewrite app_length in H1. cbn in H1. lia.
  - destruct H1 as [H1 _]. rewrite app_length in H1. cbn in H1. lia.
Qed.

Lemma dg_streak_coords d f s : drep d f -> s_x s <= s_e s -> Forall (reachable_in_streak correct b) (streak_coords s) ->
  s_x (dg_streak d s) <= s_e (dg_streak d s) /\ streak_coords (dg_streak d s) = map (fun c => zsub c org) (streak_coords s).
Proof using Hs.
  intros (H1 & _) Hx H. unfold dg_streak. rewrite H1. split; [cbn; lia|]. destruct (Z.eq_dec (s_x s) (s_e s)) as [E|E].
  - unfold streak_coords. cbn [s_x s_e]. rewrite !zrange_nil by lia. reflexivity.
  - apply rel_coords. apply streak_pre; [lia|exact H].
Qed.

Lemma drep_get_streak d f s : drep d f -> s_x s <= s_e s -> Forall (reachable_in_streak correct b) (streak_coords s) ->
  dg_get_streak t d s = Some (map (fun c => f (ddenotes t correct b topo c)) (streak_coords s)).
Proof using Hs.
  intros Hd Hx H. destruct (dg_streak_coords d f s Hd Hx H) as [H1 H2]. destruct (in_streak_denotes s H) as [H3 H4].
  unfold dg_get_streak. rewrite (rep_get_streak t dim so_len so_pos so_ne (d_grid d) f); [|apply Hd|exact H1|now rewrite H2].
  rewrite H2. f_equal. rewrite <- (map_map (ddenotes t correct b topo) f), <- H4, !map_map. reflexivity.
Qed.

Lemma drep_op d f o : drep d f -> access_ok (reachable_coord t correct b topo) (reachable_in_streak correct b) o ->
  exists d', dg_op t correct d o = Some d' /\ drep d' (last_written f (writes (ddenotes t correct b topo) o)).
Proof using Hs.
  intros Hd Ho. pose proof Hd as (_ & _ & Hr). destruct o as [c v|s vs|v]; cbn [dg_op writes access_ok] in *.
  - destruct (drep_coord d f c Hd Ho) as [H1 H2]. destruct (rep_set t dim so_len so_pos _ f _ v Hr H1) as (g' & E & R).
    unfold dg_set. rewrite E. cbn [option_map]. eexists. split; [reflexivity|]. rewrite <- H2. now apply (drep_with d g' f Hd).
  - destruct Ho as (Hx & H & Hv). destruct (dg_streak_coords d f s Hd Hx H) as [H1 H2]. destruct (in_streak_denotes s H) as [H3 H4].
    destruct (rep_set_streak t dim so_len so_pos so_ne (d_grid d) f (dg_streak d s) vs Hr H1) as (g' & E & R); [now rewrite H2|rewrite H2, map_length, Hv; apply le_n|].
    unfold dg_set_streak. rewrite E. cbn [option_map]. eexists. split; [reflexivity|]. rewrite H2, H4 in R. now apply (drep_with d g' f Hd).
  - eexists. split; [reflexivity|]. apply (drep_with d _ f Hd). now apply rep_edge.
Qed.

Lemma drep_ops l : forall d f, drep d f -> Forall (access_ok (reachable_coord t correct b topo) (reachable_in_streak correct b)) l ->
  exists d', dg_ops t correct d l = Some d' /\ drep d' (last_written f (flat_map (writes (ddenotes t correct b topo)) l)).
Proof using Hs.
  induction l as [|o l IH]; intros d f Hd Hok; [exists d; now split|].
  inversion Hok as [|? ? H1 H2]; subst. destruct (drep_op d f o Hd H1) as (d1 & E1 & R1). cbn [dg_ops flat_map]. rewrite E1. cbn [obind].
  destruct (IH d1 _ R1 H2) as (d' & E & K1 & K2 & K3). exists d'. split; [exact E|]. split; [exact K1|]. split; [exact K2|].
  apply (rep_ext _ _ _ _ K3). intros q. symmetry. apply last_written_app.
Qed.
End Displaced.

(** ** The normalizing iterator *)

(** Componentwise equal, or equal to the wrapped component. *)
Fixpoint mixed (dim a b : list Z) {struct a} : Prop :=
  match a, b with
  | [], [] => True
  | x :: a', y :: b' => match dim with n :: dim' => (x = y \/ x = wrap y n) /\ mixed dim' a' b' | [] => False end
  | _, _ => False
  end.

Lemma mixed_edges dim : forall a, length a = length dim -> mixed dim (normalize_edges a dim) a.
Proof. induction dim as [|n dim IH]; intros [|x a] H; try discriminate; cbn; auto. Qed.

Lemma mixed_snoc dim : forall a b n x, mixed dim a b -> length b = length dim -> mixed (dim ++ [n]) (a ++ [x]) (b ++ [x]).
Proof.
  induction dim as [|m dim IH]; intros [|u a] [|v b] n x H Hl; try discriminate; cbn in *; try tauto; auto.
  destruct H as [H1 H2]. split; [exact H1|]. apply IH; auto.
Qed.

Lemma mixed_wraps t : forall dim a b c, length t = length dim -> allpos dim -> mixed dim a b -> one_period dim b -> wraps_to t dim b c ->
  one_period dim a /\ wraps_to t dim a c.
Proof.
  induction t as [|w t IH]; intros [|n dim] [|x a] [|y b] [|z c] Hl Hp Hm Ho Hw; try discriminate; cbn [mixed one_period wraps_to] in Hm, Ho, Hw; try tauto.
  injection Hl as Hl. apply Forall_cons_iff' in Hp. destruct Hp as [Hn Hp]. destruct Hm as [Hm1 Hm2], Ho as [Ho1 Ho2], Hw as (Hw1 & Hw2 & Hw3).
  destruct (IH dim a b c Hl Hp Hm2 Ho2 Hw3) as [H1 H2]. cbn [one_period wraps_to]. destruct (wrap_spec n y Hn Ho1) as [W1 [k W2]].
  destruct Hm1 as [->| ->].
  - tauto.
  - split; [split; [lia|exact H1]|]. split; [exact Hw1|]. split; [|exact H2]. destruct w.
    + destruct Hw2 as [k' ->]. exists (k' - k). lia.
    + subst y. unfold wrap. destruct (Z.ltb_spec z 0); [lia|]. destruct (Z.leb_spec n z); [lia|reflexivity].
Qed.

Lemma it_up_mixed off : forall r pos dim p1 p2, mixed dim p1 p2 ->
  match it_up r pos p1 off, it_up r pos p2 off with
  | Some (ps1, q1, b1), Some (ps2, q2, b2) => ps1 = ps2 /\ b1 = b2 /\ mixed dim q1 q2
  | None, None => True
  | _, _ => False
  end.
Proof.
  intros r. revert off. induction r as [|v r IH]; intros off pos dim p1 p2 Hm; [exact Logic.I|].
  destruct r as [|v' r].
  - destruct pos as [|p [|p' pos]]; [exact Logic.I|now repeat split|]. destruct p1, p2; try (now destruct Hm); destruct off; exact Logic.I.
  - destruct pos as [|p pos]; [exact Logic.I|].
    destruct p1 as [|c1 p1], p2 as [|c2 p2]; try (now destruct Hm).
    destruct dim as [|n dim]; [now destruct Hm|]. cbn in Hm. destruct Hm as [Hm1 Hm2].
    destruct off as [|o off]; [exact Logic.I|].
    specialize (IH off pos dim p1 p2 Hm2).
    change (it_up (v :: v' :: r) (p :: pos) (c1 :: p1) (o :: off)) with
      (match it_up (v' :: r) pos p1 off with
       | Some (ps', pre'', true) =>
           if (S p =? length v)%nat then Some (p :: ps', c1 :: pre'', false)
           else match nth_error v (S p) with
                | Some e => if Z.of_nat (hd O ps') =? snd e then Some (S p :: ps', (fst e + o) :: pre'', true)
                            else Some (p :: ps', c1 :: pre'', false)
                | None => None
                end
       | Some (ps', pre'', false) => Some (p :: ps', c1 :: pre'', false)
       | None => None
       end).
    change (it_up (v :: v' :: r) (p :: pos) (c2 :: p2) (o :: off)) with
      (match it_up (v' :: r) pos p2 off with
       | Some (ps', pre'', true) =>
           if (S p =? length v)%nat then Some (p :: ps', c2 :: pre'', false)
           else match nth_error v (S p) with
                | Some e => if Z.of_nat (hd O ps') =? snd e then Some (S p :: ps', (fst e + o) :: pre'', true)
                            else Some (p :: ps', c2 :: pre'', false)
                | None => None
                end
       | Some (ps', pre'', false) => Some (p :: ps', c2 :: pre'', false)
       | None => None
       end).
    destruct (it_up (v' :: r) pos p1 off) as [[[ps1 q1] b1]|], (it_up (v' :: r) pos p2 off) as [[[ps2 q2] b2]|]; try tauto.
    destruct IH as (-> & -> & Hq). destruct b2.
    + destruct (S p =? length v)%nat; [cbn; tauto|]. destruct (nth_error v (S p)) as [e|]; [|exact Logic.I].
      destruct (Z.of_nat (hd O ps2) =? snd e); cbn; tauto.
    + cbn; tauto.
Qed.

Section Normalizing.
Context (t : topology) (topo : coord) (Ht : length t = length topo) (Hpt : allpos topo) (Hne : topo <> []).

(** The streak's origin has got a counterpart on the grid. *)
Definition normable (s : streak) : Prop :=
  length (s_pre s) = (length topo - 1)%nat /\ one_period topo (s_origin s) /\ exists c, wraps_to t topo (s_origin s) c.

Lemma topo_snoc : exists tp n, topo = tp ++ [n].
Proof using Hne. exists (removelast topo), (last topo 0). now apply app_removelast_last. Qed.

Lemma normalize_edges_snoc tp : forall pre x n, length pre = length tp ->
  normalize_edges (pre ++ [x]) (tp ++ [n]) = normalize_edges pre tp ++ [wrap x n].
Proof using. induction tp as [|m tp IH]; intros [|y pre] x n H; try discriminate; cbn; auto. now rewrite IH by (now injection H). Qed.

Lemma normalize_edges_length tp : forall pre, length pre = length tp -> length (normalize_edges pre tp) = length tp.
Proof using. induction tp as [|m tp IH]; intros [|y pre] H; try discriminate; cbn; auto. Qed.

Lemma norm_pre s : normable s ->
  mixed (removelast topo) (s_pre (norm_streak t true topo s)) (s_pre s).
Proof using Ht Hpt Hne.
  intros (Hlen & Ho & c & Hc). destruct topo_snoc as (tp & n & E). unfold norm_streak. cbv zeta. unfold normalize.
  destruct (out_of_bounds t (s_origin s) topo) eqn:Eo; [exfalso; eapply out_of_bounds_spec; eauto|].
  rewrite E in *. rewrite removelast_last, app_length in *. cbn in Hlen. unfold s_origin. rewrite normalize_edges_snoc by lia.
  cbn [s_pre]. rewrite removelast_last. apply mixed_edges. lia.
Qed.

Lemma norm_mixed s pre : normable s -> mixed (removelast topo) pre (s_pre s) ->
  norm_streak t true topo (mkStreak pre (s_x s) (s_e s)) = norm_streak t true topo s.
Proof using Ht Hpt Hne.
  intros (Hlen & Ho & c & Hc) Hm. destruct topo_snoc as (tp & n & E).
  assert (Hm' : mixed topo (pre ++ [s_x s]) (s_origin s)).
  { rewrite E in *. rewrite removelast_last in Hm. rewrite app_length in Hlen. cbn in Hlen. apply mixed_snoc; [exact Hm|lia]. }
  destruct (mixed_wraps t topo _ _ c Ht Hpt Hm' Ho Hc) as [H1 H2].
  unfold norm_streak. cbv zeta. change (s_origin (mkStreak pre (s_x s) (s_e s))) with (pre ++ [s_x s]). cbn [s_pre s_x s_e].
  rewrite (proj1 (normalize_spec t topo _ Ht Hpt H1) c H2). rewrite (proj1 (normalize_spec t topo _ Ht Hpt Ho) c Hc). reflexivity.
Qed.

Lemma norm_idem s : normable s -> norm_streak t true topo (norm_streak t true topo s) = norm_streak t true topo s.
Proof using Ht Hpt Hne.
  intros (Hlen & Ho & c & Hc). unfold norm_streak at 2 3. cbv zeta. rewrite (proj1 (normalize_spec t topo _ Ht Hpt Ho) c Hc).
  unfold norm_streak. cbv zeta. unfold s_origin. cbn [s_pre s_x s_e].
  pose proof (wraps_to_grid t topo _ c Hc) as Hg. pose proof (in_grid_length topo c Hg) as Hl.
  rewrite <- (app_removelast_last 0 (l := c)) by (intros ->; destruct topo; [congruence|discriminate]).
  assert (E : normalize t c topo = c).
  { apply (proj1 (normalize_spec t topo c Ht Hpt (grid_one_period topo Hpt c Hg))). now apply grid_wraps_self. }
  rewrite E. f_equal. lia.
Qed.

Lemma nit_run_spec r off fin : forall fuel it1 it2 l, it_run fuel r off 0 it2 fin = Some l -> Forall normable l ->
  it_pos it1 = it_pos it2 -> (forall s l', l = s :: l' -> it_streak it1 = norm_streak t true topo (it_streak it2)) ->
  nit_run t true topo fuel r off it1 fin = Some (map (norm_streak t true topo) l).
Proof using Ht Hpt Hne.
  assert (Heq : forall a b, it_pos a = it_pos b -> it_eqb a fin = it_eqb b fin) by (intros a b' E; unfold it_eqb; now rewrite E).
  induction fuel as [|fuel IH]; intros it1 it2 l Hrun Hl Hpos Hst.
  - cbn [it_run] in Hrun. cbn [nit_run]. rewrite (Heq it1 it2 Hpos). destruct (it_eqb it2 fin); [|discriminate]. now injection Hrun as <-.
  - cbn [it_run] in Hrun. cbn [nit_run]. rewrite (Heq it1 it2 Hpos). destruct (it_eqb it2 fin) eqn:Ee; [now injection Hrun as <-|].
    destruct (it_next r off 0 it2) as [it2'|] eqn:En; [|discriminate].
    destruct (it_run fuel r off 0 it2' fin) as [l'|] eqn:Er; [|discriminate]. injection Hrun as <-.
    specialize (Hst _ _ eq_refl). inversion Hl as [|? ? Hg Hl']; subst.
    assert (Hnext : exists it1', it_next r off 0 it1 = Some it1' /\ it_pos it1' = it_pos it2' /\
              forall s l'', l' = s :: l'' -> norm_streak t true topo (it_streak it1') = norm_streak t true topo (it_streak it2')).
    { unfold it_next in *. rewrite Hpos. destruct (S (last (it_pos it2) O) =? length (last r []))%nat eqn:Elast.
      - injection En as <-. eexists. split; [reflexivity|]. split; [reflexivity|]. intros s l'' _. cbn [it_streak]. rewrite Hst. now apply norm_idem.
      - destruct (nth_error (last r []) (S (last (it_pos it2) O))) as [e|]; [|discriminate]. rewrite Hst.
        pose proof (it_up_mixed off r (it_pos it2) (removelast topo) _ _ (norm_pre _ Hg)) as Hup.
        destruct (it_up r (it_pos it2) (s_pre (it_streak it2)) off) as [[[ps2 q2] b2]|]; [|discriminate].
        destruct (it_up r (it_pos it2) (s_pre (norm_streak t true topo (it_streak it2))) off) as [[[ps1 q1] b1]|]; [|contradiction].
        destruct Hup as (-> & _ & Hq). injection En as <-. eexists. split; [reflexivity|]. split; [reflexivity|].
        intros s l'' ->. cbn [it_streak] in *.
        assert (Hn : normable (mkStreak q2 (fst e + last off 0) (snd e + last off 0 + 0))).
        { assert (s = mkStreak q2 (fst e + last off 0) (snd e + last off 0 + 0)) as <-.
          { destruct fuel; cbn [it_run] in Er; match type of Er with context [it_eqb ?a fin] => destruct (it_eqb a fin) end; try discriminate.
            match type of Er with context [it_next r off 0 ?a] => destruct (it_next r off 0 a) as [it3|]; [|discriminate] end. destruct (it_run fuel r off 0 it3 fin); [|discriminate].
            now injection Er as <- _. }
          now inversion Hl'. }
        exact (norm_mixed _ q1 Hn Hq). }
    destruct Hnext as (it1' & En1 & Hp1 & Hs1). rewrite En1.
    rewrite (IH (norm_iter t true topo it1') it2' l' Er Hl').
    + cbn [map]. now rewrite Hst.
    + exact Hp1.
    + intros s l'' E. cbn [norm_iter it_streak]. eapply Hs1; eauto.
Qed.
End Normalizing.

Lemma wraps_length t : forall dim c c', wraps_to t dim c c' -> length t = length dim /\ length c = length dim /\ length c' = length dim.
Proof.
  induction t as [|w t IH]; intros [|n dim] [|x c] [|x' c'] H; cbn in H; try tauto.
  destruct H as (_ & _ & H). apply IH in H. cbn. lia.
Qed.

Lemma wraps_snoc t : forall dim c c' w n x y, length t = length dim -> length c = length dim -> length c' = length dim ->
  (wraps_to (t ++ [w]) (dim ++ [n]) (c ++ [x]) (c' ++ [y]) <->
   wraps_to t dim c c' /\ 0 <= y < n /\ (if w : bool then exists k, x = y + k * n else x = y)).
Proof.
  induction t as [|v t IH]; intros [|m dim] [|z c] [|z' c'] w n x y H1 H2 H3; try discriminate.
  - cbn. tauto.
  - cbn [app wraps_to]. rewrite IH by (cbn in *; lia). tauto.
Qed.

Lemma close_snoc dim : forall c n x, length c = length dim -> (close_by (dim ++ [n]) (c ++ [x]) <-> close_by dim c /\ - n <= x < 2 * n).
Proof.
  induction dim as [|m dim IH]; intros [|z c] n x H; try discriminate.
  - cbn [app close_by]. tauto.
  - cbn [app close_by]. rewrite IH by (cbn in *; lia). tauto.
Qed.

Lemma grid_snoc dim c n x : length c = length dim -> (in_grid (dim ++ [n]) (c ++ [x]) <-> in_grid dim c /\ 0 <= x < n).
Proof.
  intros H. unfold in_grid. rewrite map_app. rewrite inside_app by (rewrite map_length; auto). cbn. tauto.
Qed.

Lemma Forall2_snoc {A B} (R : A -> B -> Prop) a b x y : length a = length b -> Forall2 R (a ++ [x]) (b ++ [y]) -> Forall2 R a b /\ R x y.
Proof.
  revert b. induction a as [|u a IH]; intros [|v b] Hl H; try discriminate; cbn in H; inversion H; subst.
  - split; [constructor|assumption].
  - injection Hl as Hl. destruct (IH b Hl) as [H1 H2]; [assumption|]. split; [constructor; auto|exact H2].
Qed.

(** A normalized streak denotes the same cells on the smaller grid. *)
Lemma norm_coords t dim topo s : t <> [] -> length t = length dim -> allpos dim -> Forall2 Z.le dim topo ->
  s_x s < s_e s -> s_e s - s_x s <= last topo 0 -> length (s_pre s) = (length topo - 1)%nat ->
  (forall x, s_x s <= x < s_e s -> close_by topo (s_pre s ++ [x]) /\ exists c', wraps_to t topo (s_pre s ++ [x]) c' /\ in_grid dim c') ->
  normable t topo s /\ s_x (norm_streak t true topo s) <= s_e (norm_streak t true topo s) /\
  Forall (close_by dim) (streak_coords (norm_streak t true topo s)) /\
  map (denotes t dim) (streak_coords (norm_streak t true topo s)) = map (denotes t topo) (streak_coords s).
Proof.
  intros Hne Hl Hp Hle Hx Hlen Hpre Hall. pose proof (forall2_length _ _ _ Hle) as Hld. pose proof (forall2_le_pos _ _ Hp Hle) as Hpt.
  assert (Ht : length t = length topo) by lia.
  destruct (Hall (s_x s)) as (Hc0 & c0 & Hw0 & Hg0); [lia|].
  assert (Hnorm : normable t topo s).
  { split; [exact Hpre|]. split; [apply close_one; exact Hc0|]. exists c0. exact Hw0. }
  split; [exact Hnorm|].
  assert (En : norm_streak t true topo s = mkStreak (removelast c0) (last c0 0) (last c0 0 + (s_e s - s_x s))).
  { unfold norm_streak. cbv zeta. rewrite (proj1 (normalize_spec t topo (s_origin s) Ht Hpt (proj1 (close_one _ _) Hc0)) c0 Hw0). reflexivity. }
  rewrite En. cbn [s_x s_e]. split; [lia|].
  (* split off the x axis *)
  assert (Hn0 : exists m, length t = S m) by (destruct t; [congruence|cbn; eauto]). destruct Hn0 as [m Hm].
  destruct (snoc_parts t m true Hm) as [Et Lt]. destruct (snoc_parts dim m 0 ltac:(lia)) as [Ed Ld].
  destruct (snoc_parts topo m 0 ltac:(lia)) as [Ep Lp].
  pose proof (wraps_length _ _ _ _ Hw0) as (_ & _ & Lc0). destruct (snoc_parts c0 m 0 ltac:(lia)) as [Ec Lc].
  set (tt := removelast t) in *. set (w := last t true) in *. set (dp := removelast dim) in *. set (n := last dim 0) in *.
  set (tp := removelast topo) in *. set (N := last topo 0) in *. set (p0 := removelast c0) in *. set (x0 := last c0 0) in *.
  clearbody tt w dp n tp N p0 x0. subst t dim topo c0. clear Hm.
  rewrite app_length in Hpre. cbn in Hpre. apply Forall2_snoc in Hle; [|lia]. destruct Hle as [Hle HnN].
  apply wraps_snoc in Hw0; [|lia|lia|lia]. destruct Hw0 as (Hw0 & Hx0 & Hw0').
  apply grid_snoc in Hg0; [|lia]. destruct Hg0 as [Hg0 Hgx].
  assert (Hpp : allpos dp /\ 0 < n). { apply Forall_app in Hp. destruct Hp as [Hp1 Hp2]. split; [exact Hp1|]. now inversion Hp2. }
  destruct Hpp as [Hpd Hn].
  (* where the x-th cell goes *)
  assert (Hy : forall x, s_x s <= x < s_e s -> exists y, wraps_to (tt ++ [w]) (tp ++ [N]) (s_pre s ++ [x]) (p0 ++ [y]) /\ 0 <= y < n /\
                 (if w then exists k, x = y + k * N else x = y)).
  { intros x Hx'. destruct (Hall x Hx') as (_ & c' & Hw & Hg). pose proof (wraps_length _ _ _ _ Hw) as (_ & _ & Lc').
    rewrite app_length in Lc'. cbn in Lc'. destruct (snoc_parts c' m 0 ltac:(lia)) as [Ec' Lc''].
    rewrite Ec' in Hw, Hg. pose proof Hw as Hwk. apply wraps_snoc in Hw; [|lia|lia|lia]. destruct Hw as (Hw & Hyb & Hyw).
    assert (Epp : removelast c' = p0) by (eapply wraps_to_unique; eauto). rewrite Epp in *.
    exists (last c' 0). apply grid_snoc in Hg; [|lia]. destruct Hg as [_ Hg]. auto. }
  assert (Hwrap : forall k, 0 <= k < s_e s - s_x s -> exists y,
            wraps_to (tt ++ [w]) (tp ++ [N]) (s_pre s ++ [s_x s + k]) (p0 ++ [y]) /\
            wraps_to (tt ++ [w]) (dp ++ [n]) (p0 ++ [x0 + k]) (p0 ++ [y]) /\ close_by (dp ++ [n]) (p0 ++ [x0 + k])).
  { intros k Hk. destruct (Hy (s_x s + k) ltac:(lia)) as (y & Hwy & Hyn & Hyw). exists y. split; [exact Hwy|].
    assert (Hcase : x0 + k = y \/ (w = true /\ n = N /\ x0 + k = y + N)).
    { destruct w; [|left; lia]. destruct Hyw as [k1 Hk1], Hw0' as [k2 Hk2].
      assert (Hd : x0 + k = y + (k1 - k2) * N) by lia.
      assert (k1 - k2 = 0 \/ k1 - k2 = 1) as [Hz|Hz] by nia; rewrite Hz in Hd; [left; lia|]. right. split; [reflexivity|]. split; [|lia].
      assert (Hj : 0 <= N - 1 - x0 < k) by lia.
      destruct (Hy (s_x s + (N - 1 - x0)) ltac:(lia)) as (z & _ & Hzn & k3 & Hk3).
      assert (N - 1 = z + (k3 - k2) * N) by lia. assert (k3 - k2 = 0) by nia. lia. }
    split.
    - apply wraps_snoc; [lia|lia|lia|]. split; [apply grid_wraps_self; [lia|exact Hg0]|]. split; [exact Hyn|].
      destruct Hcase as [<-|(-> & -> & ->)].
      + destruct w; [exists 0; lia|reflexivity].
      + exists 1. lia.
    - apply close_snoc; [lia|]. split; [now apply in_grid_close|]. destruct Hcase as [E|(_ & <- & E)]; lia. }
  assert (Hcoords : streak_coords (mkStreak p0 x0 (x0 + (s_e s - s_x s))) = map (fun x => p0 ++ [x0 + (x - s_x s)]) (zrange (s_x s) (s_e s))).
  { unfold streak_coords. cbn [s_pre s_x s_e]. replace (zrange x0 (x0 + (s_e s - s_x s))) with (map (fun x => x + (x0 - s_x s)) (zrange (s_x s) (s_e s))).
    - rewrite map_map. apply map_ext. intros x. do 2 f_equal. lia.
    - rewrite map_zrange_shift. f_equal; lia. }
  rewrite Hcoords. split.
  - apply Forall_forall. intros c Hc. apply in_map_iff in Hc. destruct Hc as (x & <- & Hxi). apply zrange_in in Hxi.
    destruct (Hwrap (x - s_x s) ltac:(lia)) as (y & _ & _ & H). exact H.
  - unfold streak_coords. rewrite !map_map. apply map_ext_in. intros x Hxi. apply zrange_in in Hxi.
    destruct (Hwrap (x - s_x s) ltac:(lia)) as (y & H1 & H2 & _). replace (s_x s + (x - s_x s)) with x in H1 by lia.
    apply denotes_wraps in H1; [|rewrite !app_length; cbn; lia|exact Hpt]. apply denotes_wraps in H2; [|rewrite !app_length; cbn; lia|exact Hp].
    congruence.
Qed.

Lemma nit_run_false t topo r off fin : forall fuel it, nit_run t false topo fuel r off it fin = it_run fuel r off 0 it fin.
Proof.
  induction fuel as [|fuel IH]; intros it; cbn [nit_run it_run]; [reflexivity|].
  destruct (it_eqb it fin); [reflexivity|]. destruct (it_next r off 0 it) as [[p st]|]; [|reflexivity].
  unfold norm_iter, norm_streak. cbn [it_pos it_streak]. now rewrite IH.
Qed.

(** Different coordinates of the region denote different cells. *)
Lemma wraps_inj base : forall tt tp (a c : coord) p, length tt = length tp ->
  inside base tp a -> inside base tp c -> forall o, length o = length tp ->
  wraps_to tt tp (zadd a o) p -> wraps_to tt tp (zadd c o) p -> a = c.
Proof.
  induction base as [|x0 base IH]; intros tt [|n tp] [|x a] [|y c] p Hl Ha Hc o Ho Hw1 Hw2; cbn in Ha, Hc; try tauto.
  destruct tt as [|w tt]; [discriminate|]. destruct o as [|z o]; [discriminate|]. destruct p as [|q p]; [destruct Hw1|].
  cbn in Hw1, Hw2. destruct Hw1 as (_ & W1 & R1), Hw2 as (_ & W2 & R2). destruct Ha as [Ha1 Ha2], Hc as [Hc1 Hc2].
  f_equal.
  - destruct w; [|lia]. destruct W1 as [k1 W1], W2 as [k2 W2]. assert (Hdf : x - y = (k1 - k2) * n) by lia. assert (k1 - k2 = 0) by nia. nia.
  - apply (IH tt tp a c p) with (o := o); auto.
Qed.

Lemma displace_inj off : forall org n (a c : coord), length org = n -> length off = n -> length a = n -> length c = n ->
  zsub (zadd a off) org = zsub (zadd c off) org -> a = c.
Proof.
  induction off as [|x off IH]; intros [|y org] n [|u a] [|v c] H1 H2 H3 H4 E; cbn in *; try lia; auto.
  injection E as E1 E2. f_equal; [lia|]. apply (IH org (n - 1)%nat); auto; lia.
Qed.

Section Transfer.
Context {C : Type} (t : topology) (correct : bool) (b : box) (topo : coord).
Context (Hs : setup_ok t correct b topo) (d0 : nat) (Hd : length t = S d0).
Context (r : indices) (Hr : rvalid d0 r) (off : coord) (Hoff : length off = S d0).

Notation dim := (b_dim b).
Notation org := (b_origin b).
Notation inR := (fun c => length c = S d0 /\ reg_count r c = Some true).

Lemma region_streaks : exists l, streaks_ok d0 l /\ reg_streaks r = Some l /\
  (forall o, length o = S d0 -> reg_streaks_off r o 0 = Some (map (s_shift o 0) l)) /\
  (forall s c, In s l -> In c (streak_coords s) -> inR c).
Proof using Hr Hd Hoff.
  destruct (streaks_valid d0 r Hr) as (l & Hok & Hin & El & Eo & _). exists l. split; [exact Hok|]. split; [exact El|]. split; [intros; now apply Eo|].
  intros s c Hsl Hc. assert (Hlen : length c = S d0).
  { destruct Hok as [_ Hf]. rewrite Forall_forall in Hf. specialize (Hf s Hsl). apply streak_coords_in in Hc.
    destruct Hf as [Hf _]. unfold in_streak in Hc. destruct Hc as (x & -> & _). rewrite app_length. cbn. lia. }
  split; [exact Hlen|]. apply Hin; [exact Hlen|]. exists s. split; [exact Hsl|]. now apply streak_coords_in.
Qed.

Lemma flat_map_map {A B D} (f : A -> B) (g : B -> list D) l : flat_map g (map f l) = flat_map (fun a => g (f a)) l.
Proof using. induction l; cbn; congruence. Qed.

Lemma map_flat_map {A B D} (f : B -> D) (g : A -> list B) l : map f (flat_map g l) = flat_map (fun a => map f (g a)) l.
Proof using. induction l; cbn; [reflexivity|]. now rewrite map_app, IHl. Qed.

Lemma flat_map_ext_in {A B} (f g : A -> list B) l : (forall a, In a l -> f a = g a) -> flat_map f l = flat_map g l.
Proof using. induction l as [|a l IH]; intros H; [reflexivity|]. cbn. rewrite H by now left. f_equal. apply IH. intros; apply H; now right. Qed.

Lemma transfer_streaks : transfer_ok t correct b topo inR off ->
  exists cs ss, region_coords r = Some cs /\ norm_streaks_off t correct topo r (zsub off org) = Some ss /\ streaks_fit dim ss /\
    map (denotes t dim) (flat_map streak_coords ss) = map (fun c => ddenotes t correct b topo (zadd c off)) cs.
Proof using Hs Hd Hr Hoff.
  intros Htr. destruct region_streaks as (l & Hok & El & Eo & Hin). destruct Hs as (Hne & Ho & Hld & Hp & Hle).
  assert (Hzo : length (zsub off org) = S d0) by (rewrite zsub_length; lia).
  assert (Hrel : forall c, length c = S d0 -> zadd c (zsub off org) = zsub (zadd c off) org) by (intros; apply zadd_zsub; lia).
  exists (flat_map streak_coords l).
  assert (Hsh : forall s, In s l -> length (s_pre s) = d0 /\ s_x s < s_e s /\
                  streak_coords (s_shift (zsub off org) 0 s) = map (fun c => zsub (zadd c off) org) (streak_coords s)).
  { intros s Hsl. destruct Hok as [_ Hf]. rewrite Forall_forall in Hf. destruct (Hf s Hsl) as [Hf1 Hf2]. split; [exact Hf1|]. split; [exact Hf2|].
    rewrite shift_coords by lia. apply map_ext_in. intros c Hc. apply Hrel. apply (Hin s c Hsl Hc). }
  unfold region_coords. rewrite El. cbn [option_map]. unfold norm_streaks_off. specialize (Eo _ Hzo). unfold reg_streaks_off in Eo.
  destruct (it_begin r (zsub off org) 0) as [it0|] eqn:Eb; [|discriminate]. unfold transfer_ok in Htr.
  destruct (bool_cases correct) as [Ec|Ec]; rewrite Ec in *.
  - specialize (Hle eq_refl). destruct Htr as [(base & Hbase) Hcell].
    pose proof (forall2_length _ _ _ Hle) as Hlt.
    assert (Hnc : forall s, In s l -> normable t topo (s_shift (zsub off org) 0 s) /\
        s_x (norm_streak t true topo (s_shift (zsub off org) 0 s)) <= s_e (norm_streak t true topo (s_shift (zsub off org) 0 s)) /\
        Forall (close_by dim) (streak_coords (norm_streak t true topo (s_shift (zsub off org) 0 s))) /\
        map (denotes t dim) (streak_coords (norm_streak t true topo (s_shift (zsub off org) 0 s))) =
        map (denotes t topo) (streak_coords (s_shift (zsub off org) 0 s))).
    { intros s Hsl. destruct (Hsh s Hsl) as (Hpre & Hxe & Hco).
      assert (Hpl : length (s_pre (s_shift (zsub off org) 0 s)) = d0).
      { cbn [s_shift s_pre]. destruct (snoc_parts (zsub off org) d0 0 Hzo) as [Ez Lz]. rewrite Ez, zadd_long by lia. rewrite zadd_length' by lia. exact Lz. }
      apply norm_coords; auto; try lia.
      - cbn [s_shift s_x s_e]. lia.
      - cbn [s_shift s_x s_e].
        assert (Hw : forall x, s_x s <= x < s_e s -> inside base topo (s_pre s ++ [x])).
        { intros x Hx. apply (Hbase (s_pre s ++ [x])). apply (Hin s); [exact Hsl|]. apply streak_coords_in. exists x. split; [reflexivity|exact Hx]. }
        pose proof (Hw (s_x s) ltac:(lia)) as W1. pose proof (Hw (s_e s - 1) ltac:(lia)) as W2.
        pose proof (inside_length _ _ _ W1) as [L1 L2].
        destruct (snoc_parts base d0 0 ltac:(lia)) as [Eba Lba]. destruct (snoc_parts topo d0 0 ltac:(lia)) as [Eto Lto].
        rewrite Eba, Eto in W1, W2. apply inside_app in W1; [|lia|lia]. apply inside_app in W2; [|lia|lia].
        destruct W1 as [_ W1], W2 as [_ W2]. cbn in W1, W2. lia.
      - intros x Hx. assert (Hci : In (s_pre (s_shift (zsub off org) 0 s) ++ [x]) (streak_coords (s_shift (zsub off org) 0 s))).
        { apply streak_coords_in. exists x. split; [reflexivity|exact Hx]. }
        rewrite Hco in Hci. apply in_map_iff in Hci. destruct Hci as (c & Ecc & Hc). rewrite <- Ecc. apply Hcell. apply (Hin s c Hsl Hc). }
    exists (map (norm_streak t true topo) (map (s_shift (zsub off org) 0) l)). split; [reflexivity|]. split; [|split].
    + apply (nit_run_spec t topo) with (it2 := it0); auto.
      * lia.
      * now apply (forall2_le_pos dim).
      * intros ->. cbn in Hlt. destruct t; [congruence|cbn in *; lia].
      * apply Forall_forall. intros s Hsl. apply in_map_iff in Hsl. destruct Hsl as (s0 & <- & Hs0). apply (Hnc s0 Hs0).
    + apply Forall_forall. intros s Hsl. apply in_map_iff in Hsl. destruct Hsl as (s1 & <- & Hs1). apply in_map_iff in Hs1.
      destruct Hs1 as (s0 & <- & Hs0). destruct (Hnc s0 Hs0) as (_ & H1 & H2 & _). auto.
    + rewrite map_map, flat_map_map, !map_flat_map. apply flat_map_ext_in. intros s Hsl. destruct (Hnc s Hsl) as (_ & _ & _ & H). rewrite H.
      destruct (Hsh s Hsl) as (_ & _ & Hco). rewrite Hco, map_map. reflexivity.
  - exists (map (s_shift (zsub off org) 0) l). split; [reflexivity|]. split; [|split].
    + rewrite nit_run_false. destruct it0. exact Eo.
    + apply Forall_forall. intros s Hsl. apply in_map_iff in Hsl. destruct Hsl as (s0 & <- & Hs0). destruct (Hsh s0 Hs0) as (_ & Hxe & Hco).
      split; [cbn [s_shift s_x s_e]; lia|]. rewrite Hco. apply Forall_forall. intros c Hc. apply in_map_iff in Hc. destruct Hc as (c0 & <- & Hc0).
      assert (Hb : in_box b (zadd c0 off)) by (apply Htr; apply (Hin s0 c0 Hs0 Hc0)). apply in_box_zsub in Hb; [|lia]. apply in_grid_close; [exact Hp|apply Hb].
    + rewrite flat_map_map, !map_flat_map. apply flat_map_ext_in. intros s Hsl. destruct (Hsh s Hsl) as (_ & _ & Hco). rewrite Hco, map_map. reflexivity.
Qed.

Lemma drep_save d f : drep b topo d f -> transfer_ok t correct b topo inR off ->
  exists cs, region_coords r = Some cs /\ dg_save (C := C) t correct d r off = Some (map (fun c => f (ddenotes t correct b topo (zadd c off))) cs).
Proof using Hs Hd Hr Hoff.
  intros (H1 & H2 & H3) Htr. destruct (transfer_streaks Htr) as (cs & ss & E1 & E2 & Hf & Hm). exists cs. split; [exact E1|].
  unfold dg_save. rewrite H1, H2, E2. cbn [obind].
  rewrite (rep_save_streaks t dim (so_len t correct b topo Hs) (so_pos t correct b topo Hs) (so_ne t correct b topo Hs) _ f ss H3 Hf).
  f_equal. rewrite <- (map_map (fun c => ddenotes t correct b topo (zadd c off)) f), <- Hm, map_map. reflexivity.
Qed.

Lemma drep_load d f vs cs : drep b topo d f -> transfer_ok t correct b topo inR off -> region_coords r = Some cs -> (length cs <= length vs)%nat ->
  exists d', dg_load (C := C) t correct d r off vs = Some d' /\
    drep b topo d' (last_written f (combine (map (fun c => ddenotes t correct b topo (zadd c off)) cs) vs)).
Proof using Hs Hd Hr Hoff.
  intros Hdr Htr Hcs Hv. pose proof Hdr as (H1 & H2 & H3). destruct (transfer_streaks Htr) as (cs' & ss & E1 & E2 & Hf & Hm).
  rewrite Hcs in E1. injection E1 as <-. unfold dg_load. rewrite H1, H2, E2. cbn [obind].
  destruct (rep_load_streaks t dim (so_len t correct b topo Hs) (so_pos t correct b topo Hs) (so_ne t correct b topo Hs) ss _ f vs H3 Hf) as (g' & E & R).
  { apply (f_equal (@length _)) in Hm. rewrite !map_length in Hm. unfold coord in *. lia. }
  rewrite E. cbn [option_map]. eexists. split; [reflexivity|]. rewrite Hm in R. now apply (drep_with b topo d g' f Hdr).
Qed.

Lemma transfer_inj : transfer_ok t correct b topo inR off ->
  forall a c, inR a -> inR c -> ddenotes t correct b topo (zadd a off) = ddenotes t correct b topo (zadd c off) -> a = c.
Proof using Hs Hd Hoff.
  intros Htr a c Ha Hc. destruct Hs as (Hne & Ho & Hld & Hp & Hle). unfold transfer_ok, ddenotes in *. destruct (bool_cases correct) as [Ec|Ec]; rewrite Ec in *.
  - specialize (Hle eq_refl). pose proof (forall2_length _ _ _ Hle) as Hlt. pose proof (forall2_le_pos _ _ Hp Hle) as Hpt. destruct Htr as [(base & Hb) Htr].
    destruct (Htr a Ha) as (_ & pa & Wa & _), (Htr c Hc) as (_ & pc & Wc & _).
    pose proof (proj2 (denotes_wraps t topo _ pa ltac:(lia) Hpt) Wa) as Da. pose proof (proj2 (denotes_wraps t topo _ pc ltac:(lia) Hpt) Wc) as Dc.
    rewrite Da, Dc. intros E. injection E as ->.
    rewrite <- zadd_zsub in Wa, Wc by lia. apply (wraps_inj base t topo a c pc) with (o := zsub off org); auto; try lia.
    + now apply Hb.
    + now apply Hb.
    + rewrite zsub_length; lia.
  - pose proof (Htr a Ha) as Ia. pose proof (Htr c Hc) as Ic. apply in_box_zsub in Ia; [|lia]. apply in_box_zsub in Ic; [|lia].
    rewrite !denotes_self by (auto; try lia; tauto). intros E. injection E as E. destruct Ha as [La _], Hc as [Lc _].
    apply (displace_inj off org (S d0) a c); auto; lia.
Qed.
End Transfer.
