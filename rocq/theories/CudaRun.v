(** Launches and runs of the CUDASimulator. *)
From Coq Require Import Permutation.
From Verif Require Import Base RegionSpec RegionModel RegionStreaks CoordModel CoordSpec CoordFacts GridModel GridSpec GridFacts SellFacts StencilModel UpdateModel UpdateSpec
  RegionOpsModel AdapterModel CudaModel CudaSpec CudaFacts.

Lemma pad_in t : forall dim c, length t = length dim -> in_grid dim c -> in_grid (pad_dim t dim) (zsub c (pad_offset t)).
Proof.
  induction t as [|w t IH]; intros [|n dim] [|x c] Hl Hc; try discriminate; try (now destruct Hc).
  apply in_grid_cons in Hc. destruct Hc as [Hx Hc]. cbn [pad_dim pad_offset combine map fst snd zsub]. apply in_grid_cons. split; [destruct w; lia|].
  apply IH; [now injection Hl|exact Hc].
Qed.

Lemma pad_back t : forall dim c, length t = length dim -> in_grid dim c -> zadd (zsub c (pad_offset t)) (pad_offset t) = c.
Proof.
  induction t as [|w t IH]; intros [|n dim] [|x c] Hl Hc; try discriminate; try (now destruct Hc).
  apply in_grid_cons in Hc. destruct Hc as [Hx Hc]. cbn [pad_offset map zsub zadd]. f_equal; [lia|]. apply (IH dim); [now injection Hl|exact Hc].
Qed.

Lemma pad_forth t : forall dim q, length t = length dim -> in_grid (pad_dim t dim) q -> zsub (zadd q (pad_offset t)) (pad_offset t) = q.
Proof.
  induction t as [|w t IH]; intros [|n dim] [|x c] Hl Hc; try discriminate; try (now destruct Hc).
  cbn [pad_dim combine map fst snd] in Hc. apply in_grid_cons in Hc. destruct Hc as [Hx Hc].
  cbn [pad_offset map zsub zadd]. f_equal; [lia|]. apply (IH dim); [now injection Hl|exact Hc].
Qed.

Lemma pad_pos t : forall dim, allpos dim -> allpos (pad_dim t dim).
Proof.
  induction t as [|w t IH]; intros [|n dim] Hp; try constructor; inversion Hp; subst; cbn [fst snd]; [destruct w; lia|]. now apply IH.
Qed.

Lemma pad_len t dim : length t = length dim -> length (pad_dim t dim) = length dim.
Proof. intros H. unfold pad_dim. rewrite map_length, combine_length. lia. Qed.

Lemma raw_len d r : (d <= 3)%nat -> length (raw_topology d r) = d.
Proof. intros H. unfold raw_topology. rewrite rev_length, firstn_length. cbn [length]. lia. Qed.

Definition coord_dec := list_eq_dec Z.eq_dec.

Section Launch.
Context {C : Type} (st : stencil) (upd_host upd_cuda : nat -> list C -> C -> C) (separate : bool).
Context (r : raw) (dim : coord) (b : dim3).
Context (Hg : good_launch r dim b) (Hst : st_rad st = 1%nat) (Hd : st_dim st = length dim) (Hu : good_update r dim separate).
Let t := raw_topology (length dim) r.
Let p := params_for r dim b.
Let u := if separate then upd_cuda else upd_host.

Let Hlt : length t = length dim.
Proof using Hg. clear - Hg. pose proof (good_sane _ _ _ Hg) as (Hl & _). apply raw_len. lia. Qed.

Let Hpos : allpos dim.
Proof using Hg. clear - Hg. now pose proof (good_sane _ _ _ Hg) as (_ & Hp & _). Qed.

Lemma holds_ext (f f' : coord -> C) edge l : (forall c, in_grid dim c -> f c = f' c) -> device_holds r dim f edge l -> device_holds r dim f' edge l.
Proof using.
  intros H (Hl & Hh). split; [exact Hl|]. intros q Hq. specialize (Hh q Hq). cbn zeta in *. destruct Hh as (H1 & H2). split; [|exact H2].
  intros Hc. rewrite <- H by exact Hc. auto.
Qed.

Lemma holds_get (f : coord -> C) edge l c : device_holds r dim f edge l -> in_grid dim c -> vec_get l (cell_index r dim c) = Some (f c).
Proof using Hg Hlt.
  intros (Hl & Hh) Hc. pose proof (pad_in t dim c Hlt Hc) as Hq. specialize (Hh _ Hq). cbn zeta in Hh. fold t in Hh.
  rewrite (pad_back t dim c Hlt Hc) in Hh. exact (proj1 Hh Hc).
Qed.

Lemma holds_set (f : coord -> C) edge l c v : device_holds r dim f edge l -> in_grid dim c ->
  exists l', vec_set l (cell_index r dim c) v = Some l' /\ device_holds r dim (fun c' => if coord_dec c' c then v else f c') edge l'.
Proof using Hg Hlt Hpos.
  clear - Hlt Hpos Hg. intros (Hl & Hh) Hc. pose proof (pad_in t dim c Hlt Hc) as Hq. pose proof (pad_pos t dim Hpos) as Hpp.
  pose proof (to_index_bound _ Hpp _ Hq) as Hb. fold t in Hl.
  destruct (vec_set_spec l (cell_index r dim c) v) as (l' & E & Hl' & H); [unfold cell_index; fold t; lia|].
  exists l'. split; [exact E|]. split; [fold t; lia|]. intros q Hq'. cbn zeta. fold t. specialize (Hh q Hq'). cbn zeta in Hh. fold t in Hh.
  rewrite H. unfold cell_index. fold t. destruct (Z.eqb_spec (to_index (zsub c (pad_offset t)) (pad_dim t dim)) (to_index q (pad_dim t dim))) as [Ei|Ei].
  - apply to_index_inj in Ei; try assumption. subst q. rewrite (pad_back t dim c Hlt Hc). destruct (coord_dec c c); [|contradiction].
    split; [reflexivity|]. intros Hn. now destruct Hn.
  - destruct Hh as (H1 & H2). split; [|exact H2]. intros Hi. destruct (coord_dec (zadd q (pad_offset t)) c) as [Ec|]; [|auto].
    exfalso. apply Ei. now rewrite <- Ec, (pad_forth t dim q Hlt Hq').
Qed.

Lemma cell_upd c : in_grid dim c -> act_upd upd_host upd_cuda separate (cell_act r dim p c) = u.
Proof using Hg Hu.
  intros Hc. unfold act_upd, u, cell_act. cbn [act_functor]. unfold good_update in Hu. destruct separate; [|now rewrite andb_false_r].
  rewrite andb_true_r. replace (cell_functor r dim c) with true; [reflexivity|]. symmetry. clear - Hu.
  destruct (Hu eq_refl) as [H|H]; destruct dim as [|n1 [|n2 [|n3 [|? ?]]]]; try discriminate; try reflexivity; destruct c as [|? [|? [|? ?]]]; try reflexivity.
  cbn [cell_functor]. now rewrite H.
Qed.

Lemma acts_spec nano (fo : coord -> C) edge old : device_holds r dim fo edge old -> forall cs (fn : coord -> C) new, NoDup cs -> Forall (in_grid dim) cs -> device_holds r dim fn edge new ->
  exists new', do_acts st upd_host upd_cuda separate p nano old (map (cell_act r dim p) cs) new = Some new' /\
    device_holds r dim (fun c => if in_dec coord_dec c cs then sync t dim st (u nano) edge fo fn c else fn c) edge new'.
Proof using Hg Hst Hd Hu Hlt Hpos.
  intros Ho. induction cs as [|c cs IH]; intros fn new Hnd Hin Hn; [exists new; split; [reflexivity|exact Hn]|].
  inversion Hnd as [|? ? Hc Hnd']; subst. inversion Hin as [|? ? Hi Hin']; subst.
  cbn [map do_acts]. unfold do_act. cbn [cell_act act_index act_adds]. pose proof (hood_reads st r dim b Hg Hst Hd fo edge old c Ho Hi) as Er. fold p t in Er. rewrite Er. clear Er. cbn [obind].
  rewrite (holds_get fn edge new c Hn Hi). cbn [obind]. rewrite (cell_upd c Hi).
  destruct (holds_set fn edge new c (sync t dim st (u nano) edge fo fn c) Hn Hi) as (new1 & E1 & H1). unfold sync in E1 at 1. fold t in E1. fold t. rewrite E1. cbn [obind].
  destruct (IH _ _ Hnd' Hin' H1) as (new2 & E2 & H2). exists new2. split; [exact E2|].
  eapply holds_ext; [|exact H2]. intros c' Hc'. cbv beta. destruct (in_dec coord_dec c' cs) as [H|H], (in_dec coord_dec c' (c :: cs)) as [H'|H'].
  - unfold sync. destruct (coord_dec c' c); [subst; contradiction|reflexivity].
  - exfalso. apply H'. now right.
  - destruct (coord_dec c' c) as [->|Hne]; [reflexivity|]. destruct H' as [->|H']; contradiction.
  - destruct (coord_dec c' c) as [->|Hne]; [|reflexivity]. exfalso. apply H'. now left.
Qed.

Lemma launch_spec nano (fo fn : coord -> C) edge old new order : device_holds r dim fo edge old -> device_holds r dim fn edge new ->
  interleaves (work (length dim) r p) order ->
  exists new', do_acts st upd_host upd_cuda separate p nano old order new = Some new' /\ device_holds r dim (sync t dim st (u nano) edge fo fn) edge new'.
Proof using Hg Hst Hd Hu Hlt Hpos.
  intros Ho Hn Hi. apply interleaves_perm in Hi. unfold p in Hi. rewrite (work_cells r dim b Hg) in Hi. fold p in Hi.
  apply Permutation_sym in Hi. apply Permutation_map_inv in Hi. destruct Hi as (cs & -> & Hp).
  destruct (acts_spec nano fo edge old Ho cs fn new) as (new' & E & H).
  - eapply Permutation_NoDup; [exact Hp|]. now apply all_cells_nodup.
  - apply Forall_forall. intros c Hc. apply (all_cells_in r dim b c Hg). eapply Permutation_in; [|exact Hc]. now apply Permutation_sym.
  - exact Hn.
  - exists new'. split; [exact E|]. eapply holds_ext; [|exact H]. intros c Hc. cbv beta. destruct (in_dec coord_dec c cs) as [|Hno]; [reflexivity|].
    exfalso. apply Hno. eapply Permutation_in; [exact Hp|]. now apply (all_cells_in r dim b c Hg).
Qed.
End Launch.

(** ** The grid on the host *)

Lemma in_box_pad t : forall dim c, length t = length dim -> length c = length dim ->
  in_box (mkBox (pad_offset t) (pad_dim t dim)) c <-> in_grid (pad_dim t dim) (zsub c (pad_offset t)).
Proof.
  unfold in_box. cbn [b_origin b_dim]. induction t as [|w t IH]; intros [|n dim] [|x c] Hl Hc; try discriminate; [reflexivity|].
  cbn [pad_offset pad_dim combine map fst snd zsub inside]. rewrite in_grid_cons. rewrite <- (IH dim c) by (cbn in *; lia). destruct w; intuition lia.
Qed.

Lemma in_bounds_grid : forall dim c, length c = length dim -> box_in_bounds (mkBox (map (fun _ => 0) dim) dim) c = true <-> in_grid dim c.
Proof.
  unfold box_in_bounds. cbn [b_origin b_dim]. induction dim as [|n dim IH]; intros [|x c] Hl; try discriminate; [split; reflexivity|].
  cbn [length cube repeat map zsub out_of_bounds negb andb]. rewrite negb_orb, andb_true_iff, in_grid_cons. rewrite <- (IH c) by (cbn in Hl; lia). fold (cube (length c)).
  rewrite negb_true_iff, orb_false_iff, Z.ltb_ge, Z.leb_gt. intuition lia.
Qed.

Lemma zadd_zsub_id : forall c o : coord, length c = length o -> zadd (zsub c o) o = c.
Proof. induction c as [|x c IH]; intros [|y o] H; try discriminate; [reflexivity|]. cbn [zsub zadd]. f_equal; [lia|]. apply IH. now injection H. Qed.

Section Host.
Context {C : Type} (r : raw) (dim : coord).
Context (Hn : (1 <= length dim <= 3)%nat) (Hpos : allpos dim).
Let t := raw_topology (length dim) r.
Let P := pad_dim t dim.

Let Hlt : length t = length dim.
Proof using Hn. clear - Hn. apply raw_len. lia. Qed.
Let HlP : length t = length P.
Proof using Hn Hlt. clear - Hlt. unfold P. rewrite pad_len; auto. Qed.
Let HpP : allpos P.
Proof using Hpos. clear - Hpos. now apply pad_pos. Qed.

Lemma host_rep (g : dgrid C) : host_grid r dim g ->
  rep P (d_grid g) (fun q => match q with Some q => match vec_get (g_cells (d_grid g)) (to_index q P) with Some v => v | None => g_edge (d_grid g) end | None => g_edge (d_grid g) end).
Proof using Hn Hpos HpP.
  intros (_ & H1 & H2). fold t P in H1, H2. split; [exact H1|]. split; [exact H2|]. split; [reflexivity|]. intros c Hc.
  pose proof (to_index_bound P HpP c Hc) as Hb. clear - Hb H2. unfold vec_get. rewrite (proj2 (Z.ltb_ge _ _)) by lia.
  destruct (nth_error (g_cells (d_grid g)) (Z.to_nat (to_index c P))) eqn:E; [reflexivity|]. apply nth_error_None in E. lia.
Qed.

Lemma host_get (g : dgrid C) F c : d_org g = pad_offset t -> rep P (d_grid g) F -> in_grid dim c -> dg_get t false g c = Some (F (Some (zsub c (pad_offset t)))).
Proof using Hlt HlP HpP.
  intros Eo Hr Hc. unfold dg_get, dg_coord. rewrite Eo. cbn zeta. pose proof (pad_in t dim c Hlt Hc) as Hq. fold P in Hq.
  rewrite (rep_get t P HlP HpP (d_grid g) F _ Hr (in_grid_close P _ HpP Hq)). now rewrite (denotes_self t P _ HlP HpP Hq).
Qed.

Lemma pad_steps (g : dgrid C) F edge : d_org g = pad_offset t -> rep P (d_grid g) F -> F None = edge ->
  forall cs, Forall (fun c => in_grid P (zsub c (pad_offset t)) /\ zadd (zsub c (pad_offset t)) (pad_offset t) = c) cs ->
  exists g' F', pad_grid t cs g = Some g' /\ d_org g' = pad_offset t /\ rep P (d_grid g') F' /\ F' None = edge /\
    forall q, in_grid P q -> F' (Some q) = if in_dec coord_dec (zadd q (pad_offset t)) cs then edge else F (Some q).
Proof using Hlt HlP HpP.
  intros Eo Hr He cs. unfold pad_grid. revert g F Eo Hr He. induction cs as [|c cs IH]; intros g F Eo Hr He Hcs.
  - exists g, F. split; [reflexivity|]. split; [exact Eo|]. split; [exact Hr|]. split; [exact He|]. reflexivity.
  - inversion Hcs as [|? ? (Hq & Hc) Hcs']; subst. cbn [fold_left obind]. unfold dg_set, dg_coord. rewrite Eo. cbn zeta.
    assert (Ee : g_edge (d_grid g) = F None) by apply Hr.
    destruct (rep_set t P HlP HpP (d_grid g) F _ (F None) Hr (in_grid_close P _ HpP Hq)) as (g1 & E1 & R1). rewrite Ee, E1. cbn [option_map].
    rewrite (denotes_self t P _ HlP HpP Hq) in R1.
    destruct (IH (dg_with g g1) (upd F (Some (zsub c (pad_offset t))) (F None)) Eo R1) as (g2 & F2 & E2 & O2 & R2 & N2 & H2); [reflexivity|exact Hcs'|].
    exists g2, F2. split; [exact E2|]. split; [exact O2|]. split; [exact R2|]. split; [exact N2|]. intros q Hqq. rewrite (H2 q Hqq).
    destruct (in_dec coord_dec (zadd q (pad_offset t)) cs) as [H|H], (in_dec coord_dec (zadd q (pad_offset t)) (c :: cs)) as [H'|H'].
    + reflexivity.
    + exfalso. apply H'. now right.
    + destruct H' as [H'|H']; [|contradiction]. unfold upd. destruct (place_dec _ _) as [|Hne]; [reflexivity|]. exfalso. apply Hne. f_equal. rewrite H'. now apply pad_forth with dim.
    + unfold upd. destruct (place_dec (Some (zsub c (pad_offset t))) (Some q)) as [Ex|]; [|reflexivity]. exfalso. apply H'. left.
      assert (Eq : zsub c (pad_offset t) = q) by now injection Ex. now rewrite <- Eq, Hc.
Qed.

Lemma pad_spec (g : dgrid C) (init : coord -> C) edge : host_grid r dim g -> shows t dim g init edge ->
  exists cs g', padding r dim = Some cs /\ pad_grid t cs g = Some g' /\ host_grid r dim g' /\ g_edge (d_grid g') = edge /\
    device_holds r dim init edge (g_cells (d_grid g')).
Proof using Hn Hpos Hlt HlP HpP.
  intros Hh (He & Hs). pose proof (host_rep g Hh) as Hr. pose proof Hh as (Eo & _). fold t in Eo.
  match type of Hr with rep _ _ ?X => set (F := X) in Hr end.
  assert (Em : exists m, length dim = S m) by (exists (length dim - 1)%nat; lia). destruct Em as (m & Em).
  assert (Hreg : box_regular (S m) (mkBox (pad_offset t) P)).
  { split; [|split]; cbn [b_origin b_dim]; [unfold pad_offset; rewrite map_length; lia|unfold P; rewrite pad_len; lia|].
    destruct P as [|a l]; [cbn in HlP; lia|]. inversion HpP; subst. split; [lia|assumption]. }
  unfold padding. fold t. fold P.
  rewrite (box_coords_spec _ m (Z.to_nat (prod P)) Hreg) by (cbn [b_dim]; lia). cbn [option_map].
  set (cs := filter _ _). 
  assert (Hcs : forall c, In c cs <-> in_grid P (zsub c (pad_offset t)) /\ length c = length dim /\ ~ in_grid dim c).
  { intros c. unfold cs. rewrite filter_In, (box_list_in _ m Hreg).
    assert (Hlc : in_box (mkBox (pad_offset t) P) c -> length c = length dim).
    { unfold in_box. cbn [b_origin b_dim]. assert (Hg : forall a (b c : coord), inside a b c -> length c = length b) by (clear; induction a; intros [|? ?] [|? ?]; cbn; try tauto; intros [_ H]; f_equal; auto).
      intros H. apply Hg in H. unfold P in H. rewrite pad_len in H; lia. }
    split.
    - intros [H1 H2]. specialize (Hlc H1). split; [now apply in_box_pad|]. split; [exact Hlc|]. intros Hc.
      apply (in_bounds_grid dim c Hlc) in Hc. rewrite Hc in H2. discriminate.
    - intros (H1 & H2 & H3). split; [now apply in_box_pad|]. apply negb_true_iff, not_true_is_false. intros Hc. apply H3. now apply in_bounds_grid. }
  assert (Hback : forall c, length c = length dim -> zadd (zsub c (pad_offset t)) (pad_offset t) = c).
  { intros c Hc. apply zadd_zsub_id. unfold pad_offset. rewrite map_length. lia. }
  destruct (pad_steps g F edge Eo Hr He cs) as (g' & F' & E & O' & R' & N' & H').
  { apply Forall_forall. intros c Hc. apply Hcs in Hc. destruct Hc as (H1 & H2 & _). split; [exact H1|]. now apply Hback. }
  exists cs, g'. split; [reflexivity|]. split; [exact E|]. destruct R' as (R1 & R2 & R3 & R4). split; [|split].
  - split; [|split]; fold t P; assumption.
  - congruence.
  - split; [fold t P; exact R2|]. intros q Hq. fold t P in Hq |- *. cbn zeta. rewrite (R4 q Hq), (H' q Hq).
    assert (Hlq : length (zadd q (pad_offset t)) = length dim).
    { assert (Hg : forall a b : coord, length a = length b -> length (zadd a b) = length a) by (clear; induction a; intros [|? ?] H; try discriminate; cbn; [reflexivity|f_equal; auto]).
      pose proof (in_grid_length P q Hq). unfold pad_offset. rewrite Hg; [unfold P in *; rewrite pad_len in *; lia|rewrite map_length; lia]. }
    pose proof (pad_forth t dim q ltac:(congruence) Hq) as Hf.
    destruct (in_dec coord_dec (zadd q (pad_offset t)) cs) as [Hi|Hi]; split; intros Hc.
    + apply Hcs in Hi. tauto.
    + reflexivity.
    + f_equal. specialize (Hs _ Hc). rewrite (host_get g F _ Eo Hr Hc), Hf in Hs. now injection Hs.
    + exfalso. apply Hi. apply Hcs. rewrite Hf. auto.
Qed.

Lemma holds_shows (g : dgrid C) (f : coord -> C) edge : host_grid r dim g -> g_edge (d_grid g) = edge -> device_holds r dim f edge (g_cells (d_grid g)) -> shows t dim g f edge.
Proof using Hn Hpos Hlt HlP HpP.
  intros Hh He (Hl & Hd). split; [exact He|]. intros c Hc. pose proof (host_rep g Hh) as Hr. pose proof Hh as (Eo & _). fold t in Eo.
  rewrite (host_get g _ c Eo Hr Hc). cbv beta. pose proof (pad_in t dim c Hlt Hc) as Hq. destruct (Hd _ Hq) as (H1 & _). fold t P in H1.
  rewrite (pad_back t dim c Hlt Hc) in H1. now rewrite (H1 Hc).
Qed.
End Host.

(** ** Runs *)

Section Runs.
Context {C : Type} (st : stencil) (upd_host upd_cuda : nat -> list C -> C -> C) (separate : bool).
Context (r : raw) (dim : coord) (b : dim3).
Context (Hg : good_launch r dim b) (Hst : st_rad st = 1%nat) (Hd : st_dim st = length dim) (Hu : good_update r dim separate).
Context (nanos start last : nat) (writers : list nat) (Hnan : (1 <= nanos)%nat).
Context (edge : C) (init : coord -> C) (order : nat -> list act).
Let t := raw_topology (length dim) r.
Let p := params_for r dim b.
Let u := if separate then upd_cuda else upd_host.
Context (Hord : forall k, interleaves (work (length dim) r p) (order k)).
Let gens := generations t dim st u nanos edge init.
Context (steerers : list (steerer (C := C))) (Hsteer : Forall (unobtrusive r dim) steerers).

Definition good_state (k : nat) (s : sim (C := C)) : Prop :=
  device_holds r dim (fst (gens k)) edge (s_old s) /\ device_holds r dim (snd (gens k)) edge (s_new s) /\
  host_grid r dim (s_host s) /\ g_edge (d_grid (s_host s)) = edge /\
  (s_current s = true -> g_cells (d_grid (s_host s)) = s_old s).

(* without the last clause of [good_state] *)
Definition fair_state (k : nat) (s : sim (C := C)) : Prop :=
  device_holds r dim (fst (gens k)) edge (s_old s) /\ device_holds r dim (snd (gens k)) edge (s_new s) /\
  host_grid r dim (s_host s) /\ g_edge (d_grid (s_host s)) = edge.

Lemma good_fair k s : good_state k s -> fair_state k s.
Proof using. intros (H1 & H2 & H3 & H4 & _). split; auto. Qed.

Lemma nano_good k i s : fair_state k s -> Nat.modulo k nanos = i ->
  exists s', nano_step st upd_host upd_cuda separate false p i (order k) s = Some s' /\ good_state (S k) s' /\ s_step s' = s_step s.
Proof using Hg Hst Hd Hu Hord.
  intros (H1 & H2 & H3 & H4) Hi. unfold nano_step.
  destruct (launch_spec st upd_host upd_cuda separate r dim b Hg Hst Hd Hu i _ _ edge _ _ (order k) H1 H2 (Hord k)) as (new & E & Hnew).
  fold p in E. rewrite E. cbn [obind]. eexists. split; [reflexivity|]. split; [|reflexivity].
  assert (Eg : gens (S k) = (sync t dim st (u i) edge (fst (gens k)) (snd (gens k)), fst (gens k))).
  { unfold gens. cbn [generations]. rewrite Hi. now destruct (generations t dim st u nanos edge init k). }
  unfold good_state. rewrite Eg. cbn [fst snd s_old s_new s_host s_current]. split; [exact Hnew|]. split; [exact H1|]. split; [exact H3|]. split; [exact H4|discriminate].
Qed.

Lemma nano_loop_good n : forall i k s, fair_state k s -> Nat.modulo k nanos = Nat.modulo i nanos -> (i + n = nanos)%nat ->
  exists s', nano_loop st upd_host upd_cuda separate false p order k n i s = Some s' /\ ((0 < n)%nat -> good_state (k + n) s') /\ s_step s' = s_step s.
Proof using Hg Hst Hd Hu Hord Hnan.
  induction n as [|n IH]; intros i k s Hs Hk Hin.
  - exists s. split; [reflexivity|]. split; [lia|reflexivity].
  - cbn [nano_loop]. rewrite (Nat.mod_small i nanos) in Hk by lia.
    destruct (nano_good k i s Hs Hk) as (s1 & E1 & G1 & T1). rewrite E1. cbn [obind].
    destruct (IH (S i) (S k) s1 (good_fair _ _ G1)) as (s2 & E2 & G2 & T2).
    + rewrite <- (Nat.add_1_r k), <- (Nat.add_1_r i), <- (Nat.add_mod_idemp_l k), Hk by lia. reflexivity.
    + lia.
    + exists s2. replace (k + S n)%nat with (S k + n)%nat by lia. split; [exact E2|]. split; [|congruence]. intros _.
      destruct n as [|n]; [|apply G2; lia]. cbn [nano_loop] in E2. assert (s1 = s2) by congruence. subst s2. rewrite Nat.add_0_r. exact G1.
Qed.

Lemma get_grid_good k s : good_state k s -> good_state k (get_grid s) /\ s_step (get_grid s) = s_step s /\ shows t dim (s_host (get_grid s)) (fst (gens k)) edge.
Proof using Hg.
  intros Hs. pose proof (good_sane _ _ _ Hg) as (Hl & Hp & _).
  assert (H : good_state k (get_grid s) /\ s_step (get_grid s) = s_step s /\ g_cells (d_grid (s_host (get_grid s))) = s_old (get_grid s)).
  { unfold get_grid. destruct (s_current s) eqn:E.
    - split; [exact Hs|]. split; [reflexivity|]. apply Hs. exact E.
    - split; [|split; reflexivity]. destruct Hs as (H1 & H2 & (H3 & H3' & H3'') & H4 & H5). split; [exact H1|]. split; [exact H2|].
      split; [|split; [exact H4|reflexivity]]. split; [exact H3|]. split; [exact H3'|]. cbn [s_host dg_with d_grid g_cells]. apply H1. }
  destruct H as (G & T & E). split; [exact G|]. split; [exact T|]. destruct G as (H1 & _ & H3 & H4 & _).
  apply holds_shows; auto. now rewrite E.
Qed.

Lemma write_good ws : forall k s cs, good_state k s ->
  let e := if Nat.eqb (s_step s) last then IoAllDone else IoStep in
  let '(s', cs') := fold_left (fun a w => if Nat.eqb (Nat.modulo (s_step (fst a)) (snd w)) 0 || Nat.eqb (s_step (fst a)) last
                        then let s' := get_grid (fst a) in (s', snd a ++ [mkCall (fst w) (s_step s') e (s_host s')])
                        else a) ws (s, cs) in
  good_state k s' /\ s_step s' = s_step s /\
  exists new, cs' = cs ++ new /\
    map (fun c => (c_writer c, c_step c, c_event c)) new =
      map (fun w => (fst w, s_step s, e)) (filter (fun w : nat * nat => Nat.eqb (Nat.modulo (s_step s) (snd w)) 0 || Nat.eqb (s_step s) last) ws) /\
    Forall (fun c => c_step c = s_step s /\ shows t dim (c_grid c) (fst (gens k)) edge) new.
Proof using Hg.
  induction ws as [|w ws IH]; intros k s cs Hs e.
  - cbn. split; [exact Hs|]. split; [reflexivity|]. exists []. rewrite app_nil_r. auto.
  - cbn [fold_left fst snd filter]. destruct (Nat.eqb (Nat.modulo (s_step s) (snd w)) 0 || Nat.eqb (s_step s) last).
    + destruct (get_grid_good k s Hs) as (G & T & Hsh). cbn zeta.
      specialize (IH k (get_grid s) (cs ++ [mkCall (fst w) (s_step (get_grid s)) e (s_host (get_grid s))]) G). cbn zeta in IH. rewrite T in IH. fold e in IH.
      rewrite T. match goal with |- context [fold_left ?f ws ?x] => destruct (fold_left f ws x) as [s' cs'] end.
      destruct IH as (G' & T' & new & E & Em & Hf). split; [exact G'|]. split; [exact T'|].
      exists (mkCall (fst w) (s_step s) e (s_host (get_grid s)) :: new). split; [rewrite E, <- app_assoc; reflexivity|].
      split; [cbn [map c_writer c_step c_event fst]; now f_equal|]. constructor; [split; [reflexivity|exact Hsh]|exact Hf].
    + specialize (IH k s cs Hs). cbn zeta in IH. fold e in IH. exact IH.
Qed.

Definition step_calls (s : nat) : list (nat * nat * ioevent) :=
  map (fun w => (fst w, s, if Nat.eqb s last then IoAllDone else IoStep))
    (filter (fun w => Nat.eqb (Nat.modulo s (snd w)) 0 || Nat.eqb s last) (combine (seq 0 (length writers)) writers)).

Lemma steer_good k s : good_state k s -> exists s', steer steerers s = (s', false) /\ fair_state k s' /\ s_step s' = s_step s.
Proof using Hsteer.
  intros Hs. assert (Hf : fair_state k s) by (destruct Hs as (H1 & H2 & H3 & H4 & _); split; auto). clear Hs. unfold steer. revert s Hf.
  pose proof Hsteer as Hs. clear Hsteer. induction Hs as [|x xs Hx _ IH]; intros s Hf; [exists s; auto|]. cbn [fold_left fst snd].
  destruct (Nat.eqb (Nat.modulo (s_step s) (t_period x)) 0); [|apply IH; exact Hf].
  destruct Hf as (H1 & H2 & H3 & H4). specialize (Hx (s_step s) (s_host s) H3). destruct (t_act x (s_step s) (s_host s)) as [g e].
  destruct Hx as (Hg' & He & ->). cbn [orb].
  destruct (IH (mkSim g (s_old s) (s_new s) (s_current s) (s_step s))) as (s' & E & F & T); [split; [exact H1|]; split; [exact H2|]; split; [exact Hg'|cbn; congruence]|].
  exists s'. split; [exact E|]. split; [exact F|exact T].
Qed.

Lemma loop_good fuel : forall k s, good_state k s -> (s_step s + fuel = last)%nat -> (start <= s_step s)%nat -> k = ((s_step s - start) * nanos)%nat ->
  exists s' calls, sim_loop st upd_host upd_cuda separate false nanos last steerers writers p order fuel k false s = Some (s', calls) /\
    good_state ((last - start) * nanos) s' /\ s_step s' = last /\
    map (fun c => (c_writer c, c_step c, c_event c)) calls = flat_map step_calls (seq (S (s_step s)) fuel) /\
    Forall (fun c => shows t dim (c_grid c) (fst (gens ((c_step c - start) * nanos))) edge) calls.
Proof using Hg Hst Hd Hu Hord Hnan Hsteer.
  induction fuel as [|fuel IH]; intros k s Hs Hf Hst' Hk.
  - cbn [sim_loop]. rewrite (proj2 (Nat.ltb_ge _ _)) by lia. exists s, []. replace last with (s_step s) by lia. rewrite <- Hk. auto.
  - cbn [sim_loop]. rewrite (proj2 (Nat.ltb_lt _ _)) by lia. unfold sim_step. destruct (steer_good k s Hs) as (s0 & E0 & F0 & T0). rewrite E0.
    destruct (nano_loop_good nanos 0 k s0 F0) as (s1 & E1 & G1 & T1); [rewrite Hk, Nat.mod_mul, Nat.mod_0_l by lia; reflexivity|lia|].
    rewrite E1. cbn [obind]. unfold write_step. specialize (G1 Hnan). rewrite T0 in T1.
    set (s2 := mkSim (s_host s1) (s_old s1) (s_new s1) (s_current s1) (S (s_step s1))).
    assert (G2 : good_state (k + nanos) s2) by exact G1.
    pose proof (write_good (combine (seq 0 (length writers)) writers) (k + nanos) s2 [] G2) as Hw. cbn zeta in Hw.
    match goal with |- context [fold_left ?f ?w ?x] => destruct (fold_left f w x) as [s3 cs3] end.
    destruct Hw as (G3 & T3 & new & -> & Em & Hnew). cbn [app obind orb]. cbn [s_step s2] in T3, Em, Hnew.
    rewrite T1 in T3, Em, Hnew.
    destruct (IH (k + nanos)%nat s3 G3) as (s4 & cs4 & E4 & G4 & T4 & M4 & F4); [lia|lia|rewrite Hk, T3; replace (S (s_step s) - start)%nat with (S (s_step s - start)) by lia; lia|].
    rewrite E4. cbn [option_map fst snd]. exists s4, (new ++ cs4). split; [reflexivity|]. split; [exact G4|]. split; [exact T4|]. split.
    + rewrite map_app, M4, T3. cbn [seq flat_map]. f_equal. exact Em.
    + apply Forall_app. split; [|exact F4]. eapply Forall_impl; [|exact Hnew]. intros c (Ec & Hc). rewrite Ec.
      replace ((S (s_step s) - start) * nanos)%nat with (k + nanos)%nat by (rewrite Hk; replace (S (s_step s) - start)%nat with (S (s_step s - start)) by lia; lia). exact Hc.
Qed.

Lemma run_good s0 : (start <= last)%nat -> host_grid r dim (s_host s0) -> shows t dim (s_host s0) init edge ->
  exists s' calls, sim_run st upd_host upd_cuda separate false nanos start last steerers writers p r dim order (last - start) s0 = Some (s', calls) /\
    good_state ((last - start) * nanos) s' /\ s_step s' = last /\
    map (fun c => (c_writer c, c_step c, c_event c)) calls = expected_calls start last writers /\
    Forall (fun c => shows t dim (c_grid c) (fst (gens ((c_step c - start) * nanos))) edge) calls.
Proof using Hg Hst Hd Hu Hord Hnan Hsteer.
  intros Hsl Hh Hs. pose proof (good_sane _ _ _ Hg) as (Hl & Hp & _).
  destruct (pad_spec r dim Hl Hp (s_host s0) init edge Hh Hs) as (cs & g & Ep & Eg & Hh' & He & Hdh). fold t in Eg.
  unfold sim_run. rewrite Ep. cbn [obind]. fold t. rewrite Eg. cbn [obind]. cbn zeta.
  set (s1 := mkSim g (g_cells (d_grid g)) (g_cells (d_grid g)) (s_current s0) start).
  assert (G1 : good_state 0 s1) by (split; [exact Hdh|]; split; [exact Hdh|]; split; [exact Hh'|]; split; [exact He|reflexivity]).
  destruct (loop_good (last - start) 0 s1 G1) as (s2 & calls & E & G2 & T2 & M & F); [cbn; lia|cbn; lia|cbn; lia|].
  rewrite E. cbn [option_map fst snd]. eexists _, _. split; [reflexivity|]. split; [exact G2|]. split; [exact T2|]. split.
  - rewrite map_app, M. unfold expected_calls. f_equal. rewrite map_map. reflexivity.
  - apply Forall_app. split; [|exact F]. apply Forall_forall. intros c Hc. apply in_map_iff in Hc. destruct Hc as (w & <- & _).
    cbn [c_grid c_step s1 s_step]. rewrite Nat.sub_diag. cbn [Nat.mul]. apply holds_shows; auto.
Qed.
End Runs.
