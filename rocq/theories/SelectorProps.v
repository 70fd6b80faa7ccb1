(** Selectors: accessing a single member of the cells of a grid. *)
From Verif Require Import Base ListFacts RegionSpec RegionModel RegionRep RegionIterModel RegionStreaks RegionOpsModel RegionOps HaloSpec CoordModel CoordSpec CoordFacts TopologyFacts PatchModel ConfigFacts GridModel GridSpec GridFacts DisplacedFacts GridReach StencilModel StencilSpec UpdateModel UpdateSpec SoAModel SoASpec SoAFacts SoARep SoAReach SelectorModel SelectorSpec BytesFacts FilterFacts StreakFilterFacts LayoutFacts MemberRows SelectorFacts SelectorReach.
From Coq Require Import Lia FinFun.

Section Claims.
Context {B : Type}.
Notation bytes := (list B).
Notation len l := (Z.of_nat (length l)).
Notation sized csize := (Forall (fun c : bytes => length c = Z.to_nat csize)).

(** ** C127 *)

Theorem C127_accessor_stores_and_loads_cells csize reg mem (cells : list bytes) i : reg_ok csize reg -> soa_holds csize reg mem cells -> 0 <= i < len cells ->
  (forall cell, length cell = Z.to_nat csize ->
     exists mem' cells', accessor_put (len cells) reg i cell mem = Some mem' /\ vec_set cells i cell = Some cells' /\ soa_holds csize reg mem' cells') /\
  (forall obj, length obj = Z.to_nat csize ->
     exists cell obj', vec_get cells i = Some cell /\ accessor_get (len cells) reg i mem obj = Some obj' /\ length obj' = length obj /\
       (forall m, In m reg -> get_memb obj' m = get_memb cell m) /\
       (forall q, (forall m, In m reg -> ~ (m_pos m <= q < m_pos m + memb_len m)) -> vec_get obj' q = vec_get obj q)).
Proof.
  intros Hreg Hh Hi. split.
  - intros cell Lc. now apply put_holds.
  - intros obj Lo. destruct Hh as (H1 & H2 & H3). destruct (get_spec csize reg Hreg (len cells) i mem obj Hi Lo H1) as (obj' & E & L & F & G).
    pose proof Hi as Hi'. apply vec_get_in in Hi'. destruct Hi' as (cell & Hc). exists cell, obj'. split; [exact Hc|]. split; [exact E|]. split; [exact L|]. split; [|exact F].
    intros m Hm. pose proof (proj1 Hreg) as Hin. rewrite Forall_forall in Hin. apply (memb_elements csize); auto.
    + lia.
    + now apply (get_length csize cells i).
    + intros j Hj. apply In_nth_error in Hm. destruct Hm as (k & Hk). rewrite (G k m j Hk Hj). now apply H3.
Qed.

(** Any memory of the right size holds cells. *)
Theorem C127_memory_holds_cells csize reg (mem : bytes) n (x : B) : reg_ok csize reg -> 0 <= n -> len mem = n * cell_bytes reg ->
  exists cells : list bytes, len cells = n /\ soa_holds csize reg mem cells.
Proof.
  intros Hreg Hn Lm. set (obj := repeat x (Z.to_nat csize)). assert (Lo : length obj = Z.to_nat csize) by apply repeat_length.
  assert (H : forall k, (k <= Z.to_nat n)%nat -> exists cells, length cells = k /\ forall i, (i < k)%nat -> exists c, nth_error cells i = Some c /\ accessor_get n reg (Z.of_nat i) mem obj = Some c).
  { induction k as [|k IH]; intros Hk; [exists []; split; [reflexivity|lia]|]. destruct IH as (cells & L & H); [lia|].
    destruct (get_spec csize reg Hreg n (Z.of_nat k) mem obj ltac:(lia) Lo Lm) as (c & E & _). exists (cells ++ [c]). split; [rewrite app_length; cbn; lia|].
    intros i Hi. destruct (Nat.eq_dec i k) as [->|Hne].
    - exists c. split; [rewrite nth_error_app2 by lia; now rewrite L, Nat.sub_diag|exact E].
    - destruct (H i ltac:(lia)) as (c' & E1 & E2). exists c'. split; [rewrite nth_error_app1 by lia; exact E1|exact E2]. }
  destruct (H (Z.to_nat n) (le_n _)) as (cells & L & G). clear H. exists cells. split; [lia|]. assert (El : len cells = n) by lia.
  assert (Hg : forall i c, vec_get cells i = Some c -> 0 <= i < n /\ accessor_get n reg i mem obj = Some c).
  { intros i c Hi. assert (Hr : 0 <= i < len cells) by (apply vec_get_in; eauto). split; [lia|]. destruct (G (Z.to_nat i) ltac:(lia)) as (c' & E1 & E2).
    rewrite <- (get_nth cells), Z2Nat.id in E1 by lia. rewrite Z2Nat.id in E2 by lia. congruence. }
  unfold soa_holds. rewrite El. split; [exact Lm|]. split.
  - apply forall_get. intros i c Hi. destruct (Hg i c Hi) as [Hr E]. destruct (get_spec csize reg Hreg n i mem obj Hr Lo Lm) as (c' & E' & L' & _). assert (c' = c) as -> by congruence. lia.
  - intros i c k m j Hi Hk Hj. destruct (Hg i c Hi) as [Hr E]. destruct (get_spec csize reg Hreg n i mem obj Hr Lo Lm) as (c' & E' & _ & _ & G'). assert (c' = c) as -> by congruence. symmetry. now apply G'.
Qed.

(** ** Grid *)

Section OnGrid.
Context (t : topology) (dim : coord) (Hne : dim <> []) (Hl : length t = length dim) (Hp : Forall (fun n => 0 < n) dim).
Context (csize : Z) (reg : option (list memb)) (m : memb) (sel : selector B) (Hsel : sel_made reg m sel) (Hm : memb_in csize m).
Context (n : nat) (r : indices) (Hn : length t = S n) (Hr : rvalid n r) (Hin : forall c, inr n r c -> in_grid dim c).
Notation fl := (sl_filter sel).

Lemma grid_streaks : exists ss cs, reg_streaks r = Some ss /\ region_coords r = Some cs /\ cs = flat_map streak_coords ss /\ NoDup cs /\ Forall (inside_streak dim) ss /\ forall c, In c cs -> in_grid dim c.
Proof using Hn Hr Hin.
  destruct (region_coords_nodup n r Hr) as (cs & Ec & Hc & Hnd). destruct (streaks_valid n r Hr) as (l & Hok & _ & El & _). exists l, cs. split; [exact El|]. split; [exact Ec|].
  unfold region_coords in Ec. rewrite El in Ec. cbn [option_map] in Ec. assert (cs = flat_map streak_coords l) as E by congruence. split; [exact E|]. split; [exact Hnd|].
  assert (Hcs : forall c, In c cs -> in_grid dim c) by (intros c H; apply Hin, Hc, H). split; [|exact Hcs].
  apply Forall_forall. intros s Hs. destruct Hok as [_ Hf]. rewrite Forall_forall in Hf. destruct (Hf s Hs) as [_ Hx]. split; [exact Hx|]. apply Forall_forall. intros c H. apply Hcs. rewrite E. apply in_flat_map. eauto.
Qed.

Lemma get_in (g : vgrid bytes) f c : rep dim g f -> in_grid dim c -> grid_get t g c = Some (f (Some c)).
Proof using Hl Hp. intros R Hc. rewrite (rep_get t dim Hl Hp g f c R (in_grid_close dim c Hp Hc)). now rewrite denotes_self. Qed.

(** C128 *)
Theorem C128_grid_save_member (g : vgrid bytes) tgt : grid_reach t dim g -> sized csize (g_cells g) ->
  exists cs, region_coords r = Some cs /\ (len cs * ext_size fl <= len tgt ->
    exists out, grid_save_member t csize sel g r tgt = Some (splice tgt 0 out) /\ saved (grid_get t g) m fl cs out).
Proof using Hne Hl Hp Hsel Hm Hn Hr Hin.
  intros Hg Hc. destruct (grid_reach_rep t dim g Hne Hl Hp Hg) as (f & Rf). destruct grid_streaks as (ss & cs & E1 & E2 & E3 & Hnd & Hss & Hcs). exists cs. split; [exact E2|]. intros Hb.
  rewrite E3 in Hb. destruct (save_observed t dim Hl Hp Hne csize reg m sel Hsel Hm g f ss tgt Rf Hc Hss Hb) as (out & E & Eo). exists out. unfold grid_save_member. rewrite E1. cbn [obind]. split; [exact E|].
  exists (map (fun c => f (Some c)) cs). split.
  - clear - Hcs Rf Hl Hp. induction cs as [|c cs IH]; constructor; [apply (get_in g f c Rf), Hcs; now left|apply IH; intros; apply Hcs; now right].
  - rewrite Eo, E3, flat_map_map. reflexivity.
Qed.

(** C129 *)
Theorem C129_grid_load_member (g : vgrid bytes) src : grid_reach t dim g -> sized csize (g_cells g) ->
  exists cs, region_coords r = Some cs /\ (len cs * ext_size fl <= len src ->
    exists g', grid_load_member t csize sel g r src = Some g' /\ grid_reach t dim g' /\ sized csize (g_cells g') /\ g_edge g' = g_edge g /\
      assigns whole (grid_get t g) (grid_get t g') (in_grid dim) m fl cs src).
Proof using Hne Hl Hp Hsel Hm Hn Hr Hin.
  intros Hg Hc. destruct (grid_reach_rep t dim g Hne Hl Hp Hg) as (f & Rf). destruct grid_streaks as (ss & cs & E1 & E2 & E3 & Hnd & Hss & Hcs). exists cs. split; [exact E2|]. intros Hb. subst cs.
  destruct (aos_load_spec t dim Hl Hp Hne csize reg m sel Hsel Hm (grid_reach t dim) (inside_streak dim)) with (src := src) (ss := ss) (g := g) (f := f) (sp := 0) as (g' & L1 & L2 & L3 & L4); auto; try lia.
  { intros g0 s vs g1 R0 [Hx Hi] Lv E. apply (greach_op t dim g0 (GSetStreak s vs) g1 R0); [|exact E]. split; [lia|]. split; [|exact Lv]. apply Forall_forall. intros c Hcc. rewrite Forall_forall in Hi. apply in_grid_close; auto. }
  exists g'. unfold grid_load_member. rewrite E1. cbn [obind]. split; [exact L1|]. split; [exact L2|]. split; [exact L3|]. split.
  { destruct Rf as (_ & _ & -> & _), L4 as (_ & _ & -> & _). symmetry. rewrite written_others; [reflexivity|]. intros H. apply in_map_iff in H. destruct H as (c & H & _). discriminate. }
  apply (news_assigns whole (aos_upd fl (m_pos m)) fl m src f (fun c => Some c)).
  - apply Injective_map_NoDup; [intros ? ? E; congruence|exact Hnd].
  - intros c Hcc. assert (in_grid dim c) by (destruct Hcc; auto). split; [now apply get_in|]. now apply get_in.
  - intros c _ Hno H. apply Hno. apply in_map_iff in H. destruct H as (c' & E & H). congruence.
  - intros i c Hi. now apply (load_assigned t dim Hl Hp Hne csize reg m sel Hsel Hm g f ss src i c).
Qed.

(** C130 *)
Theorem C130_grid_load_save_member (g : vgrid bytes) src tgt : grid_reach t dim g -> sized csize (g_cells g) -> faithful fl ->
  exists cs, region_coords r = Some cs /\ (len cs * ext_size fl <= len src -> len cs * ext_size fl <= len tgt ->
    exists g', grid_load_member t csize sel g r src = Some g' /\
      grid_save_member t csize sel g' r tgt = Some (splice tgt 0 (slice src 0 (len cs * ext_size fl)))).
Proof using Hne Hl Hp Hsel Hm Hn Hr Hin.
  intros Hg Hc Hf. destruct (C129_grid_load_member g src Hg Hc) as (cs & E & HL). exists cs. split; [exact E|]. intros Hs Ht. destruct (HL Hs) as (g' & L1 & L2 & L3 & _ & L5).
  exists g'. split; [exact L1|]. destruct (C128_grid_save_member g' tgt L2 L3) as (cs' & E' & HS). assert (cs' = cs) as -> by congruence. destruct (HS Ht) as (out & S1 & S2). rewrite S1. do 2 f_equal.
  destruct (sel_made_spec reg m sel Hsel) as (_ & _ & _ & S4 & _). apply (assigns_saved whole (grid_get t g) (grid_get t g') (in_grid dim) m fl csize cs src out); auto.
  intros c v Hcc Hv. destruct (grid_reach_rep t dim g Hne Hl Hp Hg) as (f & Rf). destruct grid_streaks as (_ & cs2 & _ & E2 & _ & _ & _ & Hcs). assert (cs2 = cs) as -> by congruence.
  rewrite (get_in g f c Rf (Hcs c Hcc)) in Hv. assert (v = f (Some c)) as -> by congruence. apply (cell_length dim csize g f); auto.
Qed.
End OnGrid.

(** ** DisplacedGrid *)

Section OnDisplaced.
Context (t : topology) (correct : bool) (b : box) (topo : coord) (Hs : setup_ok t correct b topo).
Context (csize : Z) (reg : option (list memb)) (m : memb) (sel : selector B) (Hsel : sel_made reg m sel) (Hm : memb_in csize m).
Context (n : nat) (r : indices) (Hn : length t = S n) (Hr : rvalid n r) (Hin : forall c, inr n r c -> in_box b c).
Notation fl := (sl_filter sel).
Notation dim := (b_dim b).
Notation org := (b_origin b).

Lemma dbox c : in_box b c -> reachable_coord t correct b topo c /\ ddenotes t correct b topo c = Some (zsub c org) /\ in_grid dim (zsub c org).
Proof using Hs.
  intros Hc. clear - Hs Hc. destruct Hs as (Hne & Ho & Hld & Hp & Hle). unfold in_box in Hc. apply in_box_zsub in Hc; [|lia]. destruct Hc as [Hlc Hc]. unfold reachable_coord, ddenotes.
  destruct (bool_cases correct) as [Ec|Ec]; rewrite Ec in *.
  - specialize (Hle eq_refl). pose proof (forall2_length _ _ _ Hle) as Hlt. pose proof (in_grid_le _ _ Hle _ Hc) as Hc'. pose proof (forall2_le_pos _ _ Hp Hle) as Hpt.
    assert (E : denotes t topo (zsub c org) = Some (zsub c org)) by (apply denotes_self; auto; lia). split; [|auto].
    split; [lia|]. split; [now apply in_grid_close|]. intros c' E'. rewrite E in E'. assert (c' = zsub c org) as -> by congruence. exact Hc.
  - split; [|split; [apply denotes_self; auto; lia|exact Hc]]. split; [lia|]. now apply in_grid_close.
Qed.

Lemma displaced_streaks : exists l cs, norm_streaks_org t correct topo r org = Some (map (rel_streak org) l) /\ region_coords r = Some cs /\
  Forall (fun s => length (s_pre s) = n /\ boxed_streak b s) l /\ flat_map streak_coords (map (rel_streak org) l) = map (fun c => zsub c org) cs /\
  NoDup (map (fun c => zsub c org) cs) /\ Forall (inside_streak dim) (map (rel_streak org) l) /\ (forall c, In c cs -> in_box b c) /\
  (forall c, in_box b c -> ~ In c cs -> ~ In (zsub c org) (map (fun c => zsub c org) cs)).
Proof using Hs Hn Hr Hin.
  pose proof Hs as (Hne & Ho & Hld & Hp & Hle). destruct (region_coords_nodup n r Hr) as (cs & Ec & Hc & Hnd). destruct (member_streaks t correct b topo Hs n Hn r Hr Hin) as (l & El & Hl & En).
  exists l, cs. split; [exact En|]. split; [exact Ec|]. split; [exact Hl|]. unfold region_coords in Ec. rewrite El in Ec. cbn [option_map] in Ec. assert (cs = flat_map streak_coords l) as E by congruence. clear Ec.
  assert (Er : forall s, In s l -> streak_coords (rel_streak org s) = map (fun c => zsub c org) (streak_coords s)).
  { intros s Hsl. rewrite Forall_forall in Hl. destruct (Hl s Hsl) as [H1 _]. apply rel_coords. lia. }
  split. { rewrite flat_map_map, E, map_flat_map. apply flat_map_ext_in. exact Er. }
  assert (Hcs : forall c, In c cs -> in_box b c) by (intros c H; apply Hin, Hc, H).
  assert (Hinj : forall c c', in_box b c -> in_box b c' -> zsub c org = zsub c' org -> c = c').
  { intros c c' H H' E'. apply in_box_zsub in H, H'; try lia. apply (sub_inj org c c'); auto; lia. }
  split. { clear - Hnd Hcs Hinj. induction cs as [|c cs IH]; cbn [map]; [constructor|]. inversion Hnd as [|? ? H1 H2]; subst. constructor; [|apply IH; auto; intros; apply Hcs; now right].
    intros H. apply in_map_iff in H. destruct H as (c' & E & H). apply H1. assert (c' = c) as <- by (apply Hinj; auto; apply Hcs; [now right|now left]). exact H. }
  split. { apply Forall_forall. intros s Hsl. apply in_map_iff in Hsl. destruct Hsl as (s0 & <- & Hsl). pose proof Hl as Hl'. rewrite Forall_forall in Hl'. destruct (Hl' s0 Hsl) as [H1 [H2 H3]].
    split; [cbn; lia|]. rewrite (Er s0 Hsl). apply Forall_forall. intros c H. apply in_map_iff in H. destruct H as (c0 & <- & H). rewrite Forall_forall in H3. apply dbox. now apply H3. }
  split; [exact Hcs|]. intros c Hcb Hno H. apply in_map_iff in H. destruct H as (c' & E' & H). apply Hno. assert (c' = c) as <- by (apply Hinj; auto). exact H.
Qed.

Lemma dget_in (d : dgrid bytes) f c : drep b topo d f -> in_box b c -> dg_get t correct d c = Some (f (Some (zsub c org))).
Proof using Hs. intros Hd Hc. destruct (dbox c Hc) as (H1 & H2 & _). rewrite (drep_get t correct b topo Hs d f c Hd H1). now rewrite H2. Qed.

Theorem C128_displaced_save_member (d : dgrid bytes) tgt : dg_reach t correct b topo d -> sized csize (g_cells (d_grid d)) ->
  exists cs, region_coords r = Some cs /\ (len cs * ext_size fl <= len tgt ->
    exists out, dg_save_member t correct csize sel d r tgt = Some (splice tgt 0 out) /\ saved (dg_get t correct d) m fl cs out).
Proof using Hs Hsel Hm Hn Hr Hin.
  intros Hg Hc. destruct (dg_reach_rep t correct b topo d Hs Hg) as (f & Hd). destruct displaced_streaks as (l & cs & E1 & E2 & Hl & E3 & Hnd & Hss & Hcs & _). exists cs. split; [exact E2|]. intros Hb.
  pose proof Hd as (D1 & D2 & Rf). rewrite <- (map_length (fun c => zsub c org)), <- E3 in Hb.
  destruct (save_observed t dim (so_len t correct b topo Hs) (so_pos t correct b topo Hs) (so_ne t correct b topo Hs) csize reg m sel Hsel Hm (d_grid d) f _ tgt Rf Hc Hss Hb) as (out & E & Eo). exists out.
  unfold dg_save_member. rewrite D1, D2, E1. cbn [obind]. split; [exact E|].
  exists (map (fun c => f (Some (zsub c org))) cs). split.
  - clear - Hcs Hd Hs. induction cs as [|c cs IH]; constructor; [apply (dget_in d f c Hd), Hcs; now left|apply IH; intros; apply Hcs; now right].
  - rewrite Eo, E3, !flat_map_map. reflexivity.
Qed.

Theorem C129_displaced_load_member (d : dgrid bytes) src : dg_reach t correct b topo d -> sized csize (g_cells (d_grid d)) ->
  exists cs, region_coords r = Some cs /\ (len cs * ext_size fl <= len src ->
    exists d', dg_load_member t correct csize sel d r src = Some d' /\ dg_reach t correct b topo d' /\ sized csize (g_cells (d_grid d')) /\ g_edge (d_grid d') = g_edge (d_grid d) /\
      assigns whole (dg_get t correct d) (dg_get t correct d') (in_box b) m fl cs src).
Proof using Hs Hsel Hm Hn Hr Hin.
  intros Hg Hc. destruct (dg_reach_rep t correct b topo d Hs Hg) as (f & Hd). destruct displaced_streaks as (l & cs & E1 & E2 & Hl & E3 & Hnd & Hss & Hcs & Hout). exists cs. split; [exact E2|]. intros Hb.
  pose proof Hd as (D1 & D2 & Rf). set (ss := map (rel_streak org) l) in *. pose proof Hb as Hb'. rewrite <- (map_length (fun c => zsub c org)), <- E3 in Hb'.
  destruct (aos_load_spec t dim (so_len t correct b topo Hs) (so_pos t correct b topo Hs) (so_ne t correct b topo Hs) csize reg m sel Hsel Hm
    (fun g => dg_reach t correct b topo (dg_with d g)) (fun s => exists s0, boxed_streak b s0 /\ length (s_pre s0) = n /\ s = rel_streak org s0)) with (src := src) (ss := ss) (g := d_grid d) (f := f) (sp := 0) as (g' & L1 & L2 & L3 & L4); auto; try lia.
  { intros g0 s vs g1 R0 (s0 & [Hx Hi] & Ls & ->) Lv E. apply (reach_op t correct b topo (dg_with d g0) (GSetStreak s0 vs)); [exact R0| |].
    - split; [lia|]. split.
      + apply Forall_forall. intros c Hcc. rewrite Forall_forall in Hi. specialize (Hi c Hcc). destruct (dbox c Hi) as ((H1 & H2) & _ & H3). unfold reachable_in_streak. pose proof Hs as (_ & _ & Hld & Hp & _). destruct correct; [exact Hi|]. split; [lia|]. now apply in_grid_close.
      + rewrite Lv. unfold rel_streak. rewrite rel_coords, map_length; [reflexivity|]. pose proof Hs as (_ & Ho & _). lia.
    - cbn [dg_op]. unfold dg_set_streak, dg_streak. cbn [d_org d_grid dg_with]. rewrite D1. unfold rel_streak in E. rewrite E. reflexivity. }
  { apply Forall_forall. intros s Hsl. unfold ss in Hsl. apply in_map_iff in Hsl. destruct Hsl as (s0 & <- & Hsl). rewrite Forall_forall in Hl. destruct (Hl s0 Hsl). eauto. }
  { destruct d. exact Hg. }
  { rewrite E3. exact Hnd. }
  exists (dg_with d g'). unfold dg_load_member. rewrite D1, D2, E1. cbn [obind]. fold ss. rewrite L1. split; [reflexivity|]. split; [exact L2|]. split; [exact L3|]. rewrite E3 in L4.
  assert (Hd' : drep b topo (dg_with d g') (last_written f (combine (map Some (map (fun c => zsub c org) cs)) (news (aos_upd fl (m_pos m)) src (ext_size fl) 0 (map f (map Some (map (fun c => zsub c org) cs))))))) by (eapply drep_with; eauto).
  split.
  { cbn [d_grid dg_with]. destruct Rf as (_ & _ & -> & _), L4 as (_ & _ & -> & _). symmetry. rewrite written_others; [reflexivity|]. intros H. apply in_map_iff in H. destruct H as (c & H & _). discriminate. }
  apply (news_assigns whole (aos_upd fl (m_pos m)) fl m src f (fun c => Some (zsub c org))).
  - rewrite <- (map_map (fun c => zsub c org) Some). apply Injective_map_NoDup; [intros ? ? E; congruence|exact Hnd].
  - intros c Hcc. assert (Hb0 : in_box b c) by (destruct Hcc; auto). split; [now apply dget_in|]. rewrite (dget_in _ _ c Hd' Hb0), !map_map. reflexivity.
  - intros c Hb0 Hno H. apply (Hout c Hb0 Hno). apply in_map_iff in H. destruct H as (c' & E & H). apply in_map_iff. exists c'. split; [congruence|exact H].
  - intros i c Hi. apply (load_assigned t dim (so_len t correct b topo Hs) (so_pos t correct b topo Hs) (so_ne t correct b topo Hs) csize reg m sel Hsel Hm (d_grid d) f ss src i (zsub c org)); auto. rewrite E3. now apply (map_nth_error (fun c => zsub c org)).
Qed.

Theorem C130_displaced_load_save_member (d : dgrid bytes) src tgt : dg_reach t correct b topo d -> sized csize (g_cells (d_grid d)) -> faithful fl ->
  exists cs, region_coords r = Some cs /\ (len cs * ext_size fl <= len src -> len cs * ext_size fl <= len tgt ->
    exists d', dg_load_member t correct csize sel d r src = Some d' /\
      dg_save_member t correct csize sel d' r tgt = Some (splice tgt 0 (slice src 0 (len cs * ext_size fl)))).
Proof using Hs Hsel Hm Hn Hr Hin.
  intros Hg Hc Hf. destruct (C129_displaced_load_member d src Hg Hc) as (cs & E & HL). exists cs. split; [exact E|]. intros Hsr Ht. destruct (HL Hsr) as (d' & L1 & L2 & L3 & _ & L5).
  exists d'. split; [exact L1|]. destruct (C128_displaced_save_member d' tgt L2 L3) as (cs' & E' & HS). assert (cs' = cs) as -> by congruence. destruct (HS Ht) as (out & S1 & S2). rewrite S1. do 2 f_equal.
  destruct (sel_made_spec reg m sel Hsel) as (_ & _ & _ & S4 & _). apply (assigns_saved whole (dg_get t correct d) (dg_get t correct d') (in_box b) m fl csize cs src out); auto.
  intros c v Hcc Hv. destruct (dg_reach_rep t correct b topo d Hs Hg) as (f & Hd). destruct displaced_streaks as (l & cs2 & _ & E2 & _ & _ & _ & _ & Hcs & _). assert (cs2 = cs) as -> by congruence.
  rewrite (dget_in d f c Hd (Hcs c Hcc)) in Hv. assert (v = f (Some (zsub c org))) as -> by congruence. apply (cell_length dim csize (d_grid d) f); [apply Hd|exact Hc|]. apply dbox. auto.
Qed.
End OnDisplaced.

(** ** SoAGrid *)

Section OnSoA.
Context {M : Type} (t : topology) (correct : bool) (st : stencil) (sizes : coord -> option coord) (garbage : Z -> bytes) (K : nat) (assemble : list M -> bytes).
Notation R := (Z.of_nat (st_rad st)).
Context (Hsz : sizes_ok sizes) (b : box) (topo : coord) (Hs : soa_setup t correct R b topo).
Context (csize : Z) (reg : list memb) (Hreg : reg_ok csize reg) (m : memb) (sel : selector B) (Hsel : sel_made (Some reg) m sel).
Notation fl := (sl_filter sel).
Context (junk : bytes) (Hjk : length junk = Z.to_nat (msize fl)).
Context (n : nat) (r : indices) (Hn : length t = S n) (Hr : rvalid n r) (Hin : forall c, inr n r c -> in_box b c).
Notation org := (b_origin b).
Notation reach := (sg_reach t correct st sizes garbage K assemble b topo).

Lemma soa_streaks : exists ss cs, reg_streaks r = Some ss /\ region_coords r = Some cs /\ cs = flat_map streak_coords ss /\ NoDup (map (ddenotes t correct b topo) cs) /\
  Forall (boxed_streak b) ss /\ (forall c, In c cs -> in_box b c) /\ (forall c, in_box b c -> ~ In c cs -> ~ In (ddenotes t correct b topo c) (map (ddenotes t correct b topo) cs)).
Proof using Hs Hn Hr Hin.
  pose proof Hs as (Hs' & _). destruct (displaced_streaks t correct b topo Hs' n r Hn Hr Hin) as (_ & cs & _ & Ec & _ & _ & Hnd & _ & Hcs & Hout).
  destruct (member_streaks t correct b topo Hs' n Hn r Hr Hin) as (l & El & Hl & _). exists l, cs. split; [exact El|]. split; [exact Ec|]. unfold region_coords in Ec. rewrite El in Ec. cbn [option_map] in Ec.
  split; [congruence|]. assert (Em : map (ddenotes t correct b topo) cs = map Some (map (fun c => zsub c org) cs)).
  { rewrite map_map. apply map_ext_in. intros c H. apply dbox; auto. }
  rewrite Em. split; [apply Injective_map_NoDup; [intros ? ? E; congruence|exact Hnd]|]. split; [eapply Forall_impl; [|exact Hl]; intros s H; apply H|]. split; [exact Hcs|].
  intros c Hb Hno H. destruct (dbox t correct b topo Hs' c Hb) as (_ & Ed & _). rewrite Ed in H. apply (Hout c Hb Hno). apply in_map_iff in H. destruct H as (c' & E & H). assert (c' = zsub c org) as <- by congruence. exact H.
Qed.

Ltac pieces := pose proof Hs as ((Hne & Ho & Hld & Hp & Hle) & H3 & HR).

Lemma sget_in (g : sgrid bytes) f c : srep t R sizes b topo g f -> in_box b c -> sg_get t correct sizes g c = Some (f (ddenotes t correct b topo c)).
Proof using Hsz Hs.
  pieces. intros Rg Hc. apply (srep_get t R sizes H3 Hne HR Hsz b topo Hld Ho Hp correct Hle g f c Rg). apply (box_ddenotes t R sizes H3 Hne HR Hsz b topo Hld Ho Hp correct Hle c Hc).
Qed.

Theorem C128_soa_save_member (g : sgrid bytes) mem tgt : reach g -> soa_holds csize reg mem (sg_mem g) ->
  exists cs, region_coords r = Some cs /\ (len cs * ext_size fl <= len tgt ->
    exists out, sg_save_member junk sizes sel g mem r tgt = Some (splice tgt 0 out) /\ saved (sg_get t correct sizes g) m fl cs out).
Proof using Hsz Hs Hreg Hsel Hjk Hn Hr Hin.
  pieces. intros Hg Hh. destruct (reach_rep t correct st sizes garbage K assemble Hsz b topo g Hs Hg) as (f & Rf). destruct soa_streaks as (ss & cs & E1 & E2 & E3 & Hnd & Hss & Hcs & _). exists cs. split; [exact E2|]. intros Hb.
  assert (Hx : exists ext, sizes (sg_act g) = Some ext). { pose proof Rf as (_ & _ & _ & -> & _ & ez & ey & ex & F & H6 & _). eauto. } destruct Hx as (ext & Hx).
  exists (concat (map (fun c => view fl (get_memb (f (ddenotes t correct b topo c)) m)) cs)). unfold sg_save_member. rewrite E1. cbn [obind]. rewrite Hx. cbn [obind]. split.
  - rewrite E3 in Hb |- *. apply (soa_save_spec t correct R sizes H3 Hne HR Hsz b topo Hld Ho Hp Hle csize reg Hreg m sel Hsel junk Hjk g f mem Rf Hh ss ext tgt 0 Hx Hss); lia.
  - exists (map (fun c => f (ddenotes t correct b topo c)) cs). split.
    + clear - Hcs Rf Hs Hsz. induction cs as [|c cs IH]; constructor; [apply (sget_in g f c Rf), Hcs; now left|apply IH; intros; apply Hcs; now right].
    + now rewrite flat_map_map, <- flat_map_concat_map.
Qed.

Lemma scell_length (g : sgrid bytes) mem c v : reach g -> soa_holds csize reg mem (sg_mem g) -> in_box b c -> sg_get t correct sizes g c = Some v -> length v = Z.to_nat csize.
Proof using Hsz Hs Hreg Hsel Hjk.
  pieces. clear n r Hn Hr Hin. intros Hg Hh Hc E. destruct (reach_rep t correct st sizes garbage K assemble Hsz b topo g Hs Hg) as (f & Rf).
  destruct (snoc_parts c (length c - 1) 0) as [Ec Lc]. { apply in_box_zsub in Hc; [|lia]. destruct t; [congruence|]. cbn in *. lia. }
  set (s := mkStreak (removelast c) (last c 0) (last c 0 + 1)).
  assert (Es : streak_coords s = [c]). { unfold s, streak_coords. cbn [s_pre s_x s_e]. rewrite zrange_cons by lia. rewrite zrange_nil by lia. cbn [map]. now rewrite <- Ec. }
  assert (Hbs : boxed_streak b s) by (split; [cbn; lia|rewrite Es; repeat constructor; exact Hc]).
  destruct (soa_row t correct R sizes H3 Hne HR Hsz b topo Hld Ho Hp Hle csize reg Hreg m sel Hsel junk Hjk g f s Rf Hbs) as (ext & i0 & _ & _ & _ & Hrd & _).
  rewrite Es in Hrd. cbn [map] in Hrd. rewrite (sget_in g f c Rf Hc) in E. assert (v = f (ddenotes t correct b topo c)) as -> by congruence.
  apply read_holds in Hrd. destruct Hrd as [_ Hrd]. specialize (Hrd 0 ltac:(cbn; lia)). change (vec_get [f (ddenotes t correct b topo c)] 0) with (Some (f (ddenotes t correct b topo c))) in Hrd.
  destruct Hh as (_ & Hh & _). exact (get_length csize _ _ _ Hh Hrd).
Qed.

Theorem C129_soa_load_member (g : sgrid bytes) mem src : reach g -> soa_holds csize reg mem (sg_mem g) ->
  exists cs, region_coords r = Some cs /\ (len cs * ext_size fl <= len src ->
    exists mem' g', sg_load_member junk sizes sel g mem r src = Some mem' /\ reach g' /\ soa_holds csize reg mem' (sg_mem g') /\ sg_edge g' = sg_edge g /\
      assigns shallow (sg_get t correct sizes g) (sg_get t correct sizes g') (in_box b) m fl cs src).
Proof using Hsz Hs Hreg Hsel Hjk Hn Hr Hin.
  pieces. intros Hg Hh. destruct (reach_rep t correct st sizes garbage K assemble Hsz b topo g Hs Hg) as (f & Rf). destruct soa_streaks as (ss & cs & E1 & E2 & E3 & Hnd & Hss & Hcs & Hout). exists cs. split; [exact E2|]. intros Hb.
  assert (Hx : exists ext, sizes (sg_act g) = Some ext). { pose proof Rf as (_ & _ & _ & -> & _ & ez & ey & ex & F & H6 & _). eauto. } destruct Hx as (ext & Hx).
  rewrite E3 in Hnd, Hb.
  destruct (soa_load_spec t correct R sizes H3 Hne HR Hsz b topo Hld Ho Hp Hle csize reg Hreg m sel Hsel junk Hjk reach) with (src := src) (ss := ss) (g := g) (f := f) (mem := mem) (ext := ext) (sp := 0) as (mem' & g' & L1 & L2 & L3 & L4); auto; try lia.
  { intros g0 s vs g1 R0 [Hxs Hi] Lv E. apply (sreach_op t correct st sizes garbage K assemble b topo g0 (GSetStreak s vs) g1 R0); [|exact E]. split; [lia|]. split; [exact Hi|exact Lv]. }
  rewrite <- E3 in L4, Hb, Hnd. exists mem', g'. unfold sg_load_member. rewrite E1. cbn [obind]. rewrite Hx. cbn [obind]. split; [exact L1|]. split; [exact L2|]. split; [exact L3|]. split.
  { destruct Rf as (_ & _ & _ & _ & -> & _), L4 as (_ & _ & _ & _ & -> & _). apply written_others. intros H. apply in_map_iff in H. destruct H as (c & H & Hc). destruct Hs as (Hs' & _). destruct (dbox t correct b topo Hs' c (Hcs c Hc)) as (_ & E & _). congruence. }
  apply (news_assigns shallow (soa_upd m fl junk) fl m src f (ddenotes t correct b topo)); auto.
  - intros c Hcc. assert (Hb0 : in_box b c) by (destruct Hcc; auto). split; [now apply sget_in|]. now apply sget_in.
  - intros i c Hi. destruct (sel_made_spec (Some reg) m sel Hsel) as (_ & _ & _ & S4 & S5 & S6 & S7). destruct (S7 reg eq_refl) as (k & Hk & _). pose proof (filter_sizes fl S4) as (_ & _ & _ & P4).
    assert (Hlt : (i < length cs)%nat) by (apply nth_error_Some; congruence). pose proof (mul_step (Z.of_nat i) (len cs) (ext_size fl) ltac:(lia) ltac:(lia)).
    apply (soa_assigned junk csize); auto.
    + exact (memb_nth csize reg Hreg k m Hk).
    + apply nth_error_In in Hi. apply (scell_length g mem c _ Hg Hh (Hcs c Hi)). now apply sget_in, Hcs.
    + apply slice_length; lia.
Qed.

Theorem C130_soa_load_save_member (g : sgrid bytes) mem src tgt : reach g -> soa_holds csize reg mem (sg_mem g) -> faithful fl ->
  exists cs, region_coords r = Some cs /\ (len cs * ext_size fl <= len src -> len cs * ext_size fl <= len tgt ->
    exists mem' g', sg_load_member junk sizes sel g mem r src = Some mem' /\ reach g' /\ soa_holds csize reg mem' (sg_mem g') /\
      sg_save_member junk sizes sel g' mem' r tgt = Some (splice tgt 0 (slice src 0 (len cs * ext_size fl)))).
Proof using Hsz Hs Hreg Hsel Hjk Hn Hr Hin.
  intros Hg Hc Hf. destruct (C129_soa_load_member g mem src Hg Hc) as (cs & E & HL). exists cs. split; [exact E|]. intros Hsr Ht. destruct (HL Hsr) as (mem' & g' & L1 & L2 & L3 & _ & L5).
  exists mem', g'. split; [exact L1|]. split; [exact L2|]. split; [exact L3|]. destruct (C128_soa_save_member g' mem' tgt L2 L3) as (cs' & E' & HS). assert (cs' = cs) as -> by congruence. destruct (HS Ht) as (out & S1 & S2). rewrite S1. do 2 f_equal.
  destruct (sel_made_spec (Some reg) m sel Hsel) as (_ & _ & _ & S4 & _ & _ & S7). destruct (S7 reg eq_refl) as (k & Hk & _).
  apply (assigns_saved shallow (sg_get t correct sizes g) (sg_get t correct sizes g') (in_box b) m fl csize cs src out); auto.
  - exact (memb_nth csize reg Hreg k m Hk).
  - intros c v Hcc Hv. destruct soa_streaks as (_ & cs2 & _ & E2 & _ & _ & _ & Hcs & _). assert (cs2 = cs) as -> by congruence. apply (scell_length g mem c v Hg Hc); auto.
Qed.
End OnSoA.
End Claims.

Print Assumptions C127_accessor_stores_and_loads_cells.
Print Assumptions C127_memory_holds_cells.
Print Assumptions C128_grid_save_member.
Print Assumptions C128_displaced_save_member.
Print Assumptions C128_soa_save_member.
Print Assumptions C129_grid_load_member.
Print Assumptions C129_displaced_load_member.
Print Assumptions C129_soa_load_member.
Print Assumptions C130_grid_load_save_member.
Print Assumptions C130_displaced_load_save_member.
Print Assumptions C130_soa_load_save_member.

(** ** Examples *)

(** A cell of 6 bytes: a member of 2 bytes, an array of 3 elements and a byte
    which isn't registered. *)
Definition ex_reg : list memb := [mkMemb 0 2 1; mkMemb 2 1 3].
Lemma ex_reg_ok : reg_ok 6 ex_reg.
Proof. split; repeat constructor; unfold memb_len; cbn; lia. Qed.

Definition holds_check (csize : Z) (reg : list memb) (mem : list Z) (cells : list (list Z)) : bool :=
  let n := Z.of_nat (length cells) in
  (Z.of_nat (length mem) =? n * cell_bytes reg) && forallb (fun c => Nat.eqb (length c) (Z.to_nat csize)) cells &&
  forallb (fun i => forallb (fun k => match nth_error reg k with Some m => forallb (fun j =>
    if list_eq_dec Z.eq_dec (slice mem (soa_addr n (member_off reg k) (m_size m) j (Z.of_nat i)) (m_size m)) (slice (nth i cells []) (m_pos m + j * m_size m) (m_size m)) then true else false)
    (zrange 0 (m_arity m)) | None => true end) (seq 0 (length reg))) (seq 0 (length cells)).

Lemma holds_checked csize reg mem cells : holds_check csize reg mem cells = true -> soa_holds csize reg mem cells.
Proof.
  unfold holds_check, soa_holds. cbv zeta. intros H. apply andb_true_iff in H. destruct H as [H H3]. apply andb_true_iff in H. destruct H as [H1 H2]. split; [now apply Z.eqb_eq|]. rewrite forallb_forall in H2, H3. split.
  - apply Forall_forall. intros c Hc. apply Nat.eqb_eq. auto.
  - intros i cell k m j Hi Hk Hj. assert (Hr : 0 <= i < Z.of_nat (length cells)) by (apply vec_get_in; eauto). specialize (H3 (Z.to_nat i) ltac:(apply in_seq; lia)). rewrite forallb_forall in H3.
    assert (Hkl : In k (seq 0 (length reg))) by (apply in_seq; split; [lia|]; apply nth_error_Some; congruence). specialize (H3 k Hkl). rewrite Hk, forallb_forall in H3. specialize (H3 j). rewrite Z2Nat.id in H3 by lia.
    replace i with (Z.of_nat (Z.to_nat i)) in Hi by lia. rewrite get_nth in Hi. rewrite (nth_error_nth _ _ [] Hi) in H3. specialize (H3 ltac:(now apply zrange_in)). destruct (list_eq_dec _ _ _) as [E|]; [exact E|discriminate].
Qed.

Example C127_example : let cells := [[10; 11; 12; 13; 14; 0]; [20; 21; 22; 23; 24; 0]] in let mem := [10; 11; 20; 21; 12; 22; 13; 23; 14; 24] in
  reg_ok 6 ex_reg /\ soa_holds 6 ex_reg mem cells /\
  accessor_put 2 ex_reg 1 [30; 31; 32; 33; 34; 99] mem = Some [10; 11; 30; 31; 12; 32; 13; 33; 14; 34] /\
  accessor_get 2 ex_reg 1 mem [1; 2; 3; 4; 5; 6] = Some [20; 21; 22; 23; 24; 6].
Proof. split; [apply ex_reg_ok|]. split; [now apply holds_checked|]. split; reflexivity. Qed.

Definition ex_region : indices := insert_all (reg_empty 2) [mkStreak [1] 2 4; mkStreak [2] 1 2].
Lemma ex_region_ok (P : coord -> Prop) : P [1; 2] -> P [1; 3] -> P [2; 1] -> rvalid 1 ex_region /\ forall c, inr 1 ex_region c -> P c.
Proof.
  intros H1 H2 H3. destruct (insert_all_valid 1 [mkStreak [1] 2 4; mkStreak [2] 1 2] (reg_empty 2) (rvalid_empty 1)) as [V Hi]; [repeat constructor|]. split; [exact V|].
  intros c [Hc H]. apply Hi in H; auto. destruct H as [H|(s & Hs & x & -> & Hx)]; [exfalso; eapply (rin_empty 1); eauto|].
  cbn [In] in Hs. destruct Hs as [<-|[<-|[]]]; cbn [s_pre s_x s_e app] in Hx |- *; [assert (x = 2 \/ x = 3) as [->| ->] by lia; auto|assert (x = 1) as -> by lia; auto].
Qed.

(** Externally, only the first byte is visible. *)
Definition ex_filter : filter Z := FSimple 2 1 (fun e m => [hd 0 e; nth 1 m 0]) (fun m => [hd 0 m]).
Lemma ex_filter_ok : filter_ok ex_filter /\ faithful ex_filter.
Proof.
  split; cbn.
  - repeat split; lia.
  - intros [|x [|y e]] [|a [|c m]]; try discriminate; reflexivity.
Qed.

(** Grid: a selector for the array *)
Example C128_grid_example : let t := [false; true] in let dim := [3; 4] in
  exists sel g, sel_array (B := Z) None 2 1 3 = Some sel /\ sel_made None (mkMemb 2 1 3) sel /\ memb_in 6 (mkMemb 2 1 3) /\ rvalid 1 ex_region /\ (forall c, inr 1 ex_region c -> in_grid dim c) /\
    grid_reach t dim g /\ Forall (fun c => length c = Z.to_nat 6) (g_cells g) /\ region_coords ex_region = Some [[1; 2]; [1; 3]; [2; 1]] /\
    grid_save_member t 6 sel g ex_region (repeat 99 10) = Some [2; 3; 4; 12; 13; 14; 7; 7; 7; 99] /\
    option_map (fun g' => (grid_get t g' [1; 2], grid_get t g' [2; 1], grid_get t g' [2; 2])) (grid_load_member t 6 sel g ex_region [31; 32; 33; 34; 35; 36; 37; 38; 39]) =
      Some (Some [0; 1; 31; 32; 33; 5], Some [7; 7; 37; 38; 39; 7], Some [7; 7; 7; 7; 7; 7]).
Proof.
  intros t dim. destruct (sel_array (B := Z) None 2 1 3) as [sel|] eqn:Es; [|discriminate].
  destruct (grid_op t (grid_make dim [7; 7; 7; 7; 7; 7] [0; 0; 0; 0; 0; 0]) (GSetStreak (mkStreak [1] 2 4) [[0; 1; 2; 3; 4; 5]; [10; 11; 12; 13; 14; 15]])) as [g|] eqn:Eg; [|vm_compute in Eg; discriminate].
  exists sel, g. split; [reflexivity|]. split; [apply made_array; [lia|lia|exact Es]|]. split; [repeat split; unfold memb_len; cbn; lia|].
  destruct (ex_region_ok (in_grid dim)) as [V Hi]; try (cbn; lia). split; [exact V|]. split; [exact Hi|].
  split. { eapply greach_op; [apply greach_make| |exact Eg]. split; [cbn; lia|]. split; [repeat constructor; cbn; lia|reflexivity]. }
  injection Es as <-. vm_compute in Eg. injection Eg as <-. split; [repeat constructor|]. split; [reflexivity|]. split; vm_compute; reflexivity.
Qed.

(** DisplacedGrid: topologically correct, with a faithful filter *)
Example C129_displaced_example : let t := [true; true] in let b := mkBox [1; 1] [3; 4] in let topo := [10; 10] in
  exists sel d, sel_made (Some ex_reg) (mkMemb 0 2 1) sel /\ faithful (sl_filter sel) /\ setup_ok t true b topo /\ memb_in 6 (mkMemb 0 2 1) /\ rvalid 1 ex_region /\ (forall c, inr 1 ex_region c -> in_box b c) /\
    dg_reach t true b topo d /\ Forall (fun c => length c = Z.to_nat 6) (g_cells (d_grid d)) /\
    dg_save_member t true 6 sel d ex_region [0; 0; 0; 0] = Some [8; 10; 7; 0] /\
    exists d', dg_load_member t true 6 sel d ex_region [30; 41; 52] = Some d' /\
      dg_get t true d' [1; 2] = Some [30; 1; 2; 3; 4; 5] /\ dg_get t true d' [2; 1] = Some [52; 7; 7; 7; 7; 7] /\ dg_get t true d' [2; 2] = Some [7; 7; 7; 7; 7; 7] /\
      dg_save_member t true 6 sel d' ex_region [0; 0; 0; 0] = Some [30; 41; 52; 0].
Proof.
  intros t b topo. destruct (sel_filter (Some ex_reg) (mkMemb 0 2 1) ex_filter) as [sel|] eqn:Es; [|discriminate].
  destruct (dg_op t true (dg_make b [7; 7; 7; 7; 7; 7] [0; 0; 0; 0; 0; 0] topo) (GSetStreak (mkStreak [1] 2 4) [[8; 1; 2; 3; 4; 5]; [10; 11; 12; 13; 14; 15]])) as [d|] eqn:Ed; [|vm_compute in Ed; discriminate].
  exists sel, d. destruct ex_filter_ok as [F1 F2]. split; [apply (made_filter _ _ ex_filter); auto|]. split; [injection Es as <-; exact F2|]. split; [repeat split; cbn; try lia; try discriminate; repeat constructor; lia|].
  split; [repeat split; unfold memb_len; cbn; lia|]. destruct (ex_region_ok (in_box b)) as [V Hi]; try (cbn; lia). split; [exact V|]. split; [exact Hi|].
  split. { eapply reach_op; [apply reach_make| |exact Ed]. split; [cbn; lia|]. split; [repeat constructor; cbn; lia|reflexivity]. }
  injection Es as <-. vm_compute in Ed. injection Ed as <-. split; [repeat constructor|]. split; [vm_compute; reflexivity|]. eexists. split; [vm_compute; reflexivity|]. repeat split; vm_compute; reflexivity.
Qed.

(** SoAGrid: the array and a member of a member *)
Definition ex_mem (cells : list (list Z)) : list Z :=
  flat_map (fun m => flat_map (fun j => flat_map (fun c => slice c (m_pos m + j * m_size m) (m_size m)) cells) (zrange 0 (m_arity m))) ex_reg.

Example C130_soa_example : let t := [true; true] in let b := mkBox [1; 1] [3; 4] in let topo := [10; 10] in let sizes := custom_sizes [4] [3] [1] in
  let st := mkStencil VonNeumann 2 1 in
  exists sel sel2 g mem, sel_array (Some ex_reg) 2 1 3 = Some sel /\ sel_made (Some ex_reg) (mkMemb 2 1 3) sel /\ faithful (sl_filter sel) /\
    sel_nested (Some ex_reg) 0 2 [0; 0] 1 1 = Some sel2 /\ sel_made (Some ex_reg) (mkMemb 0 2 1) sel2 /\ faithful (sl_filter sel2) /\ shallow (sl_filter sel2) /\
    sizes_ok sizes /\ soa_setup t true 1 b topo /\ rvalid 1 ex_region /\ (forall c, inr 1 ex_region c -> in_box b c) /\
    sg_reach t true st sizes (fun _ => [9; 9; 9; 9; 9; 9]) 1 (fun l : list Z => l) b topo g /\ soa_holds 6 ex_reg mem (sg_mem g) /\
    sg_save_member [0; 0; 0] sizes sel g mem ex_region (repeat 99 10) = Some [2; 3; 4; 12; 13; 14; 7; 7; 7; 99] /\
    (exists mem' g', sg_load_member [0; 0; 0] sizes sel g mem ex_region [31; 32; 33; 34; 35; 36; 37; 38; 39] = Some mem' /\
       sg_ops t true sizes g [GSetStreak (mkStreak [1] 2 4) [[0; 1; 31; 32; 33; 5]; [10; 11; 34; 35; 36; 15]]; GSet [2; 1] [7; 7; 37; 38; 39; 7]] = Some g' /\ soa_holds 6 ex_reg mem' (sg_mem g') /\
       sg_save_member [0; 0; 0] sizes sel g' mem' ex_region (repeat 99 10) = Some [31; 32; 33; 34; 35; 36; 37; 38; 39; 99]) /\
    exists mem' g', sg_load_member [0; 0] sizes sel2 g mem ex_region [51; 52; 53] = Some mem' /\
       sg_ops t true sizes g [GSetStreak (mkStreak [1] 2 4) [[0; 51; 2; 3; 4; 5]; [10; 52; 12; 13; 14; 15]]; GSet [2; 1] [7; 53; 7; 7; 7; 7]] = Some g' /\ soa_holds 6 ex_reg mem' (sg_mem g').
Proof.
  intros t b topo sizes st. destruct (sel_array (B := Z) (Some ex_reg) 2 1 3) as [sel|] eqn:Es; [|discriminate]. destruct (sel_nested (B := Z) (Some ex_reg) 0 2 [0; 0] 1 1) as [sel2|] eqn:Es2; [|discriminate].
  destruct (sg_make t 1 sizes (fun _ => [9; 9; 9; 9; 9; 9]) b [7; 7; 7; 7; 7; 7] [0; 0; 0; 0; 0; 0] topo) as [g0|] eqn:E0; [|vm_compute in E0; discriminate].
  destruct (sg_op t true sizes g0 (GSetStreak (mkStreak [1] 2 4) [[0; 1; 2; 3; 4; 5]; [10; 11; 12; 13; 14; 15]])) as [g|] eqn:E; [|pose proof E0 as E1; vm_compute in E1; injection E1 as <-; vm_compute in E; discriminate].
  exists sel, sel2, g, (ex_mem (sg_mem g)). split; [reflexivity|]. split; [apply made_array; [lia|lia|exact Es]|]. split; [injection Es as <-; exact I|]. split; [reflexivity|].
  split; [apply (made_nested _ 0 2 [0; 0] 1 1); auto; lia|]. split; [injection Es2 as <-; exact I|]. split; [injection Es2 as <-; exact I|].
  split; [apply custom_sizes_ok|].
  split; [repeat split; cbn; try lia; try discriminate; repeat constructor; lia|]. destruct (ex_region_ok (in_box b)) as [V Hi]; try (cbn; lia). split; [exact V|]. split; [exact Hi|].
  split. { eapply sreach_op; [eapply sreach_make; exact E0| |exact E]. split; [cbn; lia|]. split; [repeat constructor; cbn; lia|reflexivity]. }
  injection Es as <-. injection Es2 as <-. vm_compute in E0. injection E0 as <-. vm_compute in E. injection E as <-.
  split; [apply holds_checked; vm_compute; reflexivity|]. split; [vm_compute; reflexivity|]. split.
  - do 2 eexists. split; [vm_compute; reflexivity|]. split; [vm_compute; reflexivity|]. split; [apply holds_checked; vm_compute; reflexivity|vm_compute; reflexivity].
  - do 2 eexists. split; [vm_compute; reflexivity|]. split; [vm_compute; reflexivity|]. apply holds_checked; vm_compute; reflexivity.
Qed.

(** ** C131: members of members *)

(** Loading a member of a member should leave its siblings alone. SoAGrid does
    (C129). Grid and DisplacedGrid overwrite them with default values: they
    create new objects, assign the part which is loaded and copy the objects
    as a whole (memberfilter.h:198-212). *)
Theorem C131_siblings_refuted : exists sel g g' r,
  sel_nested (B := Z) None 0 3 [0; 0; 0] 1 1 = Some sel /\ sel_made None (mkMemb 0 3 1) sel /\ memb_in 4 (mkMemb 0 3 1) /\
  grid_reach [false] [2] g /\ Forall (fun c => length c = Z.to_nat 4) (g_cells g) /\ rvalid 0 r /\ (forall c, inr 0 r c -> in_grid [2] c) /\
  grid_load_member [false] 4 sel g r [9] = Some g' /\ grid_get [false] g [0] = Some [1; 2; 3; 4] /\
  put (sl_filter sel) [9] (get_memb [1; 2; 3; 4] (mkMemb 0 3 1)) = [1; 9; 3] /\ grid_get [false] g' [0] = Some [0; 9; 0; 4].
Proof.
  destruct (sel_nested (B := Z) None 0 3 [0; 0; 0] 1 1) as [sel|] eqn:Es; [|discriminate].
  exists sel, (grid_make [2] [1; 2; 3; 4] [0; 0; 0; 0]). eexists. exists (insert_all (reg_empty 1) [mkStreak [] 0 1]).
  split; [reflexivity|]. split; [apply (made_nested _ 0 3 [0; 0; 0] 1 1); auto; lia|]. split; [repeat split; unfold memb_len; cbn; lia|]. split; [apply greach_make|]. split; [repeat constructor|].
  destruct (insert_all_valid 0 [mkStreak [] 0 1] (reg_empty 1) (rvalid_empty 0)) as [V Hi]; [repeat constructor|]. split; [exact V|].
  split. { intros c [Hc H]. apply Hi in H; auto. destruct H as [H|(s & Hs & x & -> & Hx)]; [exfalso; eapply (rin_empty 0); eauto|]. cbn [In] in Hs. destruct Hs as [<-|[]]. cbn in Hx |- *. lia. }
  injection Es as <-. split; [vm_compute; reflexivity|]. repeat split; vm_compute; reflexivity.
Qed.
Print Assumptions C131_siblings_refuted.

(** The same holds for SoAGrid if the member is nested deeper. *)
Theorem C131_deep_siblings_refuted : exists sel (mem mem' : list Z) g,
  sel_nested2 (B := Z) (Some [mkMemb 0 4 1]) 0 4 [0; 0; 0; 0] 1 2 [0; 0] 0 1 = Some sel /\ sel_made (Some [mkMemb 0 4 1]) (mkMemb 0 4 1) sel /\ reg_ok 4 [mkMemb 0 4 1] /\
  sg_reach [true] false (mkStencil VonNeumann 1 1) (custom_sizes [1] [1] [1]) (fun _ => []) 1 (fun l : list Z => l) (mkBox [0] [1]) [0] g /\ soa_holds 4 [mkMemb 0 4 1] mem (sg_mem g) /\
  rvalid 0 (insert_all (reg_empty 1) [mkStreak [] 0 1]) /\
  sg_load_member [0; 0; 0; 0] (custom_sizes [1] [1] [1]) sel g mem (insert_all (reg_empty 1) [mkStreak [] 0 1]) [9] = Some mem' /\
  mem = [1; 2; 3; 4] /\ put (sl_filter sel) [9] [1; 2; 3; 4] = [1; 9; 3; 4] /\ mem' = [1; 9; 0; 4].
Proof.
  destruct (sel_nested2 (B := Z) (Some [mkMemb 0 4 1]) 0 4 [0; 0; 0; 0] 1 2 [0; 0] 0 1) as [sel|] eqn:Es; [|discriminate].
  destruct (sg_make [true] 1 (custom_sizes [1] [1] [1]) (fun _ => []) (mkBox [0] [1]) [1; 2; 3; 4] [0; 0; 0; 0] [0]) as [g|] eqn:E0; [|vm_compute in E0; discriminate].
  exists sel, [1; 2; 3; 4]. eexists. exists g. split; [reflexivity|]. split; [apply (made_nested2 _ 0 4 [0; 0; 0; 0] 1 2 [0; 0] 0 1); auto; lia|]. split; [split; repeat constructor; unfold memb_len; cbn; lia|].
  split; [eapply sreach_make; exact E0|]. injection Es as <-. vm_compute in E0. injection E0 as <-. split; [apply holds_checked; reflexivity|].
  split; [apply insert_all_valid; [apply rvalid_empty|repeat constructor]|]. split; [vm_compute; reflexivity|]. repeat split; vm_compute; reflexivity.
Qed.
Print Assumptions C131_deep_siblings_refuted.

(** ** C132: Streaks which cross the boundary of a torus *)

(** A topologically correct DisplacedGrid accepts regions which extend beyond
    the boundary of the torus: [get] and [saveRegion] find the cells on the
    opposite side. [saveMember] normalizes the origin of the Streak only and
    then walks through memory: it saves the members of other cells. *)
Theorem C132_across_the_boundary_refuted : exists (sel : selector Z) d r,
  let t := [true; true] in let b := mkBox [0; 0] [2; 3] in
  sel_made None (mkMemb 0 1 1) sel /\ setup_ok t true b [2; 3] /\ dg_reach t true b [2; 3] d /\ Forall (fun c => length c = Z.to_nat 1) (g_cells (d_grid d)) /\ rvalid 1 r /\
  region_coords r = Some [[0; 2]; [0; 3]] /\ transfer_ok t true b [2; 3] (inr 1 r) [0; 0] /\
  dg_get t true d [0; 2] = Some [3] /\ dg_get t true d [0; 3] = Some [1] /\ dg_save t true d r [0; 0] = Some [[3]; [1]] /\
  dg_save_member t true 1 sel d r [0; 0] = Some [3; 4].
Proof.
  destruct (sel_member (B := Z) None 0 1) as [sel|] eqn:Es; [|discriminate]. set (r := insert_all (reg_empty 2) [mkStreak [0] 2 4]).
  destruct (dg_ops [true; true] true (dg_make (mkBox [0; 0] [2; 3]) [0] [0] [2; 3]) [GSetStreak (mkStreak [0] 0 3) [[1]; [2]; [3]]; GSetStreak (mkStreak [1] 0 3) [[4]; [5]; [6]]]) as [d|] eqn:Ed; [|vm_compute in Ed; discriminate].
  exists sel, d, r. cbv zeta. split; [apply made_member; [lia|exact Es]|]. split; [repeat split; cbn; try lia; try discriminate; repeat constructor; lia|].
  split. { cbn [dg_ops] in Ed. destruct (dg_op _ _ (dg_make _ _ _ _) _) as [d1|] eqn:E1 in Ed; [|discriminate]. cbn [obind] in Ed. destruct (dg_op _ _ d1 _) as [d2|] eqn:E2 in Ed; [|discriminate]. cbn [obind] in Ed. assert (d2 = d) as -> by congruence.
    eapply reach_op; [eapply reach_op; [apply reach_make| |exact E1]| |exact E2]; (split; [cbn; lia|]; split; [repeat constructor; cbn; lia|reflexivity]). }
  injection Es as <-. vm_compute in Ed. injection Ed as <-. split; [repeat constructor|].
  destruct (insert_all_valid 1 [mkStreak [0] 2 4] (reg_empty 2) (rvalid_empty 1)) as [V Hi]; [repeat constructor|]. split; [exact V|]. split; [reflexivity|].
  assert (Hc : forall c, inr 1 r c -> c = [0; 2] \/ c = [0; 3]).
  { intros c [Hc H]. apply Hi in H; auto. destruct H as [H|(s & Hs & x & -> & Hx)]; [exfalso; eapply (rin_empty 1); eauto|]. cbn [In] in Hs. destruct Hs as [<-|[]]. cbn [s_pre s_x s_e app] in Hx |- *.
    assert (x = 2 \/ x = 3) as [->| ->] by lia; auto. }
  split. { split; [exists [0; 2]; intros c H; destruct (Hc c H) as [->| ->]; cbn; lia|]. intros c H. destruct (Hc c H) as [->| ->]; (split; [cbn; lia|]).
    - exists [0; 2]. split; [|cbn; lia]. cbn. split; [lia|]. split; [exists 0; lia|]. split; [lia|]. split; [exists 0; reflexivity|exact I].
    - exists [0; 0]. split; [|cbn; lia]. cbn. split; [lia|]. split; [exists 0; lia|]. split; [lia|]. split; [exists 1; reflexivity|exact I]. }
  repeat split; vm_compute; reflexivity.
Qed.
Print Assumptions C132_across_the_boundary_refuted.
