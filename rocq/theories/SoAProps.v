(** SoAGrid: reading back what was written (C107), transferring regions (C108),
    updating (C109), and what doesn't work (C110-C116). *)
From Coq Require Import Permutation.
From Verif Require Import Base ListFacts RegionSpec RegionModel RegionRep RegionIterModel RegionStreaks RegionOpsModel RegionOps HaloSpec
  CoordModel CoordSpec CoordFacts TopologyFacts PatchModel ConfigFacts GridModel GridSpec GridFacts DisplacedFacts GridReach SellFacts
  StencilModel StencilSpec StencilProps UpdateModel UpdateSpec UpdateFacts UpdateProps SoAModel SoASpec SoAFacts SoARep SoATransfer SoAUpdate SoAReach.

(** ** C107: grids keep what is written to them *)

(** Either LibFlatArray doesn't offer arrays of sufficient size, then the
    constructor throws. Or all accesses behave as for other grids. *)
Theorem C107_soa_reads_back : forall C t correct R sizes (junk : Z -> C) b topo dflt edge ops,
  sizes_ok sizes -> soa_setup t correct R b topo -> Forall (access_ok (soa_coord t correct b topo) (in_box b)) ops ->
  let f := contents (ddenotes t correct b topo) dflt edge ops in
  (sizes (soa_dims t R (b_dim b)) = None /\ sg_make t R sizes junk b dflt edge topo = None) \/
  exists g0 g, sg_make t R sizes junk b dflt edge topo = Some g0 /\ sg_ops t correct sizes g0 ops = Some g /\ sg_box g = b /\ sg_edge g = f None /\
    (forall c, soa_coord t correct b topo c -> sg_get t correct sizes g c = Some (f (ddenotes t correct b topo c))) /\
    (forall s, s_x s <= s_e s -> Forall (in_box b) (streak_coords s) ->
       sg_get_streak t correct sizes g s = Some (map (fun c => f (ddenotes t correct b topo c)) (streak_coords s))).
Proof.
  intros C t correct R sizes junk b topo dflt edge ops Hsz ((Hne & Ho & Hld & Hp & Hle) & H3 & HR) Hops f.
  destruct (srep_make t R sizes H3 Hne HR Hsz b topo Hld Ho Hp junk dflt edge) as [(g0 & E0 & R0)|H]; [|now left]. right.
  destruct (srep_ops t R sizes H3 Hne HR Hsz b topo Hld Ho Hp correct Hle ops g0 _ R0 Hops) as (g & E & Rg). exists g0, g. split; [exact E0|]. split; [exact E|].
  split; [apply Rg|]. split; [apply Rg|]. split.
  - intros c Hc. now apply (srep_get t R sizes H3 Hne HR Hsz b topo Hld Ho Hp correct Hle).
  - intros s Hx Hs. now apply (srep_get_streak t R sizes H3 Hne HR Hsz b topo Hld Ho Hp correct Hle).
Qed.
Print Assumptions C107_soa_reads_back.

(** The same, starting with any state which can be reached. *)
Theorem C107_writes_later : forall C M t correct st sizes (junk : Z -> C) K (assemble : list M -> C) b topo g ops,
  sizes_ok sizes -> soa_setup t correct (Z.of_nat (st_rad st)) b topo -> sg_reach t correct st sizes junk K assemble b topo g ->
  Forall (access_ok (soa_coord t correct b topo) (in_box b)) ops ->
  exists g', sg_ops t correct sizes g ops = Some g' /\
    forall c, soa_coord t correct b topo c ->
      sg_get t correct sizes g' c =
        last_written (soa_at t correct sizes g) (map (fun w => (fst w, Some (snd w))) (flat_map (writes (ddenotes t correct b topo)) ops)) (ddenotes t correct b topo c).
Proof.
  intros C M t correct st sizes junk K assemble b topo g ops Hsz Hs Hr Hops. destruct (reach_rep t correct st sizes junk K assemble Hsz b topo g Hs Hr) as (f & Rf).
  destruct Hs as ((Hne & Ho & Hld & Hp & Hle) & H3 & HR).
  destruct (srep_ops t (Z.of_nat (st_rad st)) sizes H3 Hne HR Hsz b topo Hld Ho Hp correct Hle ops g _ Rf Hops) as (g' & E & Rg). exists g'. split; [exact E|]. intros c Hc.
  rewrite (srep_get t (Z.of_nat (st_rad st)) sizes H3 Hne HR Hsz b topo Hld Ho Hp correct Hle _ _ c Rg Hc).
  assert (Hi : soa_at t correct sizes g (ddenotes t correct b topo c) = Some (f (ddenotes t correct b topo c))).
  { pose proof Rf as (B1 & _ & _ & _ & B5 & _). destruct (sg_coord_cases t (Z.of_nat (st_rad st)) sizes H3 Hne HR Hsz b topo Hld Ho Hp correct Hle g f c Rf Hc) as [[_ En]|(_ & Es & Hi)].
    - rewrite En. cbn. now rewrite B5.
    - rewrite Es. cbn [soa_at]. rewrite B1. set (q := sg_coord t correct g c) in *. pose proof (in_grid_length _ _ Hi) as Hlq.
      assert (Hq : in_box b (zadd q (b_origin b))).
      { unfold in_box. apply in_box_zsub; [lia|]. rewrite rel_assoc by lia. assert (Ez : zsub (b_origin b) (b_origin b) = repeat 0 (length t)) by (rewrite <- Ho; generalize (b_origin b) as l; induction l as [|y l IH]; [reflexivity|cbn -[Z.sub]; rewrite IH; f_equal; lia]).
        split; [rewrite zadd_length' by lia; lia|]. rewrite Ez, zadd_zero by lia. exact Hi. }
      destruct (box_ddenotes t (Z.of_nat (st_rad st)) sizes H3 Hne HR Hsz b topo Hld Ho Hp correct Hle _ Hq) as [Q1 Q2]. rewrite (srep_get t (Z.of_nat (st_rad st)) sizes H3 Hne HR Hsz b topo Hld Ho Hp correct Hle _ _ _ Rf Q1), Q2.
      do 3 f_equal. rewrite rel_assoc by lia. assert (Ez : zsub (b_origin b) (b_origin b) = repeat 0 (length t)) by (rewrite <- Ho; generalize (b_origin b) as l; induction l as [|y l IH]; [reflexivity|cbn -[Z.sub]; rewrite IH; f_equal; lia]).
      rewrite Ez. apply zadd_zero. lia. }
  clear Rg E Hops. unfold last_written. rewrite Hi. generalize (f (ddenotes t correct b topo c)) as v. induction (flat_map (writes (ddenotes t correct b topo)) ops) as [|[p u] l IH]; intros v; [reflexivity|].
  cbn [map fold_left fst snd]. destruct (place_dec p (ddenotes t correct b topo c)); apply IH.
Qed.
Print Assumptions C107_writes_later.

(** Resizing keeps the edge cell. Moving a grid keeps all cells. *)
Theorem C107_resize : forall C M t correct st sizes (junk : Z -> C) K (assemble : list M -> C) b0 b topo g,
  sizes_ok sizes -> soa_setup t correct (Z.of_nat (st_rad st)) b0 topo -> soa_setup t correct (Z.of_nat (st_rad st)) b topo ->
  sg_reach t correct st sizes junk K assemble b0 topo g ->
  (sizes (soa_dims t (Z.of_nat (st_rad st)) (b_dim b)) = None /\ sg_resize sizes junk g b = None) \/
  exists g', sg_resize sizes junk g b = Some g' /\ sg_box g' = b /\ sg_edge g' = sg_edge g /\
    (forall c, soa_coord t correct b topo c -> ddenotes t correct b topo c = None -> sg_get t correct sizes g' c = Some (sg_edge g)) /\
    (b_dim b = b_dim b0 -> forall c c0, in_box b c -> in_box b0 c0 -> zsub c (b_origin b) = zsub c0 (b_origin b0) ->
       sg_get t correct sizes g' c = sg_get t correct sizes g c0).
Proof.
  intros C M t correct st sizes junk K assemble b0 b topo g Hsz Hs0 Hs Hr. destruct (reach_rep t correct st sizes junk K assemble Hsz b0 topo g Hs0 Hr) as (f & Rf).
  destruct Hs0 as ((_ & Ho0 & Hld0 & Hp0 & Hle0) & _). destruct Hs as ((Hne & Ho & Hld & Hp & Hle) & H3 & HR).
  destruct (srep_resize t (Z.of_nat (st_rad st)) sizes H3 Hne HR Hsz junk b0 b topo g f Hld0 Hp0 Hld Ho Hp Rf) as [(g' & f' & E & R' & En & Eq)|H]; [|now left]. right. exists g'.
  assert (Ee : sg_edge g' = sg_edge g) by (pose proof R' as (_ & _ & _ & _ & A & _); pose proof Rf as (_ & _ & _ & _ & B & _); congruence).
  split; [exact E|]. split; [apply R'|]. split; [exact Ee|]. split.
  - intros c Hc Hd. rewrite (srep_get t (Z.of_nat (st_rad st)) sizes H3 Hne HR Hsz b topo Hld Ho Hp correct Hle _ _ _ R' Hc), Hd. rewrite <- Ee. symmetry. f_equal. apply R'.
  - intros Hd c c0 Hc Hc0 Ec. destruct (box_ddenotes t (Z.of_nat (st_rad st)) sizes H3 Hne HR Hsz b topo Hld Ho Hp correct Hle _ Hc) as [Q1 Q2].
    destruct (box_ddenotes t (Z.of_nat (st_rad st)) sizes H3 Hne HR Hsz b0 topo Hld0 Ho0 Hp0 correct Hle0 _ Hc0) as [P1 P2].
    rewrite (srep_get t (Z.of_nat (st_rad st)) sizes H3 Hne HR Hsz b topo Hld Ho Hp correct Hle _ _ _ R' Q1), (srep_get t (Z.of_nat (st_rad st)) sizes H3 Hne HR Hsz b0 topo Hld0 Ho0 Hp0 correct Hle0 _ _ _ Rf P1), P2, <- Ec, Q2.
    f_equal. apply Eq; [exact Hd|]. unfold in_box in Hc. apply in_box_zsub in Hc; [apply Hc|lia].
Qed.
Print Assumptions C107_resize.

(** The sizes which LibFlatArray offers by default, and those which users
    define by means of its macros, are never too small. Those by default suffice
    for 1032 cells per axis in 3D (including padding), for 32800 in 2D and
    1073741856 in 1D. *)
Theorem C107_sizes : sizes_ok default_sizes /\ (forall xs ys zs, sizes_ok (custom_sizes xs ys zs)) /\
  (forall l, sizes_ok (uniform_1d l) /\ sizes_ok (uniform_2d l) /\ sizes_ok (uniform_3d l)) /\
  forall z y x, (1 < z <= 1032 /\ 1 < y <= 1032 /\ x <= 1032) \/ (z = 1 /\ 1 < y <= 32800 /\ x <= 32800) \/ (z = 1 /\ y = 1 /\ x <= 1073741856) ->
    default_sizes [z; y; x] <> None.
Proof.
  split; [exact default_sizes_ok|]. split; [exact custom_sizes_ok|]. split; [intros l; split; [apply uniform_1d_ok|split; [apply uniform_2d_ok|apply uniform_3d_ok]]|].
  assert (Hfit : forall l n m, In m l -> n <= m -> first_fit l n <> None).
  { intros l n m Hm Hn E. unfold first_fit in E. apply (find_none _ _ E) in Hm. lia. }
  intros z y x [(H1 & H2 & H3)|[(-> & H2 & H3)|(-> & -> & H3)]]; unfold default_sizes.
  - replace (1 <? y) with true by lia. replace (1 <? z) with true by lia. cbn [andb uniform_3d]. pose proof (Hfit sizes_3d (Z.max x (Z.max y z)) 1032 ltac:(cbn; tauto) ltac:(lia)). now destruct (first_fit _ _).
  - replace (1 <? y) with true by lia. cbn -[first_fit sizes_2d Z.max]. pose proof (Hfit sizes_2d (Z.max x y) 32800 ltac:(cbn; tauto) ltac:(lia)). now destruct (first_fit _ _).
  - cbn -[first_fit sizes_1d]. pose proof (Hfit sizes_1d x 1073741856 ltac:(cbn; tauto) ltac:(lia)). now destruct (first_fit _ _).
Qed.
Print Assumptions C107_sizes.

(** A part of a space of 10 x 10 cells which wraps along X. *)
Example C107_example :
  let t := [false; true] in let b := mkBox [7; 8] [3; 4] in
  let ops := [GSet [8; 9] 1; GSetStreak (mkStreak [9] 8 12) [2; 3; 4; 5]; GSet [7; 10] 6; GSet [20; 10] 7]%Z in
  soa_setup t true 1 b [10; 10] /\ Forall (access_ok (soa_coord t true b [10; 10]) (in_box b)) ops /\
  exists g0 g, sg_make t 1 default_sizes (fun _ => 99) b 0 (-1) [10; 10] = Some g0 /\ sg_ops t true default_sizes g0 ops = Some g /\
    sg_get t true default_sizes g [9; 1] = Some 5 /\ sg_get t true default_sizes g [7; 10] = Some 6 /\ sg_get t true default_sizes g [7; 0] = Some 6 /\
    sg_get t true default_sizes g [-5; 9] = Some 7 /\ sg_get_streak t true default_sizes g (mkStreak [8] 8 12) = Some [0; 1; 0; 0].
Proof.
  intros t b ops. split; [repeat split; cbn; try lia; try discriminate; repeat constructor; lia|]. split.
  - repeat apply Forall_cons; try apply Forall_nil; cbn [access_ok soa_coord reachable_coord].
    + split; [reflexivity|]. split; [cbn; lia|]. intros c' H. vm_compute in H. injection H as <-. cbn; lia.
    + split; [cbn; lia|]. split; [|reflexivity]. cbn. repeat constructor; cbn; lia.
    + split; [reflexivity|]. split; [cbn; lia|]. intros c' H. vm_compute in H. injection H as <-. cbn; lia.
    + split; [reflexivity|]. split; [cbn; lia|]. intros c' H. vm_compute in H. discriminate.
  - eexists. eexists. split; [vm_compute; reflexivity|]. split; [vm_compute; reflexivity|]. repeat split; vm_compute; reflexivity.
Qed.

(** ** C108: transferring regions *)

Lemma forall2_map_r {A B} (P : A -> B -> Prop) (h : A -> B) l : (forall a, In a l -> P a (h a)) -> Forall2 P l (map h l).
Proof. induction l as [|a l IH]; intros H; [constructor|]. cbn [map]. constructor; [apply H; now left|]. apply IH. intros; apply H; now right. Qed.

(** The buffer holds one member after the other, each for all cells of the
    region. Cells which leave one grid arrive at the other, no other ones
    change. *)
Theorem C108_region_transfer : forall C M n K part (assemble : list M -> C)
    t1 k1 st1 sizes1 junk1 b1 topo1 src t2 k2 st2 sizes2 junk2 b2 topo2 dst r off1 off2,
  (forall c, assemble (map (fun j => part j c) (seq 0 K)) = c) -> length t1 = S n -> length t2 = S n ->
  sizes_ok sizes1 -> soa_setup t1 k1 (Z.of_nat (st_rad st1)) b1 topo1 -> sg_reach t1 k1 st1 sizes1 junk1 K assemble b1 topo1 src ->
  sizes_ok sizes2 -> soa_setup t2 k2 (Z.of_nat (st_rad st2)) b2 topo2 -> sg_reach t2 k2 st2 sizes2 junk2 K assemble b2 topo2 dst ->
  rvalid n r -> length off1 = S n -> length off2 = S n ->
  (forall c, inr n r c -> in_box b1 (zadd c off1)) -> (forall c, inr n r c -> in_box b2 (zadd c off2)) ->
  exists cs vs dst', region_coords r = Some cs /\ Forall2 (fun c v => sg_get t1 k1 sizes1 src (zadd c off1) = Some v) cs vs /\
    sg_save sizes1 K part src r off1 = Some (flat_map (fun j => map (part j) vs) (seq 0 K)) /\
    sg_load sizes2 K assemble dst r off2 (flat_map (fun j => map (part j) vs) (seq 0 K)) = Some dst' /\
    (forall c, inr n r c -> sg_get t2 k2 sizes2 dst' (zadd c off2) = sg_get t1 k1 sizes1 src (zadd c off1)) /\
    (forall c, soa_coord t2 k2 b2 topo2 c -> (forall c0, inr n r c0 -> ddenotes t2 k2 b2 topo2 (zadd c0 off2) <> ddenotes t2 k2 b2 topo2 c) ->
       sg_get t2 k2 sizes2 dst' c = sg_get t2 k2 sizes2 dst c) /\
    sg_edge dst' = sg_edge dst.
Proof.
  intros C M n K part assemble t1 k1 st1 sizes1 junk1 b1 topo1 src t2 k2 st2 sizes2 junk2 b2 topo2 dst r off1 off2 Hpa Ht1 Ht2 Hsz1 Hs1 Hr1 Hsz2 Hs2 Hr2 Hv Lo1 Lo2 Hi1 Hi2.
  destruct (reach_rep t1 k1 st1 sizes1 junk1 K assemble Hsz1 b1 topo1 src Hs1 Hr1) as (f1 & F1). destruct (reach_rep t2 k2 st2 sizes2 junk2 K assemble Hsz2 b2 topo2 dst Hs2 Hr2) as (f2 & F2).
  destruct Hs1 as ((Hne1 & Ho1 & Hld1 & Hp1 & Hle1) & H31 & HR1). destruct Hs2 as ((Hne2 & Ho2 & Hld2 & Hp2 & Hle2) & H32 & HR2).
  destruct (region_coords_nodup n r Hv) as (cs & Ecs & Hcs & Hnd).
  destruct (srep_save t1 _ sizes1 H31 Hne1 HR1 Hsz1 b1 topo1 Hld1 Ho1 Hp1 K part src f1 n r off1 F1 Ht1 Hv ltac:(lia) Hi1) as (cs' & Ecs' & Esave).
  assert (cs' = cs) as -> by congruence. set (vs := map (fun c => f1 (Some (rel b1 off1 c))) cs) in *.
  assert (Hget1 : forall c, inr n r c -> sg_get t1 k1 sizes1 src (zadd c off1) = Some (f1 (Some (rel b1 off1 c)))).
  { intros c Hc. destruct (box_ddenotes t1 _ sizes1 H31 Hne1 HR1 Hsz1 b1 topo1 Hld1 Ho1 Hp1 k1 Hle1 _ (Hi1 c Hc)) as [Q1 Q2].
    rewrite (srep_get t1 _ sizes1 H31 Hne1 HR1 Hsz1 b1 topo1 Hld1 Ho1 Hp1 k1 Hle1 _ _ _ F1 Q1), Q2. reflexivity. }
  assert (Hlen : length (flat_map (fun j => map (part j) vs) (seq 0 K)) = (K * length cs)%nat).
  { assert (H : forall l, length (flat_map (fun j => map (part j) vs) l) = (length l * length cs)%nat) by (induction l as [|j l IH]; [reflexivity|cbn [flat_map length]; rewrite app_length, map_length, IH; unfold vs; rewrite map_length; lia]).
    now rewrite H, seq_length. }
  pose proof (srep_load t2 _ sizes2 H32 Hne2 HR2 Hsz2 b2 topo2 Hld2 Ho2 Hp2 K assemble dst f2 n r off2 (flat_map (fun j => map (part j) vs) (seq 0 K)) cs F2 Ht2 Hv ltac:(lia) Hi2 Ecs) as HL.
  rewrite Hlen, Nat.ltb_irrefl in HL. destruct HL as (vs' & dst' & Evs & Eload & R').
  assert (vs' = vs) as ->.
  { assert (E' : omap (unpack K assemble (flat_map (fun j => map (part j) vs) (seq 0 K)) (Z.of_nat (length cs))) (zrange 0 (Z.of_nat (length cs))) = Some vs); [|congruence].
    apply omap_spec. assert (Hlv : length vs = length cs) by (unfold vs; now rewrite map_length). clear - Hpa Hlv.
    assert (Hun : forall i v, vec_get vs i = Some v -> unpack K assemble (flat_map (fun j => map (part j) vs) (seq 0 K)) (Z.of_nat (length cs)) i = Some v).
    { intros i v Hi. unfold unpack. assert (E : omap (fun j => vec_get (flat_map (fun j => map (part j) vs) (seq 0 K)) (Z.of_nat j * Z.of_nat (length cs) + i)) (seq 0 K) = Some (map (fun j => part j v) (seq 0 K))).
      { apply omap_spec. apply forall2_map_r. intros j Hj. apply in_seq in Hj. rewrite <- Hlv. pose proof (buffer_at part vs K 0 j i v ltac:(lia) Hi) as Hb. now rewrite Nat.sub_0_r in Hb. }
      rewrite E. cbn [option_map]. now rewrite Hpa. }
    rewrite <- Hlv in *. clear Hlv. set (U := unpack K assemble _ _) in *. clearbody U. 
    assert (H : forall l pre, vs = pre ++ l -> Forall2 (fun i v => U i = Some v) (zrange (Z.of_nat (length pre)) (Z.of_nat (length vs))) l).
    { induction l as [|v l IH]; intros pre E.
      - rewrite zrange_nil by (rewrite E, app_length; cbn; lia). constructor.
      - rewrite zrange_cons by (rewrite E, app_length; cbn; lia). constructor.
        + apply Hun. unfold vec_get. replace (Z.of_nat (length pre) <? 0) with false by lia. rewrite E, Nat2Z.id, nth_error_app2, Nat.sub_diag by lia. reflexivity.
        + specialize (IH (pre ++ [v])). rewrite app_length in IH. cbn [length] in IH. replace (Z.of_nat (length pre) + 1) with (Z.of_nat (length pre + 1)) by lia. apply IH. now rewrite <- app_assoc. }
    exact (H vs [] eq_refl). }
  exists cs, vs, dst'. split; [exact Ecs|]. split; [|split; [exact Esave|split; [exact Eload|]]].
  { unfold vs. apply forall2_map_r. intros c Hc. apply Hget1. now apply Hcs. }
  assert (Hbox2 : forall c, inr n r c -> soa_coord t2 k2 b2 topo2 (zadd c off2) /\ ddenotes t2 k2 b2 topo2 (zadd c off2) = Some (rel b2 off2 c)).
  { intros c Hc. exact (box_ddenotes t2 _ sizes2 H32 Hne2 HR2 Hsz2 b2 topo2 Hld2 Ho2 Hp2 k2 Hle2 _ (Hi2 c Hc)). }
  destruct (last_written_map (fun c => Some (rel b2 off2 c)) (fun c => f1 (Some (rel b1 off1 c))) f2 cs Hnd) as [Hat Hother].
  { intros a c Ha Hc E. apply Hcs in Ha. apply Hcs in Hc. destruct Ha as [La _]. destruct Hc as [Lc _]. assert (E' : rel b2 off2 a = rel b2 off2 c) by congruence. unfold rel in E'.
    apply sub_inj in E'; [|rewrite zadd_length' by lia; lia|rewrite !zadd_length' by lia; lia]. apply zadd_inj in E'; auto; lia. }
  split; [|split].
  - intros c Hc. destruct (Hbox2 c Hc) as [Q1 Q2]. rewrite (srep_get t2 _ sizes2 H32 Hne2 HR2 Hsz2 b2 topo2 Hld2 Ho2 Hp2 k2 Hle2 _ _ _ R' Q1), Q2, (Hget1 c Hc). f_equal. apply (Hat c). now apply Hcs.
  - intros c Hc Hno. rewrite (srep_get t2 _ sizes2 H32 Hne2 HR2 Hsz2 b2 topo2 Hld2 Ho2 Hp2 k2 Hle2 _ _ _ R' Hc), (srep_get t2 _ sizes2 H32 Hne2 HR2 Hsz2 b2 topo2 Hld2 Ho2 Hp2 k2 Hle2 _ _ _ F2 Hc).
    f_equal. apply Hother. intros c0 Hc0. apply Hcs in Hc0. destruct (Hbox2 c0 Hc0) as [_ Q2]. rewrite <- Q2. now apply Hno.
  - pose proof R' as (_ & _ & _ & _ & A & _). pose proof F2 as (_ & _ & _ & _ & B & _). rewrite A, B. apply Hother. intros; discriminate.
Qed.
Print Assumptions C108_region_transfer.

(** Buffers which are too small are rejected. *)
Theorem C108_short_buffer : forall C M n K (assemble : list M -> C) t correct st sizes junk b topo dst r off buf cs,
  length t = S n -> sizes_ok sizes -> soa_setup t correct (Z.of_nat (st_rad st)) b topo -> sg_reach t correct st sizes junk K assemble b topo dst ->
  rvalid n r -> length off = S n -> (forall c, inr n r c -> in_box b (zadd c off)) -> region_coords r = Some cs ->
  (sg_load sizes K assemble dst r off buf = None <-> (length buf < K * length cs)%nat).
Proof.
  intros C M n K assemble t correct st sizes junk b topo dst r off buf cs Ht Hsz Hs Hr Hv Lo Hi Ecs. destruct (reach_rep t correct st sizes junk K assemble Hsz b topo dst Hs Hr) as (f & F).
  destruct Hs as ((Hne & Ho & Hld & Hp & Hle) & H3 & HR).
  pose proof (srep_load t _ sizes H3 Hne HR Hsz b topo Hld Ho Hp K assemble dst f n r off buf cs F Ht Hv ltac:(lia) Hi Ecs) as HL.
  destruct (Nat.ltb_spec (length buf) (K * length cs)) as [H|H].
  - split; auto.
  - destruct HL as (vs & g' & _ & E & _). rewrite E. split; [discriminate|lia].
Qed.
Print Assumptions C108_short_buffer.

(** A column of a 2D torus moves to another grid which doesn't wrap. *)
Example C108_example :
  let r := insert_all (reg_empty 2) [mkStreak [0] 3 4; mkStreak [1] 3 4; mkStreak [2] 1 4] in
  let b1 := mkBox [0; 1] [3; 3] in let b2 := mkBox [5; 5] [4; 4] in
  let part j (c : Z * Z) := match j with O => fst c | _ => snd c end in let assemble l := (nth 0 l 0, nth 1 l 0) in
  (forall c, assemble (map (fun j => part j c) (seq 0 2)) = c) /\ rvalid 1 r /\
  soa_setup [true; true] false 1 b1 [0; 0] /\ soa_setup [false; false] false 1 b2 [0; 0] /\
  (forall c, inr 1 r c -> in_box b1 (zadd c [0; 0]) /\ in_box b2 (zadd c [5; 5])) /\
  exists src dst buf dst',
    obind (sg_make [true; true] 1 default_sizes (fun _ => (99, 99)) b1 (0, 0) (-1, -1) [0; 0]) (fun g =>
      sg_ops [true; true] false default_sizes g [GSetStreak (mkStreak [0] 1 4) [(1, 2); (3, 4); (5, 6)]; GSet [2; 3] (7, 8)]) = Some src /\
    sg_make [false; false] 1 default_sizes (fun _ => (99, 99)) b2 (10, 20) (-1, -1) [0; 0] = Some dst /\
    sg_save default_sizes 2 part src r [0; 0] = Some buf /\ buf = [5; 0; 0; 0; 7; 6; 0; 0; 0; 8] /\
    sg_load default_sizes 2 assemble dst r [5; 5] buf = Some dst' /\
    sg_get [false; false] false default_sizes dst' [5; 8] = Some (5, 6) /\ sg_get [false; false] false default_sizes dst' [7; 8] = Some (7, 8) /\
    sg_get [false; false] false default_sizes dst' [5; 7] = Some (10, 20) /\
    sg_load default_sizes 2 assemble dst r [5; 5] (tl buf) = None.
Proof.
  intros r b1 b2 part assemble. split; [intros [x y]; reflexivity|].
  destruct (insert_all_valid 1 [mkStreak [0] 3 4; mkStreak [1] 3 4; mkStreak [2] 1 4] (reg_empty 2) (rvalid_empty 1)) as [V Hi]; [repeat constructor|].
  split; [exact V|]. split; [repeat split; cbn; try lia; try discriminate; repeat constructor; lia|]. split; [repeat split; cbn; try lia; try discriminate; repeat constructor; lia|]. split.
  { intros c [Hc H]. apply Hi in H; auto. destruct H as [H|(s & Hs & x & -> & Hx)]; [exfalso; eapply (rin_empty 1); eauto|].
    cbn [In] in Hs. destruct Hs as [<-|[<-|[<-|[]]]]; clear - Hx; cbn in Hx |- *; lia. }
  do 4 eexists. split; [vm_compute; reflexivity|]. split; [vm_compute; reflexivity|]. split; [vm_compute; reflexivity|]. split; [reflexivity|]. split; [vm_compute; reflexivity|].
  repeat split; vm_compute; reflexivity.
Qed.

(** ** C109: updates *)

Lemma denotes_inside t : forall dim c r, length t = length dim -> allpos dim -> denotes t dim c = Some r -> in_grid dim r.
Proof.
  induction t as [|w t IH]; intros [|n dim] [|x c] r Hl Hp E; try discriminate; [injection E as <-; exact I|].
  cbn [denotes] in E. unfold allpos in Hp. apply Forall_cons_iff' in Hp. destruct Hp as [Hp0 Hp]. destruct (denotes t dim c) as [r'|] eqn:Er; [|discriminate].
  assert (Hr : in_grid dim r') by (apply (IH dim c); auto; cbn in Hl; lia).
  destruct w; [|destruct (Z.leb_spec 0 x), (Z.ltb_spec x n); cbn [andb] in E; try discriminate];
    match type of E with Some ?l = _ => assert (r = l) as -> by congruence end; apply in_grid_cons; (split; [|exact Hr]); [apply Z.mod_pos_bound; exact Hp0|auto].
Qed.

(** Whatever the order in which the streaks (or parts of them) are updated: the
    cell at [c + toff] receives the update of the neighborhood of [c + soff], for
    each [c] of the region, and no other cell changes. Grids of different
    dimensions are rejected. *)
Theorem C109_soa_updates : forall C M t correct st sizes (junk : Z -> C) K (assemble : list M -> C) b topo g bN topoN gN acc upd n r soff toff ss,
  sizes_ok sizes -> soa_setup t correct (Z.of_nat (st_rad st)) b topo -> soa_setup t correct (Z.of_nat (st_rad st)) bN topoN ->
  sg_reach t correct st sizes junk K assemble b topo g -> sg_reach t correct st sizes junk K assemble bN topoN gN ->
  length t = S n -> length soff = S n -> length toff = S n -> rvalid n r -> work_order r ss ->
  update_ok t correct st acc b topo bN soff toff (inr n r) ->
  (b_dim b <> b_dim bN /\ sg_update t sizes acc upd false g gN soff toff ss = None) \/
  exists g', sg_update t sizes acc upd false g gN soff toff ss = Some g' /\ sg_edge g' = sg_edge gN /\
    (forall c, inr n r c -> exists vs v,
      Forall2 (fun c' v' => soa_at t correct sizes g (ddenotes t correct b topo c') = Some v') (seen t acc (zadd c soff)) vs /\
      sg_get t correct sizes gN (zadd c toff) = Some v /\ sg_get t correct sizes g' (zadd c toff) = Some (upd vs v)) /\
    (forall c, soa_coord t correct bN topoN c -> (forall c', inr n r c' -> ddenotes t correct bN topoN c <> ddenotes t correct bN topoN (zadd c' toff)) ->
      sg_get t correct sizes g' c = sg_get t correct sizes gN c).
Proof.
  intros C M t correct st sizes junk K assemble b topo g bN topoN gN acc upd n r soff toff ss Hsz Hs HsN Hr HrN Hn Lso Lto Hrv Hw Hok.
  destruct (reach_rep t correct st sizes junk K assemble Hsz b topo g Hs Hr) as (f & Rf). destruct (reach_rep t correct st sizes junk K assemble Hsz bN topoN gN HsN HrN) as (fN & RN).
  destruct Hs as (Hs & H3 & HR). destruct HsN as (HsN & _). pose proof Hs as (Hne & Ho & Hld & Hp & Hle). pose proof HsN as (_ & HoN & HldN & HpN & HleN).
  destruct (CoordModel.coord_eqb (sg_act g) (sg_act gN)) eqn:Ee.
  2:{ left. unfold sg_update. rewrite Ee. split; [|reflexivity]. intros Hd. pose proof Rf as (_ & _ & _ & A1 & _). pose proof RN as (_ & _ & _ & A2 & _). rewrite A1, A2, Hd in Ee.
      assert (true = false) by (rewrite <- Ee; symmetry; now apply coord_eqb_eq). discriminate. }
  right. apply coord_eqb_eq in Ee. pose proof (same_dims t st sizes _ _ _ _ _ _ _ _ Rf RN Hld HldN Ee) as Hd. destruct Hok as (K1 & K2 & K3 & K4 & K5).
  destruct (work_order_spec n r ss Hrv Hw) as (W1 & Hnd & Hin).
  destruct (update_spec t st sizes acc upd H3 Hne Hsz K1 K2 K3 b topo g f Hld Ho Hp Rf bN HoN Hd soff toff ltac:(lia) ltac:(lia) K4 topoN gN fN ss RN) as (g' & E & R').
  { eapply Forall_impl; [|exact W1]. cbn. intros s [S1 S2]. split; [lia|exact S2]. }
  { apply Forall_forall. intros c Hc. apply Hin in Hc. destruct (K5 c Hc) as (J1 & J2 & _). auto. }
  set (op := fun c => (Some (fst (cell_op t acc upd b f bN soff toff c)), snd (cell_op t acc upd b f bN soff toff c))) in R'.
  assert (Hplaces : NoDup (map fst (map op (flat_map streak_coords ss)))).
  { rewrite map_map. apply nodup_map_in; [exact Hnd|]. intros a c Ha Hc Eq. apply Hin in Ha. apply Hin in Hc. destruct Ha as [La _]. destruct Hc as [Lc _].
    cbn [op fst cell_op] in Eq. assert (E' : rel bN toff a = rel bN toff c) by congruence. unfold rel in E'.
    apply sub_inj in E'; [|rewrite zadd_length' by lia; lia|rewrite !zadd_length' by lia; lia]. apply zadd_inj in E'; auto; lia. }
  assert (HboxN : forall c, inr n r c -> soa_coord t correct bN topoN (zadd c toff) /\ ddenotes t correct bN topoN (zadd c toff) = Some (rel bN toff c)).
  { intros c Hc. destruct (K5 c Hc) as (_ & J2 & _). exact (box_ddenotes t _ sizes H3 Hne HR Hsz bN topoN HldN HoN HpN correct HleN _ J2). }
  exists g'. split; [exact E|]. split; [|split].
  - pose proof R' as (_ & _ & _ & _ & A & _). pose proof RN as (_ & _ & _ & _ & B & _). rewrite A, B. apply modify_other. rewrite map_map. intros Hi. apply in_map_iff in Hi. destruct Hi as (c & E' & _). discriminate.
  - intros c Hc. destruct (HboxN c Hc) as [Q1 Q2]. destruct (K5 c Hc) as (J1 & _ & J3).
    exists (vals t acc b f (rel b soff c)), (fN (Some (rel bN toff c))). split; [|split].
    + pose proof (seen_places t correct st acc b topo (zadd c soff) H3 Hs K1 K2 K3 J1 J3) as Hseen. unfold rel in *. unfold vals.
      rewrite <- (map_map (denotes t (b_dim b)) f), Hseen, map_map. apply forall2_map_r. intros c' Hc'.
      assert (Hp' : forall p, p = ddenotes t correct b topo c' -> soa_at t correct sizes g p = Some (f p)); [|now apply Hp'].
      intros p Ep. pose proof Rf as (B1 & _ & _ & _ & B5 & _). destruct p as [q|]; [|cbn; now rewrite B5]. cbn [soa_at]. rewrite B1.
      assert (Hq : in_grid (b_dim b) q).
      { assert (Hall : In (Some q) (map (denotes t (b_dim b)) (seen t acc (zsub (zadd c soff) (b_origin b))))) by (rewrite Hseen; rewrite Ep; apply in_map; exact Hc').
        apply in_map_iff in Hall. destruct Hall as (d & Ed & _). apply (denotes_inside t (b_dim b) d q); auto. }
      pose proof (in_grid_length _ _ Hq) as Hlq.
      assert (Ez : zsub (b_origin b) (b_origin b) = repeat 0 (length t)) by (rewrite <- Ho; generalize (b_origin b) as l; induction l as [|y l IH]; [reflexivity|cbn -[Z.sub]; rewrite IH; f_equal; lia]).
      assert (Eq : zsub (zadd q (b_origin b)) (b_origin b) = q) by (rewrite rel_assoc by lia; rewrite Ez; apply zadd_zero; lia).
      assert (Hb : in_box b (zadd q (b_origin b))) by (unfold in_box; apply in_box_zsub; [lia|]; rewrite Eq; split; [rewrite zadd_length' by lia; lia|exact Hq]).
      destruct (box_ddenotes t _ sizes H3 Hne HR Hsz b topo Hld Ho Hp correct Hle _ Hb) as [P1 P2]. rewrite (srep_get t _ sizes H3 Hne HR Hsz b topo Hld Ho Hp correct Hle _ _ _ Rf P1), P2, Eq. reflexivity.
    + rewrite (srep_get t _ sizes H3 Hne HR Hsz bN topoN HldN HoN HpN correct HleN _ _ _ RN Q1), Q2. reflexivity.
    + rewrite (srep_get t _ sizes H3 Hne HR Hsz bN topoN HldN HoN HpN correct HleN _ _ _ R' Q1), Q2. f_equal.
      apply (modify_at (map op (flat_map streak_coords ss)) fN (Some (rel bN toff c)) (snd (op c)) Hplaces). apply in_map_iff. exists c. split; [reflexivity|]. now apply Hin.
  - intros c Hc Hno. rewrite (srep_get t _ sizes H3 Hne HR Hsz bN topoN HldN HoN HpN correct HleN _ _ _ R' Hc), (srep_get t _ sizes H3 Hne HR Hsz bN topoN HldN HoN HpN correct HleN _ _ _ RN Hc).
    f_equal. apply modify_other. rewrite map_map. intros Hi. apply in_map_iff in Hi. destruct Hi as (c' & E' & Hc'). apply Hin in Hc'. destruct (HboxN c' Hc') as [_ Q2]. apply (Hno c' Hc'). rewrite Q2. symmetry. exact E'.
Qed.
Print Assumptions C109_soa_updates.

(** A space of 4 x 3 cells which wraps along both axes. The target is displaced
    by one row, and the updates take place in another order, piecewise. *)
Example C109_example :
  let t := [true; true] in let b := mkBox [0; 2] [3; 4] in let bN := mkBox [1; 2] [3; 4] in
  let r := insert_all (reg_empty 2) [mkStreak [0] 2 6; mkStreak [2] 3 5] in
  let acc := [FC (-1) 0 0; FC 1 0 0; FC 0 (-1) 0; FC 0 0 0] in let upd vs (v : Z) := 10000 * v + fold_left (fun a x => 10 * a + x) vs 0 in
  let st := mkStencil VonNeumann 2 1 in let ss := [mkStreak [2] 3 5; mkStreak [0] 2 3; mkStreak [0] 3 6] in
  rvalid 1 r /\ soa_setup t false 1 b [0; 0] /\ soa_setup t false 1 bN [0; 0] /\ work_order r ss /\
  update_ok t false st acc b [0; 0] bN [0; 0] [1; 0] (inr 1 r) /\
  exists g gN g',
    obind (sg_make t 1 default_sizes (fun _ => 99) b 0 (-1) [0; 0]) (fun g =>
      sg_ops t false default_sizes g [GSetStreak (mkStreak [0] 2 6) [1; 2; 3; 4]; GSetStreak (mkStreak [1] 2 6) [5; 6; 7; 8]; GSetStreak (mkStreak [2] 2 6) [9; 1; 2; 3]]) = Some g /\
    sg_make t 1 default_sizes (fun _ => 99) bN 7 (-1) [0; 0] = Some gN /\
    sg_update t default_sizes acc upd false g gN [0; 0] [1; 0] ss = Some g' /\
    sg_get_streak t false default_sizes g' (mkStreak [1] 2 6) = Some [74291; 71312; 72423; 73134] /\
    sg_get_streak t false default_sizes g' (mkStreak [2] 2 6) = Some [7; 7; 7; 7] /\
    sg_get_streak t false default_sizes g' (mkStreak [3] 2 6) = Some [7; 79261; 71372; 7].
Proof.
  intros t b bN r acc upd st ss.
  destruct (insert_all_valid 1 [mkStreak [0] 2 6; mkStreak [2] 3 5] (reg_empty 2) (rvalid_empty 1)) as [V Hi]; [repeat constructor|].
  split; [exact V|]. split; [repeat split; cbn; try lia; try discriminate; repeat constructor; lia|]. split; [repeat split; cbn; try lia; try discriminate; repeat constructor; lia|]. split; [|split].
  - apply (order_tranches r 3 [mkStreak [0] 2 6; mkStreak [2] 3 5] [mkStreak [0] 2 3; mkStreak [0] 3 6; mkStreak [2] 3 5]).
    + vm_compute. reflexivity.
    + lia.
    + repeat constructor; cbn; lia.
    + vm_compute. reflexivity.
    + apply (Permutation_app_comm [mkStreak [0] 2 3; mkStreak [0] 3 6] [mkStreak [2] 3 5]).
  - split; [reflexivity|]. split; [repeat constructor; cbn; lia|]. split; [cbn; lia|]. split; [now left|].
    intros c [Hc H]. apply Hi in H; auto. destruct H as [H|(s & Hs & x & -> & Hx)]; [exfalso; eapply (rin_empty 1); eauto|].
    cbn [In] in Hs. split; [|split; [|discriminate]]; destruct Hs as [<-|[<-|[]]]; clear - Hx; cbn in Hx |- *; lia.
  - do 3 eexists. split; [vm_compute; reflexivity|]. split; [vm_compute; reflexivity|]. split; [vm_compute; reflexivity|]. repeat split; vm_compute; reflexivity.
Qed.

(** Without a topology the neighbors outside of the box are the edge cell. *)
Example C109_example_cube :
  let t := [false; false; false] in let b := mkBox [0; 0; 0] [2; 2; 2] in
  let acc := [FC 2 0 0; FC 0 (-2) 0; FC 0 0 1; FC 0 0 0] in let upd vs (v : Z) := v + fold_left (fun a x => 10 * a + x) vs 0 in
  let sizes := custom_sizes [8] [8] [8] in
  soa_setup t true 2 b [2; 2; 2] /\
  update_ok t true (mkStencil VonNeumann 3 2) acc b [2; 2; 2] b [0; 0; 0] [0; 0; 0] (in_grid [2; 2; 2]) /\
  exists g g',
    obind (sg_make t 2 sizes (fun _ => 99) b 3 9 [2; 2; 2]) (fun g => sg_ops t true sizes g [GSet [1; 0; 0] 4; GSet [1; 1; 1] 5]) = Some g /\
    sg_update t sizes acc upd false g g [0; 0; 0] [0; 0; 0] [mkStreak [0; 0] 0 2; mkStreak [1; 1] 0 2] = Some g' /\
    sg_get_streak t true sizes g' (mkStreak [0; 0] 0 2) = Some [9946; 9936] /\ sg_get_streak t true sizes g' (mkStreak [1; 1] 0 2) = Some [9996; 10000].
Proof.
  intros t b acc upd sizes. split; [repeat split; cbn; try lia; try discriminate; repeat constructor; lia|]. split.
  - split; [reflexivity|]. split; [repeat constructor; cbn; lia|]. split; [cbn; intuition discriminate|]. split.
    { right. split; [repeat constructor; cbn; lia|]. right. split; reflexivity. }
    intros c Hc. pose proof (in_grid_length _ _ Hc) as Hl. destruct c as [|z [|y [|x [|]]]]; try discriminate. unfold in_grid in Hc. cbn in Hc.
    split; [cbn; lia|]. split; [cbn; lia|]. intros _. unfold seen. cbn [map acc]. repeat constructor; cbn -[Z.add Z.sub]; try lia;
      intros c' E; unfold t in E; cbn -[Z.add Z.sub Z.leb Z.ltb] in E;
      repeat match type of E with context [if ?x then _ else _] => destruct x eqn:?; cbn -[Z.add Z.sub Z.leb Z.ltb] in E; try discriminate end;
      match type of E with Some ?l = _ => assert (c' = l) as -> by congruence end; unfold in_grid; cbn -[Z.add Z.sub]; lia.
  - do 2 eexists. split; [vm_compute; reflexivity|]. split; [vm_compute; reflexivity|]. repeat split; vm_compute; reflexivity.
Qed.

(** ** C108, again: [saveRegionImplementation] *)

(** UnstructuredSoAGrid uses it for its elements, which are stored in a torus of
    one dimension. There it does the same as [saveRegion]. *)
Theorem C108_implementation : forall C M K (part : nat -> C -> M) (assemble : list M -> C) correct st sizes (junk : Z -> C) b topo g r,
  sizes_ok sizes -> soa_setup [true] correct (Z.of_nat (st_rad st)) b topo -> sg_reach [true] correct st sizes junk K assemble b topo g ->
  obind (reg_streaks r) (sg_save_impl sizes K part g) = sg_save sizes K part g r [0].
Proof.
  intros C M K part assemble correct st sizes junk b topo g r Hsz Hs Hr. destruct (reach_rep [true] correct st sizes junk K assemble Hsz b topo g Hs Hr) as (f & Rf).
  destruct Hs as ((_ & Ho & _) & _). destruct Rf as (B1 & _ & B3 & _). unfold sg_save, sg_save_impl. destruct (reg_streaks r) as [ss|]; [|reflexivity]. cbn [obind].
  destruct b as [org dim]. cbn [b_origin] in *. destruct org as [|o [|]]; try discriminate.
  assert (E : sg_offset g [0] = [0; 0; - o]) by (unfold sg_offset; rewrite B1, B3; cbn; leq). rewrite E, B1. reflexivity.
Qed.
Print Assumptions C108_implementation.

(** ** C110: regions on another period *)

(** DisplacedGrid normalizes the coordinates of a region (C37), SoAGrid doesn't:
    the region is part of the grid, and [get] finds its cell, but [saveRegion]
    reads elsewhere. *)
Theorem C110_period_refuted : exists t st sizes (junk : Z -> Z) b topo g r off v w,
  sizes_ok sizes /\ soa_setup t true (Z.of_nat (st_rad st)) b topo /\ sg_reach t true st sizes junk 1 (fun l => hd 0 l) b topo g /\
  rvalid 0 r /\ transfer_ok t true b topo (inr 0 r) off /\ (forall c, inr 0 r c -> sg_get t true sizes g (zadd c off) = Some v) /\
  sg_save sizes 1 (fun _ c => c) g r off = Some [w] /\ w <> v.
Proof.
  exists [true], (mkStencil VonNeumann 1 1), default_sizes, (fun _ => 99), (mkBox [-1] [5]), [10].
  destruct (sg_make [true] 1 default_sizes (fun _ => 99) (mkBox [-1] [5]) 0 (-1) [10]) as [g0|] eqn:E0; [|vm_compute in E0; discriminate].
  destruct (sg_op [true] true default_sizes g0 (GSet [-1] 7)) as [g|] eqn:E; [|pose proof E0 as E1; vm_compute in E1; injection E1 as <-; vm_compute in E; discriminate].
  exists g, (insert_all (reg_empty 1) [mkStreak [] 9 10]), [0], 7, 99.
  destruct (insert_all_valid 0 [mkStreak [] 9 10] (reg_empty 1) (rvalid_empty 0)) as [V Hi]; [repeat constructor|].
  assert (Hc : forall c, inr 0 (insert_all (reg_empty 1) [mkStreak [] 9 10]) c -> c = [9]).
  { intros c [Hl H]. apply Hi in H; auto. destruct H as [H|(s & Hs & x & -> & Hx)]; [exfalso; eapply (rin_empty 0); eauto|]. destruct Hs as [<-|[]]. cbn in Hx |- *. f_equal. lia. }
  split; [exact default_sizes_ok|]. split; [repeat split; cbn; try lia; try discriminate; repeat constructor; lia|]. split.
  { apply (sreach_op _ _ _ _ _ _ _ _ _ g0 (GSet [-1] 7)); [eapply sreach_make; exact E0| |exact E]. cbn. split; [reflexivity|]. split; [cbn; lia|]. intros c' H. vm_compute in H. injection H as <-. cbn; lia. }
  split; [exact V|]. split.
  { split; [exists [9]; intros c H; rewrite (Hc c H); cbn; lia|]. intros c H. rewrite (Hc c H). split; [cbn; lia|]. exists [0]. split; [|cbn; lia]. cbn. repeat split; try lia; try (exists 1; lia); exists (-1); lia. }
  vm_compute in E0. injection E0 as <-. vm_compute in E. injection E as <-.
  split; [intros c H; rewrite (Hc c H); vm_compute; reflexivity|]. split; [vm_compute; reflexivity|discriminate].
Qed.
Print Assumptions C110_period_refuted.

(** ** C111: wide stencils on a torus *)

(** FixedNeighborhood adds the width of the grid for the cells at the boundary
    only. With a stencil of radius 2 the other ones next to it see whatever is
    stored behind the row. *)
Theorem C111_wide_stencil_refuted : exists st acc b g g' c v v',
  soa_setup [true] false (Z.of_nat (st_rad st)) b [0] /\ st_rad st = 2%nat /\ Forall (in_stencil st) acc /\
  sg_reach [true] false st default_sizes (fun _ => 99) 1 (fun l => hd 0 l) b [0] g /\
  (forall x, s_x (mkStreak [] 0 4) <= x < s_e (mkStreak [] 0 4) -> in_box b [x]) /\ in_box b c /\
  sg_update [true] default_sizes acc (fun vs _ => hd 0 vs) false g g [0] [0] [mkStreak [] 0 4] = Some g' /\
  Forall2 (fun c' v => soa_at [true] false default_sizes g (ddenotes [true] false b [0] c') = Some v) (seen [true] acc c) [v] /\
  sg_get [true] false default_sizes g' c = Some v' /\ v' <> v.
Proof.
  exists (mkStencil VonNeumann 1 2), [FC 2 0 0], (mkBox [0] [4]).
  destruct (sg_make [true] 2 default_sizes (fun _ => 99) (mkBox [0] [4]) 7 (-1) [0]) as [g|] eqn:E0; [|vm_compute in E0; discriminate].
  exists g. assert (Hr : sg_reach [true] false (mkStencil VonNeumann 1 2) default_sizes (fun _ => 99) 1 (fun l => hd 0 l) (mkBox [0] [4]) [0] g) by (eapply sreach_make; exact E0).
  vm_compute in E0. injection E0 as E0. rewrite <- E0 in *. clear E0. eexists. exists [2], 7, 99.
  split; [repeat split; cbn; try lia; try discriminate; repeat constructor; lia|]. split; [reflexivity|]. split; [repeat constructor; cbn; lia|]. split; [exact Hr|].
  split; [intros x Hx; cbn in Hx |- *; lia|]. split; [cbn; lia|]. split; [vm_compute; reflexivity|]. split; [repeat constructor; vm_compute; reflexivity|]. split; [vm_compute; reflexivity|discriminate].
Qed.
Print Assumptions C111_wide_stencil_refuted.

(** ** C112: parts of spaces with mixed topology *)

(** The functor normalizes the origin of a streak in the array, which contains
    the padding. The last cells along an axis without wrapping appear to lie
    outside of the space, so that wrapping along the other axis fails. *)
Theorem C112_mixed_refuted : exists st acc b topo g g' s v v',
  let t := [true; false] in
  soa_setup t true (Z.of_nat (st_rad st)) b topo /\ st_rad st = 1%nat /\ Forall (in_stencil st) acc /\
  sg_reach t true st default_sizes (fun _ => 99) 1 (fun l => hd 0 l) b topo g /\
  s_e s = s_x s + 1 /\ in_box b (s_origin s) /\ Forall (reachable_coord t true b topo) (seen t acc (s_origin s)) /\
  sg_update t default_sizes acc (fun vs _ => hd 0 vs) false g g [0; 0] [0; 0] [s] = Some g' /\
  Forall2 (fun c' v => soa_at t true default_sizes g (ddenotes t true b topo c') = Some v) (seen t acc (s_origin s)) [v] /\
  sg_get t true default_sizes g' (s_origin s) = Some v' /\ v' <> v.
Proof.
  exists (mkStencil VonNeumann 2 1), [FC 0 1 0], (mkBox [0; 0] [3; 2]), [3; 2].
  destruct (sg_make [true; false] 1 default_sizes (fun _ => 99) (mkBox [0; 0] [3; 2]) 7 (-1) [3; 2]) as [g|] eqn:E0; [|vm_compute in E0; discriminate].
  exists g. assert (Hr : sg_reach [true; false] true (mkStencil VonNeumann 2 1) default_sizes (fun _ => 99) 1 (fun l => hd 0 l) (mkBox [0; 0] [3; 2]) [3; 2] g) by (eapply sreach_make; exact E0).
  vm_compute in E0. injection E0 as E0. rewrite <- E0 in *. clear E0. eexists. exists (mkStreak [2] 1 2), 7, 99. cbv zeta.
  split; [repeat split; cbn; try lia; try discriminate; repeat constructor; lia|]. split; [reflexivity|]. split; [repeat constructor; cbn; lia|]. split; [exact Hr|].
  split; [reflexivity|]. split; [cbn; lia|]. split; [repeat constructor; cbn; try lia; intros c' H; vm_compute in H; injection H as <-; cbn; lia|].
  split; [vm_compute; reflexivity|]. split; [repeat constructor; vm_compute; reflexivity|]. split; [vm_compute; reflexivity|discriminate].
Qed.
Print Assumptions C112_mixed_refuted.

(** ** C113: displaced regions in a space without wrapping *)

(** Whether the coordinates get normalized depends on the source alone. If the
    target lies in the last cells of the space then it is outside of bounds
    together with the padding, which yields a bogus target. *)
Theorem C113_offset_refuted : exists st acc b topo g soff toff s,
  let t := [false] in
  soa_setup t true (Z.of_nat (st_rad st)) b topo /\ Forall (in_stencil st) acc /\
  sg_reach t true st default_sizes (fun _ => 99) 1 (fun l => hd 0 l) b topo g /\
  s_e s = s_x s + 1 /\ in_box b (zadd (s_origin s) soff) /\ in_box b (zadd (s_origin s) toff) /\
  sg_update t default_sizes acc (fun vs _ => hd 0 vs) false g g soff toff [s] = None.
Proof.
  exists (mkStencil VonNeumann 1 1), [FC 0 0 0], (mkBox [0] [10]), [10].
  destruct (sg_make [false] 1 default_sizes (fun _ => 99) (mkBox [0] [10]) 7 (-1) [10]) as [g|] eqn:E0; [|vm_compute in E0; discriminate].
  exists g, [-5], [0], (mkStreak [] 9 10). cbv zeta.
  split; [repeat split; cbn; try lia; try discriminate; repeat constructor; lia|]. split; [repeat constructor; cbn; lia|]. split; [eapply sreach_make; exact E0|].
  vm_compute in E0. injection E0 as <-. split; [reflexivity|]. split; [cbn; lia|]. split; [cbn; lia|]. vm_compute. reflexivity.
Qed.
Print Assumptions C113_offset_refuted.

(** ** C114: the default sizes *)

(** LibFlatArray looks at the extent along Y to tell apart one and two
    dimensions. A 3D torus with but one row per layer can't be stored, however
    small. *)
Theorem C114_flat_layers_refuted : exists b, soa_setup (torus 3) false 1 b [0; 0; 0] /\
  forall C (junk : Z -> C) dflt edge, sg_make (torus 3) 1 default_sizes junk b dflt edge [0; 0; 0] = None.
Proof.
  exists (mkBox [0; 0; 0] [2; 1; 2]). split; [repeat split; cbn; try lia; try discriminate; repeat constructor; lia|]. intros. vm_compute. reflexivity.
Qed.
Print Assumptions C114_flat_layers_refuted.

(** ** C115: [updateLineX] with parameters by value *)

(** TestCell's takes copies of the accessors (misc/testcell.h:271-281). The
    functor updates a row of a torus by several calls and expects that the
    accessor for the new grid advances: the cells which follow are written to
    the wrong places. *)
Theorem C115_by_value_refuted : exists st b g g', 
  soa_setup [true] false (Z.of_nat (st_rad st)) b [0] /\ sg_reach [true] false st default_sizes (fun _ => 99) 1 (fun l => hd 0 l) b [0] g /\
  (* copies the whole row to itself *)
  sg_update [true] default_sizes [FC 0 0 0] (fun vs _ => hd 0 vs) true g g [0] [0] [mkStreak [] 0 4] = Some g' /\
  sg_get_streak [true] false default_sizes g (mkStreak [] 0 4) = Some [1; 2; 3; 4] /\
  sg_get_streak [true] false default_sizes g' (mkStreak [] 0 4) = Some [4; 3; 3; 4].
Proof.
  exists (mkStencil VonNeumann 1 1), (mkBox [0] [4]).
  destruct (sg_make [true] 1 default_sizes (fun _ => 99) (mkBox [0] [4]) 0 (-1) [0]) as [g0|] eqn:E0; [|vm_compute in E0; discriminate].
  destruct (sg_op [true] false default_sizes g0 (GSetStreak (mkStreak [] 0 4) [1; 2; 3; 4])) as [g|] eqn:E; [|pose proof E0 as E1; vm_compute in E1; injection E1 as <-; vm_compute in E; discriminate].
  exists g. assert (Hr : sg_reach [true] false (mkStencil VonNeumann 1 1) default_sizes (fun _ => 99) 1 (fun l => hd 0 l) (mkBox [0] [4]) [0] g).
  { apply (sreach_op _ _ _ _ _ _ _ _ _ g0 (GSetStreak (mkStreak [] 0 4) [1; 2; 3; 4])); [eapply sreach_make; exact E0| |exact E]. cbn. split; [lia|]. split; [|reflexivity]. repeat constructor; cbn; lia. }
  vm_compute in E0. injection E0 as <-. vm_compute in E. injection E as E. rewrite <- E in *. clear E. eexists.
  split; [repeat split; cbn; try lia; try discriminate; repeat constructor; lia|]. split; [exact Hr|]. split; [vm_compute; reflexivity|]. split; vm_compute; reflexivity.
Qed.
Print Assumptions C115_by_value_refuted.

(** ** C116: [saveRegionImplementation] with padding *)

(** It ignores the padding, so that it saves other cells unless the grid is a
    torus of one dimension (C108). *)
Theorem C116_padding_refuted : exists st b g,
  soa_setup [false] false (Z.of_nat (st_rad st)) b [0] /\ sg_reach [false] false st default_sizes (fun _ => 99) 1 (fun l => hd 0 l) b [0] g /\
  sg_get_streak [false] false default_sizes g (mkStreak [] 0 3) = Some [1; 2; 3] /\
  sg_save_impl default_sizes 1 (fun _ (c : Z) => c) g [mkStreak [] 0 3] = Some [-1; 1; 2].
Proof.
  exists (mkStencil VonNeumann 1 1), (mkBox [0] [4]).
  destruct (sg_make [false] 1 default_sizes (fun _ => 99) (mkBox [0] [4]) 0 (-1) [0]) as [g0|] eqn:E0; [|vm_compute in E0; discriminate].
  destruct (sg_op [false] false default_sizes g0 (GSetStreak (mkStreak [] 0 4) [1; 2; 3; 4])) as [g|] eqn:E; [|pose proof E0 as E1; vm_compute in E1; injection E1 as <-; vm_compute in E; discriminate].
  exists g. split; [repeat split; cbn; try lia; try discriminate; repeat constructor; lia|]. split.
  { apply (sreach_op _ _ _ _ _ _ _ _ _ g0 (GSetStreak (mkStreak [] 0 4) [1; 2; 3; 4])); [eapply sreach_make; exact E0| |exact E]. cbn. split; [lia|]. split; [|reflexivity]. repeat constructor; cbn; lia. }
  vm_compute in E0. injection E0 as <-. vm_compute in E. injection E as <-. split; vm_compute; reflexivity.
Qed.
Print Assumptions C116_padding_refuted.
