(** Properties of the CUDASimulator. *)
From Coq Require Import Permutation.
From Verif Require Import Base RegionSpec RegionModel RegionStreaks CoordModel CoordSpec CoordFacts GridModel GridSpec GridFacts SellFacts StencilModel UpdateModel UpdateSpec
  RegionOpsModel AdapterModel CudaModel CudaSpec CudaFacts CudaRun.

(** ** One launch *)

(** Whatever the order in which the threads' updates take effect, all accesses
    are within the arrays and the new grid is what a synchronous step yields. *)
Theorem C150_launch {C : Type} (st : stencil) (upd_host upd_cuda : nat -> list C -> C -> C) (separate : bool) (r : raw) (dim : coord) (block : dim3) :
  good_launch r dim block -> good_update r dim separate -> st_rad st = 1%nat -> st_dim st = length dim ->
  exists p, make_params r dim block = Some p /\
  forall nano (cur prev : coord -> C) edge old new order,
    device_holds r dim cur edge old -> device_holds r dim prev edge new ->
    interleaves (work (length dim) r p) order ->
    exists new', do_acts st upd_host upd_cuda separate p nano old order new = Some new' /\
      device_holds r dim
        (sync (raw_topology (length dim) r) dim st ((if separate then upd_cuda else upd_host) nano) edge cur prev) edge new'.
Proof.
  intros Hg Hu Hs Hd. exists (params_for r dim block). split; [apply make_params_spec; eapply good_sane; exact Hg|].
  intros. eapply launch_spec; eassumption.
Qed.
Print Assumptions C150_launch.

(** ** Whole simulations *)

Theorem C150_run {C : Type} (st : stencil) (upd_host upd_cuda : nat -> list C -> C -> C) (separate : bool) (r : raw) (dim : coord) (block : dim3)
    (nanos start last : nat) (writers : list nat) :
  good_launch r dim block -> good_update r dim separate -> st_rad st = 1%nat -> st_dim st = length dim -> (1 <= nanos)%nat -> (start <= last)%nat ->
  exists p, make_params r dim block = Some p /\
  forall (s : sim) (init : coord -> C) edge order,
    let t := raw_topology (length dim) r in
    let gen := generation t dim st (if separate then upd_cuda else upd_host) nanos edge init in
    host_grid r dim (s_host s) -> shows t dim (s_host s) init edge -> (forall k, interleaves (work (length dim) r p) (order k)) ->
    exists s' calls,
      sim_run st upd_host upd_cuda separate false nanos start last [] writers p r dim order (last - start) s = Some (s', calls) /\
      map (fun c => (c_writer c, c_step c, c_event c)) calls = expected_calls start last writers /\
      Forall (fun c => shows t dim (c_grid c) (gen ((c_step c - start) * nanos)%nat) edge) calls /\
      s_step s' = last /\
      shows t dim (s_host (get_grid s')) (gen ((last - start) * nanos)%nat) edge.
Proof.
  intros Hg Hu Hs Hd Hn Hl. exists (params_for r dim block). split; [apply make_params_spec; eapply good_sane; exact Hg|].
  intros s init edge order t gen Hh Hsh Hord.
  destruct (run_good st upd_host upd_cuda separate r dim block Hg Hs Hd Hu nanos start last writers Hn edge init order Hord [] (Forall_nil _) s Hl Hh Hsh)
    as (s' & calls & E & G & T & M & F).
  exists s', calls. split; [exact E|]. split; [exact M|]. split; [exact F|]. split; [exact T|].
  eapply get_grid_good; eassumption.
Qed.
Print Assumptions C150_run.

(** ** Beyond the arrays *)

(** The last axis wraps, and there are threads without cells, or just one cell
    along that axis. In 1D the "last axis" is the (missing) Y axis, which
    wraps for Torus. *)
Definition overruns (r : raw) (dim : coord) (block : dim3) : Prop :=
  match dim with
  | [_] => wrap_y r = true
  | [ny; _] => wrap_y r = true /\ (ny = 1 \/ ~ all_busy ny (d3_y block))
  | [nz; _; _] => wrap_z r = true /\ (nz = 1 \/ ~ all_busy nz (d3_z block))
  | _ => False
  end.

Lemma put_length {A} (l : list A) : forall i v l', vec_put l i v = Some l' -> length l' = length l.
Proof.
  induction l as [|x l IH]; intros [|i] v l' E; cbn in E; try discriminate.
  - assert (v :: l = l') by congruence. now subst.
  - destruct (vec_put l i v) eqn:E1; [|discriminate]. cbn in E. assert (x :: l0 = l') by congruence. subst. cbn. f_equal. eauto.
Qed.

Lemma do_acts_beyond {C} st (uh uc : nat -> list C -> C -> C) separate p nano old a : forall l new, In a l -> Z.of_nat (length new) <= act_index a ->
  do_acts st uh uc separate p nano old l new = None.
Proof.
  induction l as [|a' l IH]; intros new Hin Hb; [contradiction|]. cbn [do_acts]. unfold do_act.
  destruct (hood_values st _) as [vs|]; [|reflexivity]. cbn [obind].
  destruct (vec_get new (act_index a')) as [v|] eqn:Eg; [|reflexivity]. cbn [obind].
  destruct (vec_set new (act_index a') _) as [new'|] eqn:Es; [|reflexivity]. cbn [obind].
  unfold vec_set in Es. unfold vec_get in Eg. destruct (act_index a' <? 0) eqn:En; [discriminate|]. apply put_length in Es.
  destruct Hin as [->|Hin]; [|apply IH; [exact Hin|lia]].
  exfalso. apply Z.ltb_ge in En. assert (nth_error new (Z.to_nat (act_index a)) <> None) as Hx by congruence. apply nth_error_Some in Hx. lia.
Qed.

Lemma traverse_single lo n index off woff corr fn : n <= lo + 1 -> 0 < n -> 0 <= lo ->
  In (if lo =? 0 then mkAct (index + off) (corr 0 (- woff)) fn else mkAct index (corr 0 (- woff)) fn) (traverse true lo n n index off woff corr fn).
Proof.
  intros H1 H2 H3. unfold traverse. cbn [andb]. rewrite Z.eqb_refl. apply in_or_app. right. apply in_or_app. right.
  destruct (Z.eqb_spec lo 0) as [->|].
  - replace (Z.to_nat (n - 1 - (0 + 1))) with O by lia. cbn [Z.of_nat]. rewrite Z.mul_0_l, Z.add_0_r. now left.
  - replace (Z.to_nat (n - 1 - lo)) with O by lia. cbn [Z.of_nat]. rewrite Z.mul_0_l, Z.add_0_r. now left.
Qed.

Lemma idle_share n b : 0 < n -> 1 <= b -> ~ all_busy n b -> let w := ceil_div n b in n <= (b - 1) * w /\ Z.min ((b - 1 + 1) * w) n = n.
Proof.
  intros Hn Hb H. cbn zeta. unfold all_busy in H. rewrite ceil_alt in H by lia. pose proof (ceil_cover n b Hn Hb) as (H1 & H2 & H3).
  split; [lia|]. apply Z.min_r. nia.
Qed.

Theorem C151_overrun {C : Type} (st : stencil) (upd_host upd_cuda : nat -> list C -> C -> C) (separate : bool) (r : raw) (dim : coord) (block : dim3) :
  Forall (fun n => 0 < n) dim -> 1 <= d3_x block -> 1 <= d3_y block -> 1 <= d3_z block -> overruns r dim block ->
  exists p, make_params r dim block = Some p /\
  forall nano old new order,
    length new = Z.to_nat (prod (pad_dim (raw_topology (length dim) r) dim)) -> interleaves (work (length dim) r p) order ->
    do_acts st upd_host upd_cuda separate p nano old order new = None.
Proof.
  intros Hp Hx Hy Hz Ho.
  assert (Hs : sane dim block) by (split; [destruct dim as [|? [|? [|? [|? ?]]]]; cbn in *; try tauto; lia|auto]).
  exists (params_for r dim block). split; [now apply make_params_spec|]. intros nano old new order Hlen Hord.
  pose proof (params_grid_pos r dim block Hs) as (G1 & G2 & G3 & Eb).
  assert (Hw : exists l a, In l (threads (params_for r dim block)) /\ In a (kernel (length dim) r (params_for r dim block) l) /\
                prod (pad_dim (raw_topology (length dim) r) dim) <= act_index a).
  { destruct dim as [|n1 [|n2 [|n3 [|? ?]]]]; cbn [overruns] in Ho; try contradiction.
    - inversion Hp as [|? ? Hn1 _]; subst. pose proof (ceil_cover n1 (d3_x block) Hn1 Hx) as (C1 & C2 & C3).
      exists (mkDim3 0 0 0). eexists. split; [|split].
      + apply threads_in; try (rewrite ?Eb; assumption). cbn [params_for p_grid p_block d3_x d3_y d3_z]. lia.
      + unfold kernel. cbn [length Nat.ltb Nat.leb]. unfold kernel2D. cbn [params_for p_offset p_dim p_wave p_wrap p_offY d3_x d3_y d3_z].
        rewrite Z.geb_leb, (proj2 (Z.leb_gt n1 0)) by lia.
        rewrite Ho. change ((0 + 0) * 1 - 0) with 0. change (Z.min ((0 + 1) * 1 - 0) (1 - 0)) with 1. apply traverse_single; lia.
      + change (0 =? 0) with true. cbn [act_index]. cbn [length raw_topology firstn rev app pad_dim combine map fst snd prod]. unfold po, pe. destruct (wrap_x r); lia.
    - destruct Ho as (Hw & Ho). inversion Hp as [|? ? Hn1 Hp']; subst. inversion Hp' as [|? ? Hn2 _]; subst.
      pose proof (ceil_cover n2 (d3_x block) Hn2 Hx) as (C1 & C2 & C3).
      pose proof (ceil_cover n1 (d3_y block) Hn1 Hy) as (D1 & D2 & D3).
      assert (Hc : exists ly, 0 <= ly < d3_y block /\ n1 <= ly * ceil_div n1 (d3_y block) + 1 /\ (ly = 0 -> n1 = 1) /\ (ly <> 0 -> n1 <= ly * ceil_div n1 (d3_y block)) /\
                     Z.min ((ly + 1) * ceil_div n1 (d3_y block)) n1 = n1).
      { destruct Ho as [->|Ho].
        - exists 0. repeat split; lia.
        - destruct (idle_share n1 (d3_y block) Hn1 Hy Ho) as (I1 & I2). exists (d3_y block - 1). repeat split; try lia; try exact I2; nia. }
      destruct Hc as (ly & L1 & L2 & L3 & L4 & L5).
      exists (mkDim3 0 ly 0). eexists. split; [|split].
      + apply threads_in; try (rewrite ?Eb; assumption). cbn [params_for p_grid p_block d3_x d3_y d3_z]. lia.
      + unfold kernel. cbn [length Nat.ltb Nat.leb]. unfold kernel2D. cbn [params_for p_offset p_dim p_wave p_wrap p_offY d3_x d3_y d3_z].
        rewrite Z.geb_leb, (proj2 (Z.leb_gt n2 0)) by lia.
        rewrite Hw. cbn [po]. rewrite !Z.sub_0_r, L5, Z.add_0_r. apply traverse_single; nia.
      + cbn [act_index]. cbn [length raw_topology firstn rev app pad_dim combine map fst snd prod]. rewrite Hw.
        destruct (Z.eqb_spec (ly * ceil_div n1 (d3_y block)) 0) as [E|E]; cbn [act_index]; unfold po, pe; destruct (wrap_x r).
        all: try (assert (ly = 0) by nia; specialize (L3 ltac:(assumption)); nia).
        all: assert (ly <> 0) by nia; specialize (L4 ltac:(assumption)); nia.
    - destruct Ho as (Hw & Ho). inversion Hp as [|? ? Hn1 Hp']; subst. inversion Hp' as [|? ? Hn2 Hp'']; subst. inversion Hp'' as [|? ? Hn3 _]; subst.
      pose proof (ceil_cover n3 (d3_x block) Hn3 Hx) as (C1 & C2 & C3).
      pose proof (ceil_cover n2 (d3_y block) Hn2 Hy) as (E1 & E2 & E3).
      pose proof (ceil_cover n1 (d3_z block) Hn1 Hz) as (D1 & D2 & D3).
      assert (Hc : exists ly, 0 <= ly < d3_z block /\ n1 <= ly * ceil_div n1 (d3_z block) + 1 /\ (ly = 0 -> n1 = 1) /\ (ly <> 0 -> n1 <= ly * ceil_div n1 (d3_z block)) /\
                     Z.min ((ly + 1) * ceil_div n1 (d3_z block)) n1 = n1).
      { destruct Ho as [->|Ho].
        - exists 0. repeat split; lia.
        - destruct (idle_share n1 (d3_z block) Hn1 Hz Ho) as (I1 & I2). exists (d3_z block - 1). repeat split; try lia; try exact I2; nia. }
      destruct Hc as (ly & L1 & L2 & L3 & L4 & L5).
      exists (mkDim3 0 0 ly). eexists. split; [|split].
      + apply threads_in; try (rewrite ?Eb; assumption). cbn [params_for p_grid p_block d3_x d3_y d3_z]. lia.
      + unfold kernel. cbn [length Nat.ltb Nat.leb]. unfold kernel3D. cbn [params_for p_offset p_dim p_wave p_wrap p_offY p_offZ d3_x d3_y d3_z].
        rewrite !Z.geb_leb, (proj2 (Z.leb_gt n2 0)), (proj2 (Z.leb_gt n3 0)) by lia. cbn [orb].
        rewrite Hw. cbn [po]. rewrite (Z.sub_0_r (_ * _)), (Z.sub_0_r ((ly + 1) * _)), (Z.sub_0_r n1), L5, Z.add_0_r. apply traverse_single; nia.
      + cbn [act_index]. cbn [length raw_topology firstn rev app pad_dim combine map fst snd prod]. rewrite Hw.
        destruct (Z.eqb_spec (ly * ceil_div n1 (d3_z block)) 0) as [E|E]; cbn [act_index].
        * assert (E0 : ly = 0) by nia. rewrite (L3 E0), E0. unfold po, pe. destruct (wrap_x r), (wrap_y r); nia.
        * assert (E0 : ly <> 0) by nia. specialize (L4 E0).
          assert (0 < pe (wrap_x r) n3 * pe (wrap_y r) n2) by (unfold pe; destruct (wrap_x r), (wrap_y r); nia).
          assert (n1 * (pe (wrap_x r) n3 * pe (wrap_y r) n2) <= ly * ceil_div n1 (d3_z block) * (pe (wrap_x r) n3 * pe (wrap_y r) n2)) by (apply Z.mul_le_mono_nonneg_r; lia).
          unfold po, pe in *. destruct (wrap_x r), (wrap_y r); nia. }
  destruct Hw as (l & a & Hl & Ha & Hb). apply (do_acts_beyond st upd_host upd_cuda separate _ nano old a).
  - apply interleaves_perm in Hord. eapply Permutation_in; [exact Hord|]. apply in_concat. exists (kernel (length dim) r (params_for r dim block) l).
    split; [unfold work; now apply in_map|exact Ha].
  - pose proof (prod_pos _ (pad_pos (raw_topology (length dim) r) dim Hp)). lia.
Qed.
Print Assumptions C151_overrun.

(** ** Steerers *)

(** Whatever steerers do to the cells, it never gets into the simulation: the
    results are those of the run without steerers. *)
Theorem C152_ignored {C : Type} (st : stencil) (upd_host upd_cuda : nat -> list C -> C -> C) (separate : bool) (r : raw) (dim : coord) (block : dim3)
    (nanos start last : nat) (writers : list nat) (steerers : list steerer) :
  good_launch r dim block -> good_update r dim separate -> st_rad st = 1%nat -> st_dim st = length dim -> (1 <= nanos)%nat -> (start <= last)%nat ->
  Forall (unobtrusive r dim) steerers ->
  exists p, make_params r dim block = Some p /\
  forall (s : sim) (init : coord -> C) edge order,
    let t := raw_topology (length dim) r in
    let gen := generation t dim st (if separate then upd_cuda else upd_host) nanos edge init in
    host_grid r dim (s_host s) -> shows t dim (s_host s) init edge -> (forall k, interleaves (work (length dim) r p) (order k)) ->
    exists s' calls,
      sim_run st upd_host upd_cuda separate false nanos start last steerers writers p r dim order (last - start) s = Some (s', calls) /\
      Forall (fun c => shows t dim (c_grid c) (gen ((c_step c - start) * nanos)%nat) edge) calls /\
      shows t dim (s_host (get_grid s')) (gen ((last - start) * nanos)%nat) edge.
Proof.
  intros Hg Hu Hs Hd Hn Hl Hst. exists (params_for r dim block). split; [apply make_params_spec; eapply good_sane; exact Hg|].
  intros s init edge order t gen Hh Hsh Hord.
  destruct (run_good st upd_host upd_cuda separate r dim block Hg Hs Hd Hu nanos start last writers Hn edge init order Hord steerers Hst s Hl Hh Hsh)
    as (s' & calls & E & G & T & M & F).
  exists s', calls. split; [exact E|]. split; [exact F|]. eapply get_grid_good; eassumption.
Qed.
Print Assumptions C152_ignored.

(** ** Examples *)

(** All updates, one thread after the other. *)
Definition in_turn (r : raw) (dim : coord) (p : params) (_ : nat) : list act := concat (work (length dim) r p).

(** A grid on the host, filled with numbers. *)
Definition numbered (r : raw) (dim : coord) : dgrid Z :=
  let t := raw_topology (length dim) r in
  mkDGrid (mkVGrid (pad_dim t dim) (map (fun i => 7 * i + 3) (zrange 0 (prod (pad_dim t dim)))) 1000) (pad_offset t) (map (fun _ => 0) dim).

(** A cell which adds up its neighborhood with weights, and its former content. *)
Definition mix (nano : nat) (vs : list Z) (v : Z) : Z :=
  (fold_left (fun a x => 3 * a + x) vs (Z.of_nat nano + v)) mod 10007.

Definition coords_of (dim : coord) : list coord := map (from_index dim) (zrange 0 (prod dim)).

(* X doesn't wrap, Y does; two threads along Y, three along X, one of which is idle *)
Definition ex_raw : raw := mkRaw false true false.
Definition ex_dim : coord := [4; 5].
Definition ex_block : dim3 := mkDim3 3 2 1.
Definition ex_stencil : stencil := mkStencil Moore 2 1.

Example C150_launch_example : good_launch ex_raw ex_dim ex_block /\ good_update ex_raw ex_dim false /\
  (forall p, make_params ex_raw ex_dim ex_block = Some p -> length (threads p) = 12%nat /\
     interleaves (work 2 ex_raw p) (in_turn ex_raw ex_dim p 0)) /\
  device_holds ex_raw [2; 1] (fun c => axis 1 c) 9 [9; 0; 9; 9; 1; 9].
Proof.
  split; [|split; [discriminate|split]].
  - unfold good_launch, ex_dim, ex_block, all_busy. cbn. repeat split; try lia. repeat constructor; lia.
  - intros p E. assert (Ep : p = params_for ex_raw ex_dim ex_block) by (vm_compute in E |- *; congruence). subst p. split; [vm_compute; reflexivity|]. apply interleaves_concat.
  - split; [reflexivity|]. intros q Hq. cbn zeta.
    assert (Eq : exists y x, q = [y; x] /\ 0 <= y < 2 /\ 0 <= x < 3) by (destruct q as [|y [|x [|? ?]]]; unfold in_grid in Hq; cbn in Hq; try tauto; exists y, x; repeat split; lia).
    destruct Eq as (y & x & -> & Hy & Hx). assert (Hys : y = 0 \/ y = 1) by lia. assert (Hxs : x = 0 \/ x = 1 \/ x = 2) by lia.
    destruct Hys as [->| ->], Hxs as [->|[->| ->]]; unfold in_grid; cbn; (split; intros H; [try reflexivity; lia|try reflexivity; exfalso; apply H; lia]).
Qed.

Example C150_run_example : exists p, make_params ex_raw ex_dim ex_block = Some p /\
  let t := raw_topology 2 ex_raw in
  let g := numbered ex_raw ex_dim in
  let init := fun c => match dg_get t false g c with Some v => v | None => 0 end in
  match sim_run ex_stencil mix mix false false 1 3 5 [] [1; 3]%nat p ex_raw ex_dim (in_turn ex_raw ex_dim p) 3 (mkSim g [] [] true 0) with
  | Some (s', calls) =>
      map (fun c => (c_writer c, c_step c, c_event c)) calls =
        [(0, 3, IoInitialized); (1, 3, IoInitialized); (0, 4, IoStep); (0, 5, IoAllDone); (1, 5, IoAllDone)]%nat /\
      map (fun c => dg_get t false (s_host (get_grid s')) c) (coords_of ex_dim) =
      map (fun c => Some (generation t ex_dim ex_stencil mix 1 1000 init 2 c)) (coords_of ex_dim)
  | None => False
  end.
Proof. eexists. split; [vm_compute; reflexivity|]. vm_compute. split; reflexivity. Qed.

Example C151_overrun_example : overruns raw_torus [100] (mkDim3 128 1 1) /\ overruns raw_torus [5; 10] (mkDim3 8 4 1) /\ overruns raw_torus [1; 10; 10] (mkDim3 128 4 1).
Proof. split; [reflexivity|]. unfold overruns, all_busy. split; (split; [reflexivity|]); [right; cbn; lia|now left]. Qed.

(** Simulations on periodic grids may write beyond the arrays, e.g. any on a
    one-dimensional torus with the default block size. *)
Theorem C151_refuted : exists (r : raw) (dim : coord) (block : dim3) (p : params) (order : list act) (g : dgrid Z),
  r = raw_torus /\ dim = [10] /\ block = mkDim3 128 1 1 /\
  make_params r dim block = Some p /\ interleaves (work 1 r p) order /\ host_grid r dim g /\
  do_acts (mkStencil Moore 1 1) mix mix false p 0 (g_cells (d_grid g)) order (g_cells (d_grid g)) = None.
Proof.
  exists raw_torus, [10], (mkDim3 128 1 1), (params_for raw_torus [10] (mkDim3 128 1 1)), (in_turn raw_torus [10] (params_for raw_torus [10] (mkDim3 128 1 1)) 0), (numbered raw_torus [10]).
  split; [reflexivity|]. split; [reflexivity|]. split; [reflexivity|]. split; [vm_compute; reflexivity|]. split; [apply interleaves_concat|].
  split; [repeat split; vm_compute; reflexivity|]. vm_compute. reflexivity.
Qed.
Print Assumptions C151_refuted.

(** A steerer which sets a cell in each step: without any effect, although
    update() leaves all cells as they are. *)
Definition setter (r : raw) (dim c : coord) (v : Z) : steerer (C := Z) :=
  mkSteerer 1 (fun _ g => (match dg_set (raw_topology (length dim) r) false g c v with Some g' => g' | None => g end, false)).

(* with the Moore stencil in 2D, the cell itself is the fifth *)
Definition stay (nano : nat) (vs : list Z) (v : Z) : Z := nth 4 vs 0.

Theorem C152_refuted : exists (r : raw) (dim : coord) (block : dim3) (p : params) (g : dgrid Z) (c : coord) (v : Z),
  good_launch r dim block /\ make_params r dim block = Some p /\ in_grid dim c /\ host_grid r dim g /\
  let t := raw_topology (length dim) r in
  dg_get t false g c <> Some v /\
  match sim_run ex_stencil stay stay false false 1 0 3 [setter r dim c v] [1%nat] p r dim (in_turn r dim p) 3 (mkSim g [] [] true 0) with
  | Some (s', calls) => Forall (fun call => dg_get t false (c_grid call) c = dg_get t false g c) calls /\ dg_get t false (s_host (get_grid s')) c = dg_get t false g c
  | None => False
  end.
Proof.
  exists ex_raw, ex_dim, ex_block, (params_for ex_raw ex_dim ex_block), (numbered ex_raw ex_dim), [1; 2], 42.
  split; [apply C150_launch_example|]. split; [vm_compute; reflexivity|]. split; [unfold in_grid; cbn; lia|]. split; [repeat split; vm_compute; reflexivity|].
  vm_compute. split; [discriminate|]. split; [repeat constructor|reflexivity].
Qed.
Print Assumptions C152_refuted.

Example C152_ignored_example : unobtrusive ex_raw ex_dim (setter ex_raw ex_dim [1; 2] 42) /\ unobtrusive ex_raw ex_dim (setter ex_raw ex_dim [0; 4] 7).
Proof.
  assert (H : forall c v, in_grid ex_dim c -> unobtrusive ex_raw ex_dim (setter ex_raw ex_dim c v)).
  { intros c v Hc n g Hh. cbn [setter t_act]. destruct (dg_set _ false g c v) as [g'|] eqn:E; [|auto].
    pose proof (host_rep ex_raw ex_dim ltac:(cbn; lia) ltac:(repeat constructor; lia) g Hh) as Hr. pose proof Hh as (Eo & _).
    unfold dg_set, dg_coord in E. rewrite Eo in E. cbn zeta in E.
    set (t := raw_topology (length ex_dim) ex_raw) in *.
    assert (Hq : in_grid (pad_dim t ex_dim) (zsub c (pad_offset t))) by (apply pad_in; [reflexivity|exact Hc]).
    assert (HpP : allpos (pad_dim t ex_dim)) by (apply pad_pos; repeat constructor; lia).
    destruct (rep_set t (pad_dim t ex_dim) eq_refl HpP (d_grid g) _ _ v Hr (in_grid_close _ _ HpP Hq)) as (g1 & E1 & R1).
    rewrite E1 in E. cbn [option_map] in E. assert (g' = dg_with g g1) by congruence. subst g'.
    destruct R1 as (R1 & R2 & R3 & _). split; [split; [exact Eo|split; assumption]|]. split; [|reflexivity].
    cbn [dg_with d_grid]. rewrite R3. unfold upd. rewrite (denotes_self t (pad_dim t ex_dim) _ eq_refl HpP Hq). destruct (place_dec _ _); [discriminate|reflexivity]. }
  split; apply H; unfold in_grid; cbn; lia.
Qed.

(** ** Other cells and stencils *)

(** Cells in a Struct of Arrays layout are never updated. *)
Theorem C153_soa_refuted : exists (r : raw) (dim : coord) (block : dim3) (p : params) (g : dgrid Z) (c : coord),
  good_launch r dim block /\ make_params r dim block = Some p /\ in_grid dim c /\ host_grid r dim g /\
  let t := raw_topology (length dim) r in
  let inc := fun (_ : nat) (vs : list Z) (_ : Z) => nth 4 vs 0 + 1 in
  let result soa := match sim_run ex_stencil inc inc false soa 1 0 3 [] [] p r dim (in_turn r dim p) 3 (mkSim g [] [] true 0) with
                    | Some (s', _) => dg_get t false (s_host (get_grid s')) c | None => None end in
  result false = option_map (fun v => v + 3) (dg_get t false g c) /\ result true = dg_get t false g c /\ dg_get t false g c <> None.
Proof.
  exists ex_raw, ex_dim, ex_block, (params_for ex_raw ex_dim ex_block), (numbered ex_raw ex_dim), [1; 2].
  split; [apply C150_launch_example|]. split; [vm_compute; reflexivity|]. split; [unfold in_grid; cbn; lia|]. split; [repeat split; vm_compute; reflexivity|].
  vm_compute. split; [reflexivity|]. split; [reflexivity|discriminate].
Qed.
Print Assumptions C153_soa_refuted.

(** Cells with a separate updateCUDA(): if the Y axis of a 2D grid wraps, the
    cells of the last row are updated by update() instead. *)
Theorem C154_separate_refuted : exists (r : raw) (dim : coord) (block : dim3) (p : params) (order : list act) (g : list Z),
  good_launch r dim block /\ make_params r dim block = Some p /\ interleaves (work 2 r p) order /\
  do_acts ex_stencil (fun _ _ _ => 1) (fun _ _ _ => 2) true p 0 g order g = Some [2; 2; 2; 2; 2; 2; 1; 1; 1].
Proof.
  exists raw_torus, [3; 3], (mkDim3 128 1 1), (params_for raw_torus [3; 3] (mkDim3 128 1 1)), (in_turn raw_torus [3; 3] (params_for raw_torus [3; 3] (mkDim3 128 1 1)) 0), (repeat 0 9).
  split; [|split; [vm_compute; reflexivity|split; [apply interleaves_concat|vm_compute; reflexivity]]].
  unfold good_launch, all_busy. cbn. repeat split; try lia. repeat constructor; lia.
Qed.
Print Assumptions C154_separate_refuted.

(** Stencils with a radius of 2: the old grid is read outside of the array. *)
Theorem C155_radius_refuted : exists (r : raw) (dim : coord) (block : dim3) (p : params) (order : list act) (g : list Z),
  good_launch r dim block /\ make_params r dim block = Some p /\ interleaves (work 1 r p) order /\
  device_holds r dim (fun _ => 0) 0 g /\ do_acts (mkStencil Moore 1 2) mix mix false p 0 g order g = None.
Proof.
  exists raw_cube, [10], (mkDim3 128 1 1), (params_for raw_cube [10] (mkDim3 128 1 1)), (in_turn raw_cube [10] (params_for raw_cube [10] (mkDim3 128 1 1)) 0), (repeat 0 12).
  split; [|split; [vm_compute; reflexivity|split; [apply interleaves_concat|split; [|vm_compute; reflexivity]]]].
  - unfold good_launch. cbn. repeat split; try lia. repeat constructor; lia.
  - split; [reflexivity|]. intros q Hq. cbn zeta. assert (E : vec_get (repeat 0 12) (to_index q (pad_dim (raw_topology (length [10]) raw_cube) [10])) = Some 0); [|auto].
    change (pad_dim (raw_topology (length [10]) raw_cube) [10]) with [12] in *. apply vec_get_repeat.
    pose proof (to_index_bound [12] ltac:(repeat constructor; lia) q Hq) as Hb. cbn [prod] in Hb. lia.
Qed.
Print Assumptions C155_radius_refuted.

(** step() without run(): the constructor neither calls the initializer nor
    fills the arrays on the device, so the result is whatever these happen to
    contain. *)
Theorem C156_step_refuted : exists (r : raw) (dim : coord) (block : dim3) (p : params) (g : dgrid Z) (c : coord) (junk junk' : list Z),
  good_launch r dim block /\ make_params r dim block = Some p /\ in_grid dim c /\ host_grid r dim g /\
  length junk = length (g_cells (d_grid g)) /\ length junk' = length (g_cells (d_grid g)) /\
  let t := raw_topology (length dim) r in
  let result j := match sim_step ex_stencil stay stay false false 1 10 [] [] p (in_turn r dim p) 0 (mkSim g j j true 0) with
                  | Some (s', _, _) => dg_get t false (s_host (get_grid s')) c | None => None end in
  result junk = Some 1 /\ result junk' = Some 2.
Proof.
  exists ex_raw, ex_dim, ex_block, (params_for ex_raw ex_dim ex_block), (numbered ex_raw ex_dim), [1; 2], (repeat 1 28), (repeat 2 28).
  split; [apply C150_launch_example|]. split; [vm_compute; reflexivity|]. split; [unfold in_grid; cbn; lia|]. split; [repeat split; vm_compute; reflexivity|].
  vm_compute. repeat split.
Qed.
Print Assumptions C156_step_refuted.
