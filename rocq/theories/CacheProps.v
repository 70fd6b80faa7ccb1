(** Properties C209 to C211: CacheBlockingSimulator. *)
From Verif Require Import Base ListFacts RegionSpec RegionModel RegionRep RegionIterModel CoordModel CoordSpec RegionOpsModel CoordFacts
  AdapterModel ScheduleSpec GridModel GridSpec GridFacts GridReach StencilModel StencilSpec UpdateModel UpdateSpec CacheModel CacheSpec CacheFacts.

(** ** C209: wavefronts and frames *)

(** The frames of all wavefronts can be generated. There is one frame for each
    plane and each stage; it consists of the cells of the wavefront in that
    plane, extended by one cell per stage which is yet to come, as far as they
    belong to the grid. *)
Theorem C209_frames : forall dz dy dx wy wx len ky kx, 0 < dz -> 0 < dy -> 0 < dx -> 0 < wy -> 0 < wx -> (1 <= len)%nat ->
  In (ky, kx) (wavefronts [dz; dy; dx] (wy, wx)) ->
  exists frames, wavefront_frames [dz; dy; dx] (wy, wx) len (ky * wy) (kx * wx) = Some frames /\
    forall index i, 0 <= index <= dz -> (i < len)%nat ->
      exists fs frame, vec_get frames index = Some fs /\ nth_error fs i = Some frame /\
        let k := Z.of_nat len - 1 - Z.of_nat i in
        forall z y x, reg_count frame [z; y; x] = Some true <-> z = index /\ z < dz /\ grown (ky * wy) wy dy k y /\ grown (kx * wx) wx dx k x.
Proof.
  intros dz dy dx wy wx len ky kx Hz Hy Hx Hwy Hwx Hl Hw. apply wavefronts_in in Hw. destruct Hw as [W1 W2].
  destruct (frames_extent_spec dy wy Hy Hwy) as (_ & K1 & _). destruct (frames_extent_spec dx wx Hx Hwx) as (_ & K2 & _).
  destruct (wavefront_frames_spec dz dy dx wy wx Hz Hy Hx Hwy Hwx len (ky * wy) (kx * wx) (K1 ky W1) (K2 kx W2) Hl) as (frames & E & _ & H).
  exists frames. split; [exact E|]. intros index i Hi Hlen. destruct (H index i Hi Hlen) as (fs & frame & E1 & _ & E2 & _ & E3). exists fs, frame. split; [exact E1|]. split; [exact E2|]. exact E3.
Qed.
Print Assumptions C209_frames.

(** Each cell of a plane belongs to exactly one wavefront. *)
Theorem C209_wavefronts : forall dz dy dx wy wx y x, 0 < dy -> 0 < dx -> 0 < wy -> 0 < wx -> 0 <= y < dy -> 0 <= x < dx ->
  exists w, forall w', (In w' (wavefronts [dz; dy; dx] (wy, wx)) /\ grown (fst w' * wy) wy dy 0 y /\ grown (snd w' * wx) wx dx 0 x) <-> w' = w.
Proof.
  intros dz dy dx wy wx y x Hy Hx Hwy Hwx By Bx. exists (y / wy, x / wx). intros [ky kx]. rewrite wavefronts_in. cbn [fst snd].
  pose proof (wavefront_of dy wy y Hy Hwy By ky) as A. pose proof (wavefront_of dx wx x Hx Hwx Bx kx) as B. split.
  - intros ((H1 & H2) & H3 & H4). f_equal; [apply A|apply B]; auto.
  - intros E. assert (E1 : ky = y / wy) by congruence. assert (E2 : kx = x / wx) by congruence. apply A in E1. apply B in E2. tauto.
Qed.
Print Assumptions C209_wavefronts.

(** Wavefronts of 3 x 2 cells on planes of 4 x 5 cells; the one in the corner
    has but one row and one column. *)
Example C209_example :
  wavefronts [2; 4; 5] (3, 2) = [(0, 0); (0, 1); (0, 2); (1, 0); (1, 1); (1, 2)] /\
  option_map (map (map reg_streaks)) (wavefront_frames [2; 4; 5] (3, 2) 2 3 4) =
    Some [[Some [mkStreak [0; 2] 3 5; mkStreak [0; 3] 3 5]; Some [mkStreak [0; 3] 4 5]];
          [Some [mkStreak [1; 2] 3 5; mkStreak [1; 3] 3 5]; Some [mkStreak [1; 3] 4 5]]; [Some []; Some []]].
Proof. split; vm_compute; reflexivity. Qed.

(** ** C210: time steps *)

(** A simulation which ends has performed just as many sweeps as are needed,
    each of which takes [len] nano steps, and tells so. *)
Theorem C210_steps : forall C t st nanos upd dim wdim len fuel start last (g : vgrid C) s calls, (1 <= nanos)%nat -> (1 <= len)%nat ->
  cache_run t st nanos upd dim wdim len fuel start last g = Some (s, calls) ->
  calls = [(start, IoInitialized); (ca_step s, IoAllDone)] /\ (last <= ca_step s)%nat /\
  exists k, (ca_step s * nanos + ca_nano s = start * nanos + k * len)%nat /\ (ca_nano s < nanos)%nat /\
    ((k = 0 /\ last <= start)%nat \/ (1 <= k /\ start * nanos + (k - 1) * len < last * nanos)%nat).
Proof.
  intros C t st nanos upd dim wdim len fuel start last g s calls Hn Hl E. unfold cache_run in E.
  destruct (cache_loop _ _ _ _ _ _ _ _ _ _) as [s1|] eqn:E1; [|discriminate E]. cbn [option_map] in E. injection E as <- <-.
  apply loop_clock in E1; auto. cbn [ca_step ca_nano] in E1. destruct E1 as ((H1 & H2) & k & H3 & H4). split; [reflexivity|]. split; [exact H1|].
  exists k. split; [lia|]. split; [exact H2|]. destruct H4 as [->|[H4 H5]]; [left|right; split; lia]. split; [reflexivity|]. nia.
Qed.
Print Assumptions C210_steps.

(** It ends at the requested time step if the pipeline's length divides the
    number of nano steps. *)
Theorem C210_ends_in_time : forall C t st nanos upd dim wdim len fuel start last (g : vgrid C) s calls, (1 <= nanos)%nat -> (1 <= len)%nat -> (start <= last)%nat ->
  Nat.divide len (nanos * (last - start)) -> cache_run t st nanos upd dim wdim len fuel start last g = Some (s, calls) ->
  ca_step s = last /\ ca_nano s = 0%nat.
Proof.
  intros C t st nanos upd dim wdim len fuel start last g s calls Hn Hl Hs [m Hm] E. destruct (C210_steps _ _ _ _ _ _ _ _ _ _ _ _ _ _ Hn Hl E) as (_ & H1 & k & H2 & H3 & H4).
  assert (Hk : k = m).
  { destruct H4 as [[-> H4]|[H4 H5]].
    - assert (last - start = 0)%nat by lia. assert (m * len = 0)%nat by nia. nia.
    - assert (start * nanos + m * len = last * nanos)%nat by nia. assert (last * nanos <= start * nanos + k * len)%nat by nia. assert (k <= m)%nat by nia. nia. }
  subst k. assert (ca_step s * nanos + ca_nano s = last * nanos)%nat by nia. assert (ca_step s < last + 1)%nat by nia. assert (ca_step s = last) by lia. split; [assumption|]. subst last. lia.
Qed.
Print Assumptions C210_ends_in_time.

Definition add1 (n : nat) (vs : list Z) : Z := fold_right Z.add 1 vs.
Definition column (t : topology) (nanos len fuel start last : nat) (cells : list Z) : option (cache Z * list iocall) :=
  cache_run t (mkStencil VonNeumann 3 1) nanos add1 [Z.of_nat (length cells); 1; 1] (1, 1) len fuel start last (mkVGrid [Z.of_nat (length cells); 1; 1] cells 0).

(** Six nano steps, two at a time, three to a time step. *)
Example C210_example : Nat.divide 2 (3 * (7 - 5)) /\
  exists s calls, column cube3 3 2 3 5 7 [1; 2; 3; 4] = Some (s, calls) /\ ca_step s = 7%nat /\ ca_nano s = 0%nat /\ calls = [(5%nat, IoInitialized); (7%nat, IoAllDone)].
Proof. split; [exists 3%nat; reflexivity|]. eexists. eexists. split; [vm_compute; reflexivity|]. repeat split. Qed.

(** ** C211: results *)

(** On a single plane and without pipelining, a simulation of any length
    yields the cells which result from updating each cell with its
    neighborhood. *)
Theorem C211_plane_partial : forall C t st nanos upd dy dx wy wx fuel start last (g : vgrid C) init,
  let dim := [1; dy; dx] in 0 < dy -> 0 < dx -> 0 < wy -> 0 < wx -> (1 <= nanos)%nat -> length t = 3%nat -> st_dim st = 3%nat ->
  (forall c, in_grid dim c -> Forall (close_by dim) (neighbors st c)) -> (nanos * (last - start) <= fuel)%nat ->
  grid_reach t dim g -> holds t dim g init ->
  exists s calls, cache_run t st nanos upd dim (wy, wx) 1 fuel start last g = Some (s, calls) /\ ca_step s = Nat.max start last /\
    holds t dim (ca_cur s) (world t dim st nanos upd init (nanos * (last - start))).
Proof.
  intros C t st nanos upd dy dx wy wx fuel start last g init dim Hy Hx Hwy Hwx Hn Ht Hst Hnb Hf Hg (G1 & G2 & G3).
  assert (Hp : allpos dim) by (unfold dim; repeat constructor; lia). assert (Hne : dim <> []) by discriminate. assert (Hlt : length t = length dim) by (rewrite Ht; reflexivity).
  destruct (grid_reach_rep t dim g Hne Hlt Hp Hg) as (f & R). pose proof R as (R1 & R2 & R3 & R4).
  assert (Ri : rep dim g init).
  { split; [exact R1|]. split; [exact R2|]. split; [exact G2|]. intros c Hc. rewrite R4 by exact Hc. rewrite <- G3 by exact Hc.
    symmetry. rewrite (rep_get t dim Hlt Hp g f c R) by now apply in_grid_close. now rewrite denotes_self. }
  assert (Hst0 : progress t st nanos upd dy dx init start 0 (mkCache g g (make_buffer (wy, wx) 1 (g_edge g)) 0 start)).
  { split; [cbn; now rewrite Nat.mod_0_l by lia|]. split; [cbn; rewrite Nat.div_0_l by lia; lia|]. split; [exact Ri|]. exists init. split; [exact Ri|reflexivity]. }
  destruct (loop_progress t st nanos upd dy dx wy wx Hy Hx Hwy Hwx Ht Hst Hnb Hn init start last (nanos * (last - start)) 0 _ fuel Hst0 ltac:(lia) Hf) as (s & E & H).
  exists s. eexists. split; [unfold cache_run; fold dim in E; rewrite E; reflexivity|]. destruct H as (_ & H2 & H3 & _). split.
  - rewrite H2. rewrite Nat.mul_comm, Nat.div_mul by lia. lia.
  - pose proof H3 as (K1 & _ & K3 & _). split; [exact K1|]. split; [exact K3|]. intros c Hc. fold dim in H3.
    rewrite (rep_get t dim Hlt Hp _ _ c H3) by now apply in_grid_close. now rewrite denotes_self.
Qed.
Print Assumptions C211_plane_partial.

(** A plane of 2 x 3 cells, periodic along X, in wavefronts of 1 x 2 cells. *)
Example C211_plane_example :
  let t := [false; false; true] in let st := mkStencil VonNeumann 3 1 in let dim := [1; 2; 3] in
  let g := mkVGrid dim [1; 2; 3; 4; 5; 6] 10 in
  let init (p : place) := match p with Some [_; y; x] => 3 * y + x + 1 | _ => 10 end in
  (forall c, in_grid dim c -> Forall (close_by dim) (neighbors st c)) /\ grid_reach t dim g /\ holds t dim g init /\
  exists s calls, cache_run t st 1 add1 dim (1, 2) 1 2 4 6 g = Some (s, calls) /\ g_cells (ca_cur s) = [204; 205; 206; 216; 217; 218] /\
    map (fun c => world t dim st 1 add1 init 2 (Some c)) [[0; 0; 0]; [0; 0; 1]; [0; 0; 2]; [0; 1; 0]; [0; 1; 1]; [0; 1; 2]] = g_cells (ca_cur s).
Proof.
  cbv zeta. split.
  { intros c Hc. destruct c as [|z [|y [|x [|? ?]]]]; cbn in Hc; try tauto. unfold neighbors. cbn. repeat constructor; cbn; lia. }
  split.
  { apply (greach_op _ _ (mkVGrid [1; 2; 3] [1; 2; 3; 0; 0; 0] 10) (GSetStreak (mkStreak [0; 1] 0 3) [4; 5; 6])); [|split; [cbn; lia|split; [repeat constructor; cbn; lia|reflexivity]]|reflexivity].
    apply (greach_op _ _ (mkVGrid [1; 2; 3] [0; 0; 0; 0; 0; 0] 10) (GSetStreak (mkStreak [0; 0] 0 3) [1; 2; 3])); [|split; [cbn; lia|split; [repeat constructor; cbn; lia|reflexivity]]|reflexivity].
    exact (greach_make [false; false; true] [1; 2; 3] 0 10). }
  split.
  { split; [reflexivity|]. split; [reflexivity|]. intros c Hc. destruct c as [|z [|y [|x [|? ?]]]]; cbn in Hc; try tauto.
    assert (z = 0) as -> by lia. assert (y = 0 \/ y = 1) as [-> | ->] by lia; assert (x = 0 \/ x = 1 \/ x = 2) as [-> | [-> | ->]] by lia; reflexivity. }
  eexists. eexists. split; [vm_compute; reflexivity|]. split; vm_compute; reflexivity.
Qed.

Lemma witness_of (o : option (cache Z * list iocall)) v e k c : option_map (fun '(s, l) => (g_cells (ca_cur s), g_edge (ca_cur s), ca_step s, l)) o = Some (v, e, k, c) ->
  exists s, o = Some (s, c) /\ g_cells (ca_cur s) = v /\ g_edge (ca_cur s) = e /\ ca_step s = k.
Proof. destruct o as [[s l]|]; [|discriminate]. cbn. intros H. injection H as <- <- <- <-. now exists s. Qed.

Definition column_init (cells : list Z) (p : place) : Z := match p with Some [z; 0; 0] => nth (Z.to_nat z) cells 0 | _ => 0 end.

(** As soon as there is another plane, the results are different: the plane's
    index is added both to the coordinates of the frame, and by the offsets. The
    second plane isn't updated at all; the edge cell is overwritten instead. *)
Theorem C211_planes_refuted : exists s calls, column cube3 1 1 1 0 1 [1; 2] = Some (s, calls) /\
  g_cells (ca_cur s) = [4; 2] /\ g_edge (ca_cur s) <> 0 /\
  map (fun c => world cube3 [2; 1; 1] (mkStencil VonNeumann 3 1) 1 add1 (column_init [1; 2]) 1 (Some c)) [[0; 0; 0]; [1; 0; 0]] = [4; 4].
Proof.
  destruct (witness_of (column cube3 1 1 1 0 1 [1; 2]) [4; 2] 3 1 [(0%nat, IoInitialized); (1%nat, IoAllDone)]) as (s & E & E1 & E2 & _); [vm_compute; reflexivity|].
  exists s. eexists. split; [exact E|]. split; [exact E1|]. split; [rewrite E2; discriminate|]. vm_compute. reflexivity.
Qed.
Print Assumptions C211_planes_refuted.

(** Nor are they correct with a pipeline, whose length divides the number of
    steps. *)
Theorem C211_pipeline_refuted : exists s calls, column cube3 1 2 1 0 2 [1; 2; 3; 4] = Some (s, calls) /\ ca_step s = 2%nat /\
  g_cells (ca_cur s) <> map (fun c => world cube3 [4; 1; 1] (mkStencil VonNeumann 3 1) 1 add1 (column_init [1; 2; 3; 4]) 2 (Some c)) [[0; 0; 0]; [1; 0; 0]; [2; 0; 0]; [3; 0; 0]].
Proof.
  destruct (witness_of (column cube3 1 2 1 0 2 [1; 2; 3; 4]) [6; 2; 2; 4] 2 2 [(0%nat, IoInitialized); (2%nat, IoAllDone)]) as (s & E & E1 & _ & E2); [vm_compute; reflexivity|].
  exists s. eexists. split; [exact E|]. split; [exact E2|]. rewrite E1. vm_compute. discriminate.
Qed.
Print Assumptions C211_pipeline_refuted.

(** Pipelines which are long compared to the number of planes access frames
    that don't exist. *)
Theorem C211_long_pipeline_refuted : exists fuel, (1 <= fuel)%nat /\ column cube3 1 3 fuel 0 3 [1; 2] = None /\ exists r, column cube3 1 2 fuel 0 2 [1; 2] = Some r.
Proof. exists 1%nat. split; [lia|]. split; [vm_compute; reflexivity|]. eexists. vm_compute. reflexivity. Qed.
Print Assumptions C211_long_pipeline_refuted.

(** The simulation goes beyond its end if the pipeline's length doesn't divide
    the number of steps, and writers miss all time steps but the first and the
    last. *)
Theorem C211_end_refuted : exists s calls, column cube3 1 2 2 0 3 [1] = Some (s, calls) /\ ca_step s = 4%nat /\ calls <> io_schedule 0 3 1 3.
Proof.
  destruct (witness_of (column cube3 1 2 2 0 3 [1]) [5] 0 4 [(0%nat, IoInitialized); (4%nat, IoAllDone)]) as (s & E & _ & _ & E2); [vm_compute; reflexivity|].
  exists s. eexists. split; [exact E|]. split; [exact E2|]. vm_compute. discriminate.
Qed.
Print Assumptions C211_end_refuted.
