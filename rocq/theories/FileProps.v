(** C97-C101: checkpoints via MPI-IO, BOV files. *)
From Coq Require Import Sorted Permutation.
From Verif Require Import Base ListFacts RegionSpec RegionModel RegionRep RegionOpsModel RegionIterModel RegionStreaks CoordModel CoordSpec CoordFacts CoordProps GridModel GridFacts PatchModel HaloSpec SellFacts FileModel FileFacts.

(** A datatype without gaps, whose values survive packing and unpacking. *)
Definition gapless {B A} (T : dtype B A) (ok : A -> Prop) : Prop := packs T ok /\ dt_ext T = dt_size T.

(** A process writes its part of the grid [g] with edge cell [e]. *)
Definition writes_part {A} (d : nat) (dims : coord) (e : A) (g : coord -> A) (k : wcall (A := A)) : Prop :=
  rvalid d (w_region k) /\ (forall c, inr d (w_region k) c -> in_grid dims c /\ w_get k c = g c) /\ (w_rank k = 0 -> w_edge k = e).

(** ** C97 *)

(** What was written by some processes can be read by others, no matter how
    the grid was and is divided, in which order the writes took place, and what
    the file contained before. *)
Theorem C97_restart : forall B A (TC : dtype B coord) (TU : dtype B Z) (T : dtype B A) okU t d dims step maxs e g ks,
  gapless TC (fun c => length c = S d) -> gapless TU okU -> gapless T (fun _ => True) ->
  allpos dims -> length dims = S d -> length t = S d -> okU step -> okU maxs ->
  Forall (writes_part d dims e g) ks -> (exists k, In k ks /\ w_rank k = 0) ->
  exists ws, mpiio_writes TC TU T t dims step maxs ks = Some ws /\
  forall ws' f0, Permutation ws ws' -> let f := run_writes f0 ws' in
    read_metadata TC TU f = Some (dims, step, maxs) /\
    forall r, rvalid d r -> (forall c, inr d r c -> exists k, In k ks /\ inr d (w_region k) c) ->
    exists l, read_region TC TU T t f r = Some (e, l) /\
      (forall s cells, In (s, cells) l -> cells = map g (streak_coords s)) /\
      region_coords r = Some (flat_map (fun p => streak_coords (fst p)) l).
Proof.
  intros B A TC TU T okU t d dims step maxs e g ks [HC XC] [HU XU] [HT XT] Hd Hld Hlt Hst Hmx Hks (k0 & Hk0 & E0).
  destruct (all_writes TC TU T t okU d dims step maxs e g HT HC HU XT XC XU Hd Hld Hlt Hst Hmx ks Hks) as (ws & Ew & Hf & Hh & Hc).
  exists ws. split; [exact Ew|]. intros ws' f0 Hp f.
  assert (Hf' : Forall (fits (image TC TU T dims step maxs e g)) ws') by (eapply Permutation_Forall; eauto).
  assert (Hrun : forall i, (exists w, In w ws /\ covers w i) -> f i = nth_error (image TC TU T dims step maxs e g) (Z.to_nat i)).
  { intros i (w & Hw & Hcv). apply run_writes_spec; [exact Hf'|]. left. exists w. split; [eapply Permutation_in; eauto|exact Hcv]. }
  assert (Hfh : forall i, 0 <= i < header_length TC TU T -> f i = nth_error (image TC TU T dims step maxs e g) (Z.to_nat i)) by (intros i Hi; apply Hrun; eauto).
  split.
  - eapply read_metadata_spec; eauto.
  - intros r Hv Hr. eapply (read_region_spec TC TU T t okU d dims step maxs e g HT HC HU XT XC XU Hd Hld Hlt Hst Hmx f Hfh
      (fun c => exists k, In k ks /\ inr d (w_region k) c)); [|exact Hv|].
    + intros c o (k & Hk & Hi) Ho. apply Hrun. eauto.
    + intros c Hi. destruct (Hr c Hi) as (k & Hk & Hik). split; [|eauto]. rewrite Forall_forall in Hks. now apply (proj1 (proj2 (Hks k Hk))).
Qed.
Print Assumptions C97_restart.

(** If the processes cover the grid, then the file consists of the header and
    the cells in lexicographic order, hence doesn't depend on the number of
    processes nor on the partition. *)
Theorem C97_file_layout : forall B A (TC : dtype B coord) (TU : dtype B Z) (T : dtype B A) okU t d dims step maxs e g ks all,
  gapless TC (fun c => length c = S d) -> gapless TU okU -> gapless T (fun _ => True) ->
  allpos dims -> length dims = S d -> length t = S d -> okU step -> okU maxs ->
  Forall (writes_part d dims e g) ks -> (exists k, In k ks /\ w_rank k = 0) ->
  (forall c, in_grid dims c -> exists k, In k ks /\ inr d (w_region k) c) ->
  StronglySorted coord_lt all -> (forall c, In c all <-> in_grid dims c) ->
  exists ws, mpiio_writes TC TU T t dims step maxs ks = Some ws /\
  forall ws' f0 i, Permutation ws ws' ->
    let bytes := dt_pack TC dims ++ dt_pack TU step ++ dt_pack TU maxs ++ dt_pack T e ++ flat_map (dt_pack T) (map g all) in
    0 <= i < Z.of_nat (length bytes) -> run_writes f0 ws' i = nth_error bytes (Z.to_nat i).
Proof.
  intros B A TC TU T okU t d dims step maxs e g ks all [HC XC] [HU XU] [HT XT] Hd Hld Hlt Hst Hmx Hks (k0 & Hk0 & E0) Hcov Hs Hall.
  destruct (all_writes TC TU T t okU d dims step maxs e g HT HC HU XT XC XU Hd Hld Hlt Hst Hmx ks Hks) as (ws & Ew & Hf & Hh & Hc).
  exists ws. split; [exact Ew|]. intros ws' f0 i Hp bytes Hi.
  assert (Eb : bytes = image TC TU T dims step maxs e g).
  { unfold bytes, image, head. rewrite (in_order_list dims g all Hd (conj Hs Hall)), <- !app_assoc. reflexivity. }
  rewrite Eb in *. apply run_writes_spec; [eapply Permutation_Forall; eauto|]. left.
  assert (Hw : exists w, In w ws /\ covers w i).
  { destruct (Z_lt_le_dec i (header_length TC TU T)) as [Hlt'|Hge]; [eapply Hh; eauto; lia|].
    pose proof (proj1 HT) as Hsz. unfold image in Hi. rewrite app_length in Hi.
    pose proof (head_length TC TU T t okU d dims step maxs e g HT HC HU XT XC XU Hld Hlt Hst Hmx) as Hhl.
    pose proof (flat_length T (in_order dims g) HT) as Hfl. unfold in_order in Hfl at 2. rewrite map_length, zrange_length in Hfl.
    pose proof (prod_pos dims Hd) as Hpp. rewrite Z.sub_0_r, Z2Nat.id in Hfl by lia.
    set (j := i - header_length TC TU T). assert (Hj : 0 <= j < prod dims * dt_size T) by (unfold j; lia).
    pose proof (Z.div_mod j (dt_size T) ltac:(lia)) as Ej. pose proof (Z.mod_pos_bound j (dt_size T) Hsz) as Bj.
    assert (Bq : 0 <= j / dt_size T < prod dims) by (split; [apply Z.div_pos; lia|apply Z.div_lt_upper_bound; lia]).
    pose proof (from_index_in dims Hd (j / dt_size T) Bq) as Hg. destruct (Hcov _ Hg) as (k & Hk & Hik).
    destruct (Hc k _ (j mod dt_size T) Hk Hik Bj) as (w & Hw & Hcv). exists w. split; [exact Hw|].
    rewrite to_from in Hcv by auto. replace i with (header_length TC TU T + j / dt_size T * dt_size T + j mod dt_size T); [exact Hcv|].
    unfold j in *. set (q1 := (i - header_length TC TU T) / dt_size T) in *. set (r1 := (i - header_length TC TU T) mod dt_size T) in *. nia. }
  destruct Hw as (w & Hw & Hcv). exists w. split; [eapply Permutation_in; eauto|exact Hcv].
Qed.
Print Assumptions C97_file_layout.

(** Datatypes of one byte per integer: a coordinate of two dimensions, an
    unsigned, a cell of two bytes. *)
Definition tc2 : dtype Z coord := mkDType 2 2 (fun c => c) (fun l => l).
Definition tu1 : dtype Z Z := mkDType 1 1 (fun x => [x]) (fun l => nth 0 l 0).
Definition tcell : dtype Z (Z * Z) := mkDType 2 2 (fun p => [fst p; snd p]) (fun l => (nth 0 l 0, nth 1 l 0)).

Lemma tc2_gapless : gapless tc2 (fun c => length c = 2%nat).
Proof. split; [|reflexivity]. split; [cbn; lia|]. intros c Hc. cbn [tc2 dt_pack dt_size dt_unpack]. split; [lia|reflexivity]. Qed.
Lemma tu1_gapless : gapless tu1 (fun _ => True).
Proof. split; [|reflexivity]. split; [cbn; lia|]. intros c Hc. split; reflexivity. Qed.
Lemma tcell_gapless : gapless tcell (fun _ => True).
Proof. split; [|reflexivity]. split; [cbn; lia|]. intros [a b] Hc. split; reflexivity. Qed.

Definition reg_of (ss : list streak) : indices := fold_left reg_insert ss (reg_empty 2).

Lemma reg_of_spec ss : Forall (fun s => length (s_pre s) = 1%nat) ss ->
  rvalid 1 (reg_of ss) /\ forall c, inr 1 (reg_of ss) c <-> length c = 2%nat /\ in_streaks ss c.
Proof.
  intros H. assert (G : forall r, rvalid 1 r -> let r' := fold_left reg_insert ss r in
    rvalid 1 r' /\ forall c, length c = 2%nat -> (rin r' c <-> rin r c \/ in_streaks ss c)).
  { induction H as [|s ss Hs _ IH]; intros r Hr; cbn [fold_left].
    - split; [exact Hr|]. intros c Hc. split; [auto|]. intros [H|(x & [] & _)]; exact H.
    - destruct (insert_valid 1 r s Hr Hs) as [Hv Hm]. destruct (IH _ Hv) as [Hv' Hm']. split; [exact Hv'|]. intros c Hc. rewrite Hm', Hm by exact Hc.
      unfold in_streaks. split.
      + intros [[H|H]|(x & H & H')]; [now left|right; exists s; split; [now left|exact H]|right; exists x; split; [now right|exact H']].
      + intros [H|(x & [<-|H] & H')]; [auto|auto|right; eauto]. }
  destruct (G _ (rvalid_empty 1)) as [Hv Hm]. split; [exact Hv|]. intros c. unfold inr. split.
  - intros [Hl Hi]. split; [exact Hl|]. apply Hm in Hi; [|exact Hl]. destruct Hi as [Hi|Hi]; [|exact Hi]. exfalso. revert Hi. now apply rin_empty.
  - intros [Hl Hi]. split; [exact Hl|]. apply Hm; auto.
Qed.

Definition ex_g (c : coord) : Z * Z := match c with [y; x] => (100 + y, x) | _ => (0, 0) end.
Definition ex_calls : list wcall :=
  [mkWCall 0 ex_g (7, 8) (reg_of [mkStreak [0] 0 4; mkStreak [1] 0 1]);
   mkWCall 1 ex_g (0, 0) (reg_of [mkStreak [1] 1 4; mkStreak [2] 0 4])].

(** Two processes write a grid of 4x3 cells; its bytes are read back with a
    different division. *)
Example C97_example : exists ws, mpiio_writes tc2 tu1 tcell [false; false] [3; 4] 5 9 ex_calls = Some ws /\
  let f := run_writes (fun _ => None) (rev ws) in
  read_at f 0 30 = Some ([3; 4; 5; 9; 7; 8; 100; 0; 100; 1; 100; 2; 100; 3; 101; 0; 101; 1; 101; 2; 101; 3; 102; 0; 102; 1; 102; 2; 102; 3]) /\
  read_metadata tc2 tu1 f = Some ([3; 4], 5, 9) /\
  read_region tc2 tu1 tcell [false; false] f (reg_of [mkStreak [0] 2 4; mkStreak [1] 0 4]) =
    Some ((7, 8), [(mkStreak [0] 2 4, [(100, 2); (100, 3)]); (mkStreak [1] 0 4, [(101, 0); (101, 1); (101, 2); (101, 3)])]).
Proof. eexists. split; [vm_compute; reflexivity|]. vm_compute. repeat split. Qed.

(** These calls meet the hypotheses. *)
Example C97_example_calls : Forall (writes_part 1 [3; 4] (7, 8) ex_g) ex_calls /\
  forall c, in_grid [3; 4] c -> exists k, In k ex_calls /\ inr 1 (w_region k) c.
Proof.
  assert (H1 : Forall (fun s => length (s_pre s) = 1%nat) [mkStreak [0] 0 4; mkStreak [1] 0 1]) by (repeat constructor).
  assert (H2 : Forall (fun s => length (s_pre s) = 1%nat) [mkStreak [1] 1 4; mkStreak [2] 0 4]) by (repeat constructor).
  destruct (reg_of_spec _ H1) as [V1 M1]. destruct (reg_of_spec _ H2) as [V2 M2].
  assert (G : forall ss c, (forall s, In s ss -> exists y, s_pre s = [y] /\ 0 <= y < 3 /\ 0 <= s_x s /\ s_e s <= 4) -> in_streaks ss c -> in_grid [3; 4] c).
  { intros ss c H (s & Hs & x & -> & Hx). destruct (H s Hs) as (y & -> & Hy & L1 & L2). cbn. lia. }
  split.
  - unfold ex_calls. apply Forall_cons; [|apply Forall_cons; [|constructor]]; unfold writes_part; cbn [w_region w_get w_rank w_edge].
    + split; [exact V1|]. split; [|reflexivity]. intros c Hc. apply M1 in Hc. split; [|reflexivity]. refine (G _ c _ (proj2 Hc)).
      intros s [<-|[<-|[]]]; eexists; (split; [reflexivity|cbn; lia]).
    + split; [exact V2|]. split; [|lia]. intros c Hc. apply M2 in Hc. split; [|reflexivity]. refine (G _ c _ (proj2 Hc)).
      intros s [<-|[<-|[]]]; eexists; (split; [reflexivity|cbn; lia]).
  - intros [|y [|x [|z c]]] Hc; cbn in Hc; try tauto. destruct Hc as (Hy & Hx & _).
    assert (S : forall s, s_pre s = [y] -> s_x s <= x < s_e s -> in_streak s [y; x]) by (intros s E Hs; apply (in_streak_snoc s [y] x); auto).
    assert (C : y = 0 \/ y = 1 /\ x < 1 \/ y = 1 /\ 1 <= x \/ y = 2) by lia. destruct C as [->|[[-> H]|[[-> H]| ->]]].
    + eexists. split; [now left|]. apply M1. split; [reflexivity|]. exists (mkStreak [0] 0 4). split; [now left|]. apply S; cbn; [reflexivity|lia].
    + eexists. split; [now left|]. apply M1. split; [reflexivity|]. exists (mkStreak [1] 0 1). split; [now right; left|]. apply S; cbn; [reflexivity|lia].
    + eexists. split; [right; now left|]. apply M2. split; [reflexivity|]. exists (mkStreak [1] 1 4). split; [now left|]. apply S; cbn; [reflexivity|lia].
    + eexists. split; [right; now left|]. apply M2. split; [reflexivity|]. exists (mkStreak [2] 0 4). split; [now right; left|]. apply S; cbn; [reflexivity|lia].
Qed.

(** ** C98 *)

(** On a torus, grids of processes may extend beyond the borders (DisplacedGrid
    with a negative origin). The origin of each Streak is normalised, but the
    remainder of the Streak is read from what follows in the file, i.e. from the
    next row. *)
Theorem C98_wrapped_streak_refuted : exists ws s cells,
  mpiio_writes tc2 tu1 tcell [true; true] [3; 4] 5 9 ex_calls = Some ws /\
  read_region tc2 tu1 tcell [true; true] (run_writes (fun _ => None) ws) (reg_of [s]) = Some ((7, 8), [(s, cells)]) /\
  s = mkStreak [0] (-1) 3 /\
  cells = [(100, 3); (101, 0); (101, 1); (101, 2)] /\
  map (fun c => ex_g (normalize [true; true] c [3; 4])) (streak_coords s) = [(100, 3); (100, 0); (100, 1); (100, 2)].
Proof. eexists _, (mkStreak [0] (-1) 3), _. split; [vm_compute; reflexivity|]. split; [vm_compute; reflexivity|]. repeat split. Qed.
Print Assumptions C98_wrapped_streak_refuted.

(** ** C99 *)

(** If a datatype has gaps, offsets count them, but MPI-IO doesn't write them.
    A Streak can then be read only as a whole. *)
Definition tgap : dtype Z (Z * Z) := mkDType 2 3 (fun p => [fst p; snd p]) (fun l => (nth 0 l 0, nth 1 l 0)).

Theorem C99_gaps_refuted : exists ws cells,
  packs tgap (fun _ => True) /\
  mpiio_writes tc2 tu1 tgap [false; false] [1; 4] 5 9 [mkWCall 0 ex_g (7, 8) (reg_of [mkStreak [0] 0 4])] = Some ws /\
  let f := run_writes (fun _ => None) ws in
  read_region tc2 tu1 tgap [false; false] f (reg_of [mkStreak [0] 0 4]) = Some ((7, 8), [(mkStreak [0] 0 4, map ex_g (streak_coords (mkStreak [0] 0 4)))]) /\
  read_region tc2 tu1 tgap [false; false] f (reg_of [mkStreak [0] 2 3]) = Some ((7, 8), [(mkStreak [0] 2 3, cells)]) /\
  cells <> map ex_g (streak_coords (mkStreak [0] 2 3)).
Proof.
  eexists _, _. split; [split; [cbn; lia|]; intros [a b] _; split; reflexivity|]. split; [vm_compute; reflexivity|].
  split; [vm_compute; reflexivity|]. split; [vm_compute; reflexivity|]. vm_compute. discriminate.
Qed.
Print Assumptions C99_gaps_refuted.

(** ** C100 *)

(** BOVWriter, member with a single component: the data file contains the
    members of all cells in lexicographic order, regardless of who writes which
    cells when. *)
Theorem C100_parallel_bov : forall B A E (T : dtype B E) t (m : A -> E) d dims g ks all,
  gapless T (fun _ => True) -> allpos dims -> length dims = S d -> length t = S d ->
  Forall (fun k => rvalid d (w_region k) /\ (forall c, inr d (w_region k) c -> in_grid dims c /\ w_get k c = g c)) ks ->
  (forall c, in_grid dims c -> exists k, In k ks /\ inr d (w_region k) c) ->
  StronglySorted coord_lt all -> (forall c, In c all <-> in_grid dims c) ->
  exists ws, bov_writes T t 1 (fun a => [m a]) dims ks = Some ws /\
  forall ws' f0 i, Permutation ws ws' ->
    let bytes := flat_map (fun c => dt_pack T (m (g c))) all in
    0 <= i < Z.of_nat (length bytes) -> run_writes f0 ws' i = nth_error bytes (Z.to_nat i).
Proof.
  intros B A E T t m d dims g ks all [HT XT] Hd Hld Hlt Hks Hcov Hs Hall.
  destruct (bov_all_writes T t m d dims g HT XT Hd Hld Hlt ks Hks) as (ws & Ew & Hf & Hc).
  exists ws. split; [exact Ew|]. intros ws' f0 i Hp bytes Hi.
  assert (Eb : bytes = bov_image T m dims g).
  { unfold bytes, bov_image. rewrite (in_order_list dims _ all Hd (conj Hs Hall)). now rewrite !flat_map_concat_map, map_map. }
  rewrite Eb in *. apply run_writes_spec; [eapply Permutation_Forall; eauto|]. left.
  pose proof (proj1 HT) as Hsz. unfold bov_image in Hi. rewrite flat_length in Hi by exact HT. unfold in_order in Hi. rewrite map_length, zrange_length in Hi.
  pose proof (prod_pos dims Hd) as Hpp. rewrite Z.sub_0_r, Z2Nat.id in Hi by lia.
  pose proof (Z.div_mod i (dt_size T) ltac:(lia)) as Ej. pose proof (Z.mod_pos_bound i (dt_size T) Hsz) as Bj.
  assert (Bq : 0 <= i / dt_size T < prod dims) by (split; [apply Z.div_pos; lia|apply Z.div_lt_upper_bound; lia]).
  pose proof (from_index_in dims Hd (i / dt_size T) Bq) as Hg. destruct (Hcov _ Hg) as (k & Hk & Hik).
  destruct (Hc k _ (i mod dt_size T) Hk Hik Bj) as (w & Hw & Hcv). exists w. split; [eapply Permutation_in; eauto|].
  rewrite to_from in Hcv by auto. replace i with (i / dt_size T * dt_size T + i mod dt_size T); [exact Hcv|].
  set (q1 := i / dt_size T) in *. set (r1 := i mod dt_size T) in *. nia.
Qed.
Print Assumptions C100_parallel_bov.

Lemma snoc_lt p : forall q x, length p = length q -> coord_lt (p ++ [x]) (q ++ [x]) -> coord_lt p q.
Proof.
  induction p as [|a p IH]; intros [|b q] x Hl H; try discriminate.
  - cbn in H. lia.
  - cbn [app coord_lt] in *. destruct H as [H|[-> H]]; [now left|]. right. split; [reflexivity|]. apply IH with x; auto.
Qed.

(** SerialBOVWriter, any number of components: the same layout. *)
Theorem C100_serial_bov : forall B A E (T : dtype B E) (member : A -> list E) b d g all,
  length (b_origin b) = S d -> length (b_dim b) = S d -> allpos (b_dim b) ->
  StronglySorted coord_lt all -> (forall c, In c all <-> in_box b c) ->
  exists fuel0, forall fuel, (fuel0 <= fuel)%nat ->
    serial_bov T member fuel b g = Some (flat_map (fun c => flat_map (dt_pack T) (member (g c))) all).
Proof.
  intros B A E T member b d g all Ho Hdl Hd Hs Hall.
  assert (Hr : rows_regular b).
  { unfold rows_regular. unfold allpos in Hd. destruct (b_dim b) as [|m ms]; [discriminate|]. inversion Hd as [|? ? Hm Hms]; subst. destruct ms as [|m2 ms]; [exact I|].
    split; [lia|]. clear - Hms. revert Hms. generalize (m2 :: ms) as l. induction l as [|a [|b l] IH]; intros H; [constructor|constructor|].
    inversion H; subst. change (removelast (a :: b :: l)) with (a :: removelast (b :: l)). constructor; auto. }
  destruct (C10_box_streak_iteration d b Ho Hdl Hr) as (l & Hl & Hin & Hso & Hx).
  eexists. intros fuel Hf. unfold serial_bov. rewrite (Hl fuel Hf). cbn [option_map]. f_equal.
  assert (Hlen : forall s, In s l -> length (s_pre s) = d /\ s_x s = last (b_origin b) 0 /\ s_x s < s_e s).
  { intros s Hi. rewrite Forall_forall in Hx. destruct (Hx s Hi) as [E1 E2].
    assert (Hlast : 0 < last (b_dim b) 0). { unfold allpos in Hd. rewrite Forall_forall in Hd. apply Hd. rewrite (app_removelast_last 0 (l := b_dim b)) at 2 by (intros E0; rewrite E0 in Hdl; discriminate). apply in_or_app. right. now left. }
    assert (Hc : in_box b (s_pre s ++ [s_x s])) by (apply Hin; exists s; split; [exact Hi|]; apply in_streak_snoc; split; [reflexivity|lia]).
    unfold in_box in Hc. apply inside_length in Hc. destruct Hc as [_ Hc]. rewrite app_length in Hc. cbn in Hc. split; [lia|]. split; [exact E1|lia]. }
  assert (Eall : all = flat_map streak_coords l).
  { apply sorted_unique; [exact Hs| |].
    - apply (coords_sorted d). split; [|apply Forall_forall; intros s Hi; destruct (Hlen s Hi) as (L1 & _ & L3); auto].
      clear - Hso Hlen. induction l as [|s l IH]; [constructor|]. cbn [map] in Hso. inversion Hso as [|? ? Hso' Ha]; subst. constructor.
      + apply IH; [exact Hso'|]. intros s' Hi. apply Hlen. now right.
      + apply Forall_forall. intros s' Hi. rewrite Forall_forall in Ha. specialize (Ha (s_origin s') (in_map _ _ _ Hi)).
        destruct (Hlen s (or_introl eq_refl)) as (L1 & L2 & _). destruct (Hlen s' (or_intror Hi)) as (L1' & L2' & _).
        left. unfold s_origin in Ha. rewrite L2, L2' in Ha. apply snoc_lt in Ha; [exact Ha|lia].
    - intros c. rewrite Hall, <- Hin, in_flat_map. unfold in_streaks. split; intros (s & Hi & Hc); exists s; (split; [exact Hi|]); now apply streak_coords_in. }
  rewrite Eall. clear. induction l as [|s l IH]; [reflexivity|]. cbn [flat_map]. rewrite flat_map_app, IH. f_equal.
  unfold bov_buffer. generalize (streak_coords s) as cs. clear. induction cs as [|c cs IH]; [reflexivity|]. cbn [map flat_map]. now rewrite flat_map_app, IH.
Qed.
Print Assumptions C100_serial_bov.

(** Hence both write the same file. *)
Corollary C100_same_file : forall B A E (T : dtype B E) t (m : A -> E) d dims g ks,
  gapless T (fun _ => True) -> allpos dims -> length dims = S d -> length t = S d ->
  Forall (fun k => rvalid d (w_region k) /\ (forall c, inr d (w_region k) c -> in_grid dims c /\ w_get k c = g c)) ks ->
  (forall c, in_grid dims c -> exists k, In k ks /\ inr d (w_region k) c) ->
  exists ws bytes fuel0, bov_writes T t 1 (fun a => [m a]) dims ks = Some ws /\
    (forall fuel, (fuel0 <= fuel)%nat -> serial_bov T (fun a => [m a]) fuel (mkBox (map (fun _ => 0) dims) dims) g = Some bytes) /\
    Z.of_nat (length bytes) = prod dims * dt_size T /\
    forall ws' f0 i, Permutation ws ws' -> 0 <= i < Z.of_nat (length bytes) -> run_writes f0 ws' i = nth_error bytes (Z.to_nat i).
Proof.
  intros B A E T t m d dims g ks Hg Hd Hld Hlt Hks Hcov. destruct (grid_list_from dims Hd) as [Hs Hi].
  destruct (C100_parallel_bov B A E T t m d dims g ks _ Hg Hd Hld Hlt Hks Hcov Hs Hi) as (ws & Ew & Hw).
  destruct (C100_serial_bov B A E T (fun a => [m a]) (mkBox (map (fun _ => 0) dims) dims) d g _ ltac:(cbn; now rewrite map_length) Hld Hd Hs Hi) as (fuel0 & Hf).
  assert (Eb : forall l : list coord, flat_map (fun c => flat_map (dt_pack T) [m (g c)]) l = flat_map (fun c => dt_pack T (m (g c))) l).
  { intros l. apply flat_map_ext. intros c. cbn [flat_map]. apply app_nil_r. }
  rewrite Eb in Hf. eexists ws, _, fuel0. split; [exact Ew|]. split; [exact Hf|]. split; [|intros; now apply Hw].
  rewrite flat_map_concat_map, <- (map_map (fun c => m (g c)) (dt_pack T)), <- flat_map_concat_map, flat_length by exact (proj1 Hg).
  rewrite !map_length, zrange_length, Z.sub_0_r, Z2Nat.id; [reflexivity|]. pose proof (prod_pos dims Hd). lia.
Qed.
Print Assumptions C100_same_file.

Definition telem : dtype Z Z := mkDType 1 1 (fun x => [x]) (fun l => nth 0 l 0).

Example C100_example : exists ws, bov_writes telem [false; false] 1 (fun a => [fst a * 10 + snd a]) [3; 4] ex_calls = Some ws /\
  read_at (run_writes (fun _ => None) ws) 0 12 = Some [1000; 1001; 1002; 1003; 1010; 1011; 1012; 1013; 1020; 1021; 1022; 1023] /\
  serial_bov telem (fun a => [fst a * 10 + snd a]) 10 (mkBox [0; 0] [3; 4]) ex_g = Some [1000; 1001; 1002; 1003; 1010; 1011; 1012; 1013; 1020; 1021; 1022; 1023].
Proof. eexists. split; [vm_compute; reflexivity|]. split; vm_compute; reflexivity. Qed.

(** ** C101 *)

(** Members which are arrays: as many elements as there are cells in a Streak
    are written, so the file lacks the others; SerialBOVWriter writes them. *)
Theorem C101_array_members_refuted : exists ws bytes,
  let member := fun a : Z * Z => [fst a; snd a] in
  let ks := [mkWCall 0 ex_g (7, 8) (reg_of [mkStreak [0] 0 4])] in
  bov_writes telem [false; false] 2 member [1; 4] ks = Some ws /\
  serial_bov telem member 10 (mkBox [0; 0] [1; 4]) ex_g = Some bytes /\
  bytes = [100; 0; 100; 1; 100; 2; 100; 3] /\
  map (run_writes (fun _ => None) ws) [0; 1; 2; 3; 4; 5; 6; 7] = [Some 100; Some 0; Some 100; Some 1; None; None; None; None].
Proof. eexists _, _. cbv zeta. split; [vm_compute; reflexivity|]. split; [vm_compute; reflexivity|]. split; vm_compute; reflexivity. Qed.
Print Assumptions C101_array_members_refuted.
