(** C214-C218: Silo files *)
From Verif Require Import Base ListFacts RegionSpec RegionModel RegionIterModel RegionStreaks RegionOpsModel CoordModel CoordSpec CoordFacts
  HaloSpec GridModel GridReach PatchModel PartitionManagerModel FileFacts ThreadModel ParamModel ImageModel ImageSpec ImageProps ImageFacts SiloModel SiloSpec SiloFacts.
From Coq Require Import Sorting.Sorted.

Section Files.
Context {N V Cell P U : Type} (A : arith N) (lenient : bool) (d : nat) (points : Cell -> list P) (point : P -> list N) (shapes : Cell -> list U) (shape : U -> list (list N)).
Context (has_shapes has_points : bool) (regular : option (list N * list N)) (grid_label mesh_label point_label : name).
Context (cell_sels : list (name * (Cell -> V))) (shape_sels : list (name * (U -> V))) (point_sels : list (name * (P -> V))) (prefix : name).

Notation step := (silo_step A lenient (S d) points point shapes shape has_shapes has_points regular grid_label mesh_label point_label cell_sels shape_sels point_sels prefix).

(** A grid of cells [get] of size [dims]. Points have the right number of
    coordinates. Unless the C++ implementation is lenient, the first cell must
    contain points (and polygons with corners) if the model asks for meshes. *)
Definition suitable (g : gview Cell) (dims : coord) (get : coord -> Cell) : Prop :=
  length dims = S d /\ allpos dims /\ v_box g = mkBox (zeros dims) dims /\ (forall c, in_grid dims c -> v_get g c = Some (get c)) /\
  (forall c, in_grid dims c -> Forall (fun p => length (point p) = S d) (points (get c)) /\
                               Forall (fun u => Forall (fun p => length p = S d) (shape u)) (shapes (get c))) /\
  (lenient = true \/
   (has_points = true -> points (get (zeros dims)) <> []) /\
   (has_shapes = true -> shapes (get (zeros dims)) <> [] /\ Forall (fun u => shape u <> []) (shapes (get (zeros dims))))).

(** States of a writer: files have been written for any number of grids,
    perhaps of different sizes. *)
Inductive writer_state : silo N V -> Prop :=
  | ws_new : writer_state (silo_new (S d))
  | ws_step s g dims get t s' f : writer_state s -> suitable g dims get -> step g t s = Some (s', f) -> writer_state s'.

(** Variables on items require meshes, spacings and origins have the right
    number of coordinates, names are different. *)
Definition well_configured : Prop :=
  (has_points = false -> point_sels = []) /\ (has_shapes = false -> shape_sels = []) /\
  match regular with Some (q, o) => length q = S d /\ length o = S d | None => True end /\
  NoDup ((if has_shapes then [zonelist_name; mesh_label] else []) ++ (if has_points then [point_label] else []) ++
         (match regular with Some _ => [grid_label] | None => [] end) ++ map fst cell_sels ++ map fst shape_sels ++ map fst point_sels).

Hypothesis Hc : well_configured.

Notation objects g dims get := (file_objects A d points point shapes shape has_shapes has_points regular grid_label mesh_label point_label cell_sels shape_sels point_sels g dims get).

Lemma cell_of g dims get (Hs : suitable g dims get) c : In c (cs g) -> in_grid dims c.
Proof. destruct Hs as (Hl & Hp & Hb & _). apply (cs_in d g dims Hl Hp Hb). Qed.

Lemma step_good s g dims get t : good d s -> suitable g dims get -> exists s', good d s' /\ step g t s = Some (s', (silo_name prefix t, objects g dims get)).
Proof using Hc.
  intros Hg Hs. destruct Hc as (H1 & H2 & H3 & _). pose proof Hs as (Hl & Hp & Hb & Hget & Hit & Hdef).
  assert (Hpt : Forall (fun p => length (point p) = S d) (ps points g get)).
  { apply Forall_forall. intros p Hi. apply in_flat_map in Hi. destruct Hi as (x & Hx & Hpx). apply in_map_iff in Hx. destruct Hx as (c & <- & Hx).
    destruct (Hit c (cell_of g dims get Hs c Hx)) as [K _]. rewrite Forall_forall in K. now apply K. }
  assert (Hsh : Forall (fun u => Forall (fun p => length p = S d) (shape u)) (us shapes g get)).
  { apply Forall_forall. intros u Hi. apply in_flat_map in Hi. destruct Hi as (x & Hx & Hpx). apply in_map_iff in Hx. destruct Hx as (c & <- & Hx).
    destruct (Hit c (cell_of g dims get Hs c Hx)) as [_ K]. rewrite Forall_forall in K. now apply K. }
  destruct (objects_ok A lenient d points point shapes shape has_shapes has_points regular grid_label mesh_label point_label cell_sels shape_sels point_sels
              g dims get Hl Hp Hb Hget Hdef Hpt Hsh H1 H2 H3 s Hg) as (s' & G & E).
  exists s'. split; [exact G|]. unfold silo_step. rewrite E. reflexivity.
Qed.

Lemma state_good s : writer_state s -> good d s.
Proof using Hc.
  induction 1 as [|s g dims get t s' f _ IH Hs E]; [split; [apply repeat_length|now left]|].
  destruct (step_good s g dims get t IH Hs) as (s1 & G & E1). congruence.
Qed.

Lemma names_unique g dims get : NoDup (map object_name (objects g dims get)).
Proof using Hc.
  destruct Hc as (_ & _ & _ & H). unfold file_objects. rewrite !map_app, !map_map. unfold shape_objects, point_objects, grid_objects, cell_object, shape_object, point_object.
  cbn [object_name]. destruct has_shapes, has_points, regular as [[q o]|]; exact H.
Qed.

Lemma written s g dims get t : writer_state s -> suitable g dims get ->
  exists s', writer_state s' /\ step g t s = Some (s', (silo_name prefix t, objects g dims get)).
Proof using Hc.
  intros Hw Hs. destruct (step_good s g dims get t (state_good s Hw) Hs) as (s' & _ & E). exists s'. split; [|exact E]. econstructor; eauto.
Qed.

Lemma flat_map_map {X Y Z} (f : Y -> list Z) (h : X -> Y) l : flat_map f (map h l) = flat_map (fun x => f (h x)) l.
Proof. induction l as [|x l IH]; [reflexivity|]. cbn. now rewrite IH. Qed.

Lemma cells_sorted g dims get : suitable g dims get -> StronglySorted coord_lt (cs g) /\ (forall c, In c (cs g) <-> in_grid dims c).
Proof using Type.
  intros (Hl & Hp & Hb & _). split; [apply box_list_sorted with d; now apply (regular_box d g dims)|]. apply (cs_in d g dims Hl Hp Hb).
Qed.

Lemma forallb_repeat {X} (f : X -> bool) x n : f x = true -> forallb f (repeat x n) = true.
Proof. intros H. induction n as [|n IH]; [reflexivity|]. cbn. now rewrite H. Qed.

Lemma forallb_lengths {X} (l : list (list X)) n : Forall (fun k => length k = n) l -> forallb (fun k => Z.of_nat (length k) =? Z.of_nat n) l = true.
Proof. intros H. apply forallb_forall. intros k Hk. rewrite Forall_forall in H. rewrite (H k Hk). apply Z.eqb_refl. Qed.

(** ** C214: unstructured meshes *)

Lemma polygons g dims get : suitable g dims get -> has_shapes = true ->
  read_polygons (objects g dims get) mesh_label = Some (map shape (us shapes g get)).
Proof using Hc.
  intros Hs Hh. pose proof (names_unique g dims get) as Hn. set (f := objects g dims get) in *.
  assert (Hsh : Forall (fun p => length p = S d) (flat_map shape (us shapes g get))).
  { apply Forall_forall. intros p Hi. apply in_flat_map in Hi. destruct Hi as (u & Hu & Hi). apply in_flat_map in Hu. destruct Hu as (x & Hx & Hpx). apply in_map_iff in Hx. destruct Hx as (c & <- & Hx).
    pose proof (cell_of g dims get Hs c Hx) as Hci. destruct Hs as (_ & _ & _ & _ & Hit & _). destruct (Hit c Hci) as [_ K]. rewrite Forall_forall in K. specialize (K u Hpx).
    rewrite Forall_forall in K. now apply K. }
  destruct (cols_length (S d) _ Hsh) as [L1 L2].
  set (n := Z.of_nat (length (flat_map shape (us shapes g get)))) in *.
  assert (I1 : In (Ucdmesh mesh_label (Z.of_nat (S d)) (cols (S d) (flat_map shape (us shapes g get))) n (Z.of_nat (length (us shapes g get))) zonelist_name) f).
  { unfold f, file_objects, shape_objects. rewrite Hh. right. now left. }
  assert (I2 : In (Zonelist zonelist_name (Z.of_nat (length (us shapes g get))) (Z.of_nat (S d)) (zrange 0 n) (repeat polygon (length (us shapes g get)))
                     (map (fun u => Z.of_nat (length (shape u))) (us shapes g get)) (repeat 1 (length (us shapes g get)))) f).
  { unfold f, file_objects, shape_objects. rewrite Hh. now left. }
  unfold read_polygons. apply lookup_in in I1; [|exact Hn]. cbn [object_name] in I1. rewrite I1. apply lookup_in in I2; [|exact Hn]. cbn [object_name] in I2. rewrite I2.
  pose proof (forallb_lengths _ _ L2) as Hfl. fold n in Hfl. rewrite L1, !Z.eqb_refl, Hfl, map_length, !repeat_length, Nat.eqb_refl, forallb_repeat by reflexivity. cbn [andb].
  pose proof (zone_sizes_ones (map (fun u => Z.of_nat (length (shape u))) (us shapes g get))) as Hz. rewrite map_length in Hz. rewrite Hz.
  rewrite <- (map_map shape (fun sh => Z.of_nat (length sh))).
  rewrite flat_map_concat_map in Hsh. destruct (cut_polygons (S d) (map shape (us shapes g get)) [] Hsh) as (zs & E1 & E2 & E3).
  cbn [length app] in E1, E3. rewrite <- flat_map_concat_map in E1, E3. change (Z.of_nat 0 + Z.of_nat (length (flat_map shape (us shapes g get)))) with n in E1. change (Z.of_nat 0) with 0 in E1.
  rewrite E1. cbn [obind]. rewrite E2, map_length, Z.eqb_refl. exact E3.
Qed.

Theorem C214_mesh : forall s g dims get t, writer_state s -> suitable g dims get -> has_shapes = true ->
  exists s' file l, writer_state s' /\ step g t s = Some (s', (silo_name prefix t, file)) /\ StronglySorted coord_lt l /\ (forall c, In c l <-> in_grid dims c) /\
    read_polygons file mesh_label = Some (map shape (flat_map (fun c => shapes (get c)) l)) /\
    (forall n sel, In (n, sel) shape_sels -> read_item_var file n = Some (mesh_label, map sel (flat_map (fun c => shapes (get c)) l))).
Proof using Hc.
  intros s g dims get t Hw Hs Hh. destruct (written s g dims get t Hw Hs) as (s' & Hw' & E). destruct (cells_sorted g dims get Hs) as [S1 S2].
  exists s', (objects g dims get), (cs g). split; [exact Hw'|]. split; [exact E|]. split; [exact S1|]. split; [exact S2|].
  rewrite <- flat_map_map. change (flat_map shapes (map get (cs g))) with (us shapes g get). pose proof (polygons g dims get Hs Hh) as Hr. split; [exact Hr|].
  intros n sel Hi. unfold read_item_var.
  assert (I : In (shape_object shapes mesh_label g get (n, sel)) (objects g dims get)).
  { unfold file_objects. rewrite !in_app_iff. do 4 right. left. now apply in_map. }
  apply lookup_in in I; [|apply names_unique]. cbn [object_name shape_object fst] in I. rewrite I. cbn [shape_object fst snd]. rewrite Hr, !map_length, Z.eqb_refl. reflexivity.
Qed.

(** ** C215: point meshes *)

Theorem C215_points : forall s g dims get t, writer_state s -> suitable g dims get -> has_points = true ->
  exists s' file l, writer_state s' /\ step g t s = Some (s', (silo_name prefix t, file)) /\ StronglySorted coord_lt l /\ (forall c, In c l <-> in_grid dims c) /\
    read_points file point_label = Some (map point (flat_map (fun c => points (get c)) l)) /\
    (forall n sel, In (n, sel) point_sels -> read_item_var file n = Some (point_label, map sel (flat_map (fun c => points (get c)) l))).
Proof using Hc.
  intros s g dims get t Hw Hs Hh. destruct (written s g dims get t Hw Hs) as (s' & Hw' & E). destruct (cells_sorted g dims get Hs) as [S1 S2].
  exists s', (objects g dims get), (cs g). split; [exact Hw'|]. split; [exact E|]. split; [exact S1|]. split; [exact S2|].
  rewrite <- flat_map_map. change (flat_map points (map get (cs g))) with (ps points g get).
  assert (Hr : read_points (objects g dims get) point_label = Some (map point (ps points g get))).
  { assert (Hpt : Forall (fun p => length p = S d) (map point (ps points g get))).
    { apply Forall_forall. intros p Hi. apply in_map_iff in Hi. destruct Hi as (p' & <- & Hi). apply in_flat_map in Hi. destruct Hi as (x & Hx & Hpx). apply in_map_iff in Hx. destruct Hx as (c & <- & Hx).
      pose proof (cell_of g dims get Hs c Hx) as Hci. destruct Hs as (_ & _ & _ & _ & Hit & _). destruct (Hit c Hci) as [K _]. rewrite Forall_forall in K. now apply K. }
    destruct (cols_length (S d) _ Hpt) as [L1 L2].
    assert (I : In (Pointmesh point_label (Z.of_nat (S d)) (cols (S d) (map point (ps points g get))) (Z.of_nat (length (ps points g get)))) (objects g dims get)).
    { unfold file_objects. rewrite !in_app_iff. right. left. unfold point_objects. rewrite Hh. now left. }
    unfold read_points. apply lookup_in in I; [|apply names_unique]. cbn [object_name] in I. rewrite I.
    rewrite map_length in L2. rewrite L1, Z.eqb_refl, (forallb_lengths _ _ L2). cbn [andb].
    pose proof (nodes_range (S d) [] (map point (ps points g get)) []) as K. cbn [app length] in K. rewrite app_nil_r in K. specialize (K Hpt). rewrite map_length in K. exact K. }
  split; [exact Hr|]. intros n sel Hi. unfold read_item_var.
  assert (I : In (point_object points point_label g get (n, sel)) (objects g dims get)).
  { unfold file_objects. rewrite !in_app_iff. do 5 right. now apply in_map. }
  apply lookup_in in I; [|apply names_unique]. cbn [object_name point_object fst] in I. rewrite I. cbn [point_object fst snd]. rewrite Hr, !map_length, Z.eqb_refl. reflexivity.
Qed.

(** ** C216: regular grids *)

(** Where a cell is: its coordinate along an axis, scaled and displaced. *)
Fixpoint extents (q o : list N) (c : list Z) : list (N * N) :=
  match q, o, c with
  | x :: q', y :: o', i :: c' => (a_add A y (a_mul A x (a_ofZ A i)), a_add A y (a_mul A x (a_ofZ A (i + 1)))) :: extents q' o' c'
  | _, _, _ => []
  end.

Lemma tick_get x y n i : 0 <= i <= n -> vec_get (tick_list A x y n) i = Some (a_add A y (a_mul A x (a_ofZ A i))).
Proof using Type.
  intros H. unfold vec_get, tick_list. replace (i <? 0) with false by lia. unfold zrange. rewrite map_map.
  assert (E : nth_error (seq 0 (Z.to_nat (n + 1 - 0))) (Z.to_nat i) = Some (Z.to_nat i)).
  { rewrite (nth_error_nth' _ 0%nat) by (rewrite seq_length; lia). f_equal. rewrite seq_nth by lia. lia. }
  rewrite (map_nth_error _ _ _ E). do 4 f_equal. lia.
Qed.

Lemma extents_ok q : forall o n c, length o = length q -> length n = length q -> Forall2 (fun i k => 0 <= i < k) c n ->
  read_extents (tick_lists A q o n) c = Some (extents q o c).
Proof using Type.
  induction q as [|x q IH]; intros [|y o] [|k n] c H1 H2 H; try discriminate; inversion H as [|i ? c' ? Hi Hq]; subst; [reflexivity|].
  cbn [tick_lists read_extents extents]. rewrite (tick_get x y k i), (tick_get x y k (i + 1)) by lia. cbn [obind]. rewrite (IH o n c') by (cbn in *; auto; lia). reflexivity.
Qed.

Lemma in_grid_forall2 dims : forall c, in_grid dims c <-> Forall2 (fun i k => 0 <= i < k) c dims.
Proof.
  unfold in_grid. induction dims as [|k dims IH]; intros [|i c]; cbn [map inside]; try (split; [easy|intros H; inversion H]).
  - split; constructor.
  - rewrite IH. split; [intros [H1 H2]; constructor; [lia|exact H2]|intros H; inversion H; subst; split; [lia|assumption]].
Qed.

Lemma forall2_length {X Y} (R : X -> Y -> Prop) l m : Forall2 R l m -> length l = length m.
Proof. induction 1; cbn; congruence. Qed.

Lemma forall2_rev {X Y} (R : X -> Y -> Prop) l : forall m, Forall2 R l m -> Forall2 R (rev l) (rev m).
Proof. intros m H. induction H as [|x y l m Hx _ IH]; [constructor|]. cbn [rev]. apply Forall2_app; [exact IH|]. constructor; [exact Hx|constructor]. Qed.

Lemma zone_index_app dims : forall c n i, length c = length dims -> zone_index (dims ++ [n]) (c ++ [i]) = zone_index dims c + prod dims * i.
Proof.
  induction dims as [|k dims IH]; intros [|j c] n i H; try discriminate; cbn [app zone_index prod]; [lia|]. rewrite IH by (cbn in H; lia). lia.
Qed.

Lemma prod_rev l : prod (rev l) = prod l.
Proof.
  induction l as [|x l IH]; [reflexivity|]. cbn [rev prod]. assert (K : forall a b, prod (a ++ b) = prod a * prod b).
  { clear. induction a as [|y a IH]; intros b; cbn [app prod]; [lia|]. rewrite IH. lia. }
  rewrite K, IH. cbn [prod]. lia.
Qed.

Lemma zone_index_rev dims : forall c, length c = length dims -> zone_index (rev dims) (rev c) = to_index c dims.
Proof.
  induction dims as [|k dims IH]; intros [|i c] H; try discriminate; [reflexivity|]. cbn [rev to_index].
  rewrite zone_index_app by (rewrite !rev_length; cbn in H; lia). rewrite IH by (cbn in H; lia). rewrite prod_rev. lia.
Qed.

Lemma cs_nth g dims get c : suitable g dims get -> in_grid dims c -> vec_get (cs g) (to_index c dims) = Some c.
Proof using Type.
  intros (Hl & Hp & Hb & _) Hi. pose proof (to_index_bound dims Hp c Hi) as Hk. unfold vec_get. replace (to_index c dims <? 0) with false by lia.
  unfold cs, box_list. rewrite Hb. cbn [b_origin b_dim].
  assert (E : nth_error (seq 0 (Z.to_nat (prod dims))) (Z.to_nat (to_index c dims)) = Some (Z.to_nat (to_index c dims))).
  { rewrite (nth_error_nth' _ 0%nat) by (rewrite seq_length; lia). f_equal. rewrite seq_nth by lia. lia. }
  rewrite (map_nth_error _ _ _ E), Z2Nat.id, from_to by (auto; lia). f_equal.
  assert (Lc : length c = length dims) by (apply in_grid_forall2 in Hi; now apply forall2_length in Hi). clear - Lc.
  unfold zeros. revert c Lc. induction dims as [|k dims IH]; intros [|i c] H; try discriminate; [reflexivity|]. cbn [map zadd]. rewrite Z.add_0_l. f_equal. apply IH. cbn in H. lia.
Qed.

Theorem C216_grid : forall s g dims get t q o, writer_state s -> suitable g dims get -> regular = Some (q, o) ->
  exists s' file, writer_state s' /\ step g t s = Some (s', (silo_name prefix t, file)) /\
    forall c, in_grid dims c -> read_zone file grid_label (rev c) = Some (extents q o (rev c)) /\
      (forall n sel, In (n, sel) cell_sels -> read_zone_var file n (rev c) = Some (grid_label, sel (get c))).
Proof using Hc.
  intros s g dims get t q o Hw Hs Hr. destruct (written s g dims get t Hw Hs) as (s' & Hw' & E). exists s', (objects g dims get). split; [exact Hw'|]. split; [exact E|].
  intros c Hi. pose proof Hs as (Hl & Hp & _). destruct Hc as (_ & _ & H3 & _). rewrite Hr in H3. destruct H3 as [Lq Lo].
  assert (I : In (Quadmesh grid_label (tick_lists A q o (rev dims)) (map (fun k => k + 1) (rev dims))) (objects g dims get)).
  { unfold file_objects. rewrite !in_app_iff. do 2 right. left. unfold grid_objects. rewrite Hr. now left. }
  apply lookup_in in I; [|apply names_unique]. cbn [object_name] in I.
  pose proof (proj1 (in_grid_forall2 dims c) Hi) as Hf. split.
  - unfold read_zone. rewrite I. destruct (tick_lists_length A q o (rev dims) ltac:(congruence) ltac:(rewrite rev_length; congruence)) as [_ L2].
    destruct (L2 ltac:(now apply Forall_rev)) as [L3 _]. rewrite L3, name_eqb_refl. apply extents_ok; [congruence|rewrite rev_length; congruence|]. now apply forall2_rev.
  - intros n sel Hin. unfold read_zone_var.
    assert (I2 : In (cell_object grid_label g dims get (n, sel)) (objects g dims get)).
    { unfold file_objects. rewrite !in_app_iff. do 3 right. left. now apply in_map. }
    apply lookup_in in I2; [|apply names_unique]. cbn [object_name cell_object fst] in I2. rewrite I2. unfold cell_object. cbn [fst snd]. rewrite I, name_eqb_refl. cbn [andb].
    pose proof (prod_pos dims Hp) as Hpos.
    assert (Ln : length (cs g) = Z.to_nat (prod dims)) by (unfold cs; rewrite box_list_length; destruct Hs as (_ & _ & -> & _); reflexivity).
    unfold xs. rewrite !map_length, Ln, Z2Nat.id by lia. change (fold_right Z.mul 1 (rev dims)) with (prod (rev dims)). rewrite prod_rev, Z.eqb_refl.
    rewrite zone_index_rev by now apply forall2_length in Hf.
    pose proof (cs_nth g dims get c Hs Hi) as K. unfold vec_get in *. destruct (to_index c dims <? 0); [discriminate|].
    rewrite map_map. now rewrite (map_nth_error _ _ _ K).
Qed.
End Files.
Print Assumptions C214_mesh.
Print Assumptions C215_points.
Print Assumptions C216_grid.

(** The files of different steps have different names, of a writer's prefix. *)
Theorem C217_names : forall prefix s1 s2, 0 <= s1 -> 0 <= s2 -> silo_name prefix s1 = silo_name prefix s2 -> s1 = s2.
Proof.
  intros prefix s1 s2 H1 H2 E. unfold silo_name in E. apply app_inv_head in E. rewrite !app_assoc in E. apply app_inv_tail in E. apply app_inv_head in E. unfold pad5 in E.
  assert (R : forall s, 0 <= s -> read_number 0 (repeat 48 (5 - length (dec s)) ++ dec s) = (s, [])).
  { intros s Hs. rewrite read_zeros. rewrite <- (app_nil_r (dec s)). apply read_dec; [exact Hs|discriminate]. }
  pose proof (R s1 H1) as R1. rewrite E, (R s2 H2) in R1. congruence.
Qed.
Print Assumptions C217_names.

(** ** Examples: cells of a 2x3 grid contain their number of points and one
    triangle each. *)

Definition ex_pts (c : Z) : list Z := map (fun i => 100 * c + i) (zrange 0 (c + 1)).
Definition ex_pt (p : Z) : list Z := [p; - p].
Definition ex_shape (u : Z) : list (list Z) := [[u; 0]; [u + 1; 0]; [u; 5]].
Definition ex_silo_grid : gview Z := mkView (mkBox [0; 0] [2; 3]) 0 (fun c => match c with [y; x] => Some (3 * y + x) | _ => None end).
Definition ex_silo_step := silo_step ints false 2 ex_pts ex_pt (fun c => [c]) ex_shape true true (Some ([10; 20], [1; 2]))
  [103] [109] [112] [([97], fun c => c * c)] [([98], fun u => u + 7)] [([99], fun p => p)] [111] ex_silo_grid.

Example C214_example : exists s, ex_silo_step 12 (silo_new 2) = Some (fst s, snd s) /\
  fst (snd s) = [111; 46; 48; 48; 48; 49; 50; 46; 115; 105; 108; 111] /\
  read_polygons (snd (snd s)) [109] = Some (map ex_shape [0; 1; 2; 3; 4; 5]) /\
  read_item_var (snd (snd s)) [98] = Some ([109], [7; 8; 9; 10; 11; 12]) /\
  option_map (firstn 3) (read_points (snd (snd s)) [112]) = Some [[0; 0]; [100; -100]; [101; -101]] /\
  option_map (fun v => firstn 3 (snd v)) (read_item_var (snd (snd s)) [99]) = Some [0; 100; 101] /\
  read_zone (snd (snd s)) [103] [2; 1] = Some [(21, 31); (22, 42)] /\
  read_zone_var (snd (snd s)) [97] [2; 1] = Some ([103], 25).
Proof.
  destruct (ex_silo_step 12 (silo_new 2)) as [s|] eqn:E; [|vm_compute in E; discriminate]. exists s. vm_compute in E. injection E as <-.
  vm_compute. repeat split.
Qed.

Example C214_hypotheses : well_configured (N := Z) (V := Z) 1 true true (Some ([10; 20], [1; 2])) [103] [109] [112] [([97], fun c : Z => c * c)] [([98], fun u : Z => u + 7)] [([99], fun p : Z => p)] /\
  suitable false 1 ex_pts ex_pt (fun c => [c]) ex_shape true true ex_silo_grid [2; 3] (fun c => match c with [y; x] => 3 * y + x | _ => 0 end).
Proof.
  split.
  - unfold well_configured. do 3 (split; [easy|]). vm_compute. repeat (constructor; [intros H; repeat (destruct H as [H|H]; [discriminate|]); exact H|]). constructor.
  - unfold suitable. do 3 (split; [now repeat constructor|]). split; [|split].
    + intros [|y [|x [|z c]]] H; cbn in H; try tauto; reflexivity.
    + intros c _. split; [apply Forall_forall; intros p _; reflexivity|repeat constructor].
    + right. split; intros _; [vm_compute; discriminate|]. split; [discriminate|]. repeat constructor. discriminate.
Qed.

(** ** C218: what does not work *)

(** By the rules of C++, writing a grid whose first cells are without
    particles is undefined, whatever the other cells contain. *)
Theorem C218_empty_refuted : exists (points : Z -> list Z) (g : gview Z),
  (exists c x, v_get g c = Some x /\ points x <> []) /\
  silo_step ints false 1 points (fun p => [p]) (fun _ => []) (fun _ : Z => []) false true None [103] [109] [112] [] [] [([99], fun p => p)] [111] g 0 (silo_new 1) = None.
Proof.
  exists (fun c => if c =? 0 then [] else [c]), (mkView (mkBox [0] [2]) 0 (fun c => match c with [x] => Some x | _ => None end)).
  split; [exists [1], 1; split; [reflexivity|discriminate]|]. vm_compute. reflexivity.
Qed.
Print Assumptions C218_empty_refuted.

(** A variable may be selected though the model has no regular grid: the file
    then refers to a mesh which it doesn't contain. *)
Theorem C218_dangling_refuted : exists (g : gview Z) (file : list (object Z Z)),
  option_map (fun s => snd (snd s)) (silo_step ints true 1 (fun _ : Z => []) (fun p => [p]) (fun _ => []) (fun _ : Z => []) false false None [103] [109] [112] [([97], fun c => c)] [] [] [111] g 0 (silo_new 1)) = Some file /\
  (exists data dims, lookup file [97] = Some (Quadvar [97] [103] data dims)) /\ lookup file [103] = None.
Proof.
  exists (mkView (mkBox [0] [2]) 0 (fun c => match c with [x] => Some x | _ => None end)). eexists. split; [vm_compute; reflexivity|]. split; [do 2 eexists; vm_compute; reflexivity|vm_compute; reflexivity].
Qed.
Print Assumptions C218_dangling_refuted.
