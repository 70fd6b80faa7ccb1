(** Facts on SiloWriter. *)
From Verif Require Import Base ListFacts RegionSpec RegionModel RegionRep RegionIterModel RegionStreaks RegionFlat RegionOpsModel RegionOps CoordModel CoordSpec CoordFacts
  HaloSpec GridModel GridReach PatchModel PartitionManagerModel HaloFacts PartitionManagerFacts GeometryProps RegionGeometry ConfigFacts FileFacts ThreadModel ThreadFacts ParamModel ImageModel SellFacts SiloModel SiloSpec.

Lemma silo_mapo_app {X Y} (f : X -> option Y) l1 : forall l2 m1 m2, mapo f l1 = Some m1 -> mapo f l2 = Some m2 -> mapo f (l1 ++ l2) = Some (m1 ++ m2).
Proof.
  induction l1 as [|x l1 IH]; intros l2 m1 m2 H1 H2; cbn [mapo app] in *.
  - injection H1 as <-. exact H2.
  - destruct (f x) as [y|]; [|discriminate]. cbn [obind] in *. destruct (mapo f l1) as [r|] eqn:E; [|discriminate]. cbn [obind] in H1. injection H1 as <-.
    now rewrite (IH l2 r m2 eq_refl H2).
Qed.

Lemma mapo_map {X Y} (f : X -> option Y) (h : X -> Y) l : (forall x, In x l -> f x = Some (h x)) -> mapo f l = Some (map h l).
Proof.
  induction l as [|x l IH]; intros H; [reflexivity|]. cbn [mapo map]. rewrite (H x (or_introl eq_refl)). cbn [obind]. rewrite IH by (intros; apply H; now right). reflexivity.
Qed.

Section Columns.
Context {N : Type}.

Definition cols (n : nat) (ps : list (list N)) : list (list N) := fold_left push_coord ps (repeat [] n).

Lemma cols_snoc n ps p : cols n (ps ++ [p]) = push_coord (cols n ps) p.
Proof. unfold cols. now rewrite fold_left_app. Qed.

Lemma cols_app n ps qs : cols n (ps ++ qs) = fold_left push_coord qs (cols n ps).
Proof. unfold cols. now rewrite fold_left_app. Qed.

Lemma push_length (cs : list (list N)) : forall p m, length p = length cs -> Forall (fun l => length l = m) cs ->
  length (push_coord cs p) = length cs /\ Forall (fun l => length l = S m) (push_coord cs p).
Proof.
  induction cs as [|l cs IH]; intros [|x p] m Hp Hm; try discriminate; [split; constructor|].
  inversion Hm as [|? ? H1 H2]; subst. destruct (IH p (length l) ltac:(cbn in Hp; lia) H2) as [I1 I2]. cbn [push_coord length].
  split; [lia|]. constructor; [rewrite app_length; cbn; lia|exact I2].
Qed.

Lemma cols_length n ps : Forall (fun p => length p = n) ps -> length (cols n ps) = n /\ Forall (fun l => length l = length ps) (cols n ps).
Proof.
  intros H. induction ps as [|p ps IH] using rev_ind.
  - unfold cols. cbn. split; [apply repeat_length|]. apply Forall_forall. intros l Hl. apply repeat_spec in Hl. now subst.
  - apply Forall_app in H. destruct H as [H1 H2]. inversion H2; subst. destruct (IH H1) as [I1 I2]. rewrite cols_snoc.
    destruct (push_length (cols (length p) ps) p (length ps) ltac:(lia) I2) as [L1 L2]. split; [congruence|]. rewrite app_length. cbn [length].
    now replace (length ps + 1)%nat with (S (length ps)) by lia.
Qed.

Lemma node_at_push (cs : list (list N)) : forall p m k, length p = length cs -> Forall (fun l => length l = m) cs -> 0 <= k <= Z.of_nat m ->
  node_at (push_coord cs p) k = if k =? Z.of_nat m then Some p else node_at cs k.
Proof.
  unfold node_at. induction cs as [|l cs IH]; intros [|x p] m k Hp Hm Hk; try discriminate.
  - cbn. now destruct (k =? Z.of_nat m).
  - inversion Hm as [|? ? H1 H2]; subst. cbn [push_coord mapo]. rewrite (IH p (length l) k ltac:(cbn in Hp; lia) H2 Hk).
    unfold vec_get. replace (k <? 0) with false by lia. destruct (Z.eqb_spec k (Z.of_nat (length l))) as [E|E].
    + rewrite E, Nat2Z.id, nth_error_app2, Nat.sub_diag by lia. reflexivity.
    + rewrite nth_error_app1 by lia. reflexivity.
Qed.

Lemma node_at_cols n ps : Forall (fun p => length p = n) ps -> forall i p, nth_error ps i = Some p -> node_at (cols n ps) (Z.of_nat i) = Some p.
Proof.
  intros H. induction ps as [|q ps IH] using rev_ind; intros i p Hi; [destruct i; discriminate|].
  apply Forall_app in H. destruct H as [H1 H2]. inversion H2; subst. destruct (cols_length (length q) ps H1) as [L1 L2]. rewrite cols_snoc.
  assert (Hlt : (i < length (ps ++ [q]))%nat) by (apply nth_error_Some; congruence). rewrite app_length in Hlt. cbn in Hlt.
  rewrite (node_at_push (cols (length q) ps) q (length ps) (Z.of_nat i) ltac:(lia) L2 ltac:(lia)).
  destruct (Z.eqb_spec (Z.of_nat i) (Z.of_nat (length ps))) as [E|E].
  - apply Nat2Z.inj in E. subst i. rewrite nth_error_app2, Nat.sub_diag in Hi by lia. exact Hi.
  - rewrite nth_error_app1 in Hi by lia. now apply IH.
Qed.

Lemma nodes_range n pre mid post : Forall (fun p => length p = n) (pre ++ mid ++ post) ->
  mapo (node_at (cols n (pre ++ mid ++ post))) (zrange (Z.of_nat (length pre)) (Z.of_nat (length pre) + Z.of_nat (length mid))) = Some mid.
Proof.
  revert pre. induction mid as [|p mid IH]; intros pre H.
  - cbn [length]. rewrite zrange_nil by lia. reflexivity.
  - cbn [length app] in *. rewrite zrange_cons by lia. cbn [mapo].
    rewrite (node_at_cols n _ H (length pre) p) by (rewrite nth_error_app2, Nat.sub_diag by lia; reflexivity). cbn [obind].
    specialize (IH (pre ++ [p])). rewrite <- app_assoc in IH. cbn [app] in IH. specialize (IH H). rewrite app_length in IH. cbn [length] in IH.
    replace (Z.of_nat (length pre) + 1) with (Z.of_nat (length pre + 1)) by lia.
    replace (Z.of_nat (length pre) + Z.of_nat (S (length mid))) with (Z.of_nat (length pre + 1) + Z.of_nat (length mid)) by lia. now rewrite IH.
Qed.

(** Cutting the list of nodes *)
Lemma cut_polygons n : forall shs pre, Forall (fun p => length p = n) (pre ++ concat shs) ->
  exists zs, cut_nodes (map (fun sh => Z.of_nat (length sh)) shs) (zrange (Z.of_nat (length pre)) (Z.of_nat (length pre) + Z.of_nat (length (concat shs)))) = Some zs /\
    length zs = length shs /\ mapo (mapo (node_at (cols n (pre ++ concat shs)))) zs = Some shs.
Proof.
  induction shs as [|sh shs IH]; intros pre H; cbn [concat map cut_nodes] in *.
  - exists []. cbn [length]. rewrite zrange_nil by lia. repeat split.
  - rewrite app_length. set (a := Z.of_nat (length pre)). set (k := Z.of_nat (length sh)).
    replace (a + Z.of_nat (length sh + length (concat shs))) with (a + k + Z.of_nat (length (concat shs))) by lia.
    rewrite (zrange_app a (a + k) (a + k + Z.of_nat (length (concat shs)))) by lia.
    assert (L : length (zrange a (a + k)) = length sh) by (rewrite zrange_length; lia).
    rewrite app_length, L. replace (Z.of_nat (length sh + _) <? k) with false by lia.
    replace (Z.to_nat k) with (length (zrange a (a + k))) by lia. rewrite firstn_app, skipn_app, Nat.sub_diag, firstn_all, skipn_all. cbn [firstn skipn]. rewrite app_nil_r. cbn [app].
    destruct (IH (pre ++ sh)) as (zs & E1 & E2 & E3); [now rewrite <- app_assoc|].
    rewrite app_length in E1. replace (Z.of_nat (length pre + length sh)) with (a + k) in E1 by lia. rewrite E1. cbn [option_map].
    exists (zrange a (a + k) :: zs). split; [reflexivity|]. split; [cbn; lia|]. cbn [mapo]. rewrite <- app_assoc in E3.
    unfold a, k. rewrite (nodes_range n pre sh (concat shs) H). cbn [obind]. now rewrite E3.
Qed.
End Columns.

Lemma zone_sizes_ones sizes : zone_sizes sizes (repeat 1 (length sizes)) = sizes.
Proof. induction sizes as [|s sizes IH]; [reflexivity|]. unfold zone_sizes in *. cbn [length repeat combine flat_map]. rewrite IH. reflexivity. Qed.

Section Lookup.
Context {N V : Type}.

Lemma lookup_in (file : list (object N V)) o : NoDup (map object_name file) -> In o file -> lookup file (object_name o) = Some o.
Proof.
  unfold lookup. induction file as [|p file IH]; intros Hn Hi; [destruct Hi|]. cbn [map] in Hn. inversion Hn as [|? ? H1 H2]; subst. cbn [find].
  unfold PatchModel.coord_eqb. destruct (list_eq_dec Z.eq_dec (object_name p) (object_name o)) as [E|E].
  - destruct Hi as [->|Hi]; [reflexivity|]. exfalso. apply H1. rewrite E. now apply in_map.
  - destruct Hi as [->|Hi]; [congruence|]. now apply IH.
Qed.
End Lookup.

Lemma name_eqb_refl n : PatchModel.coord_eqb n n = true.
Proof. unfold PatchModel.coord_eqb. destruct (list_eq_dec Z.eq_dec n n); congruence. Qed.

Section Ticks.
Context {N : Type} (A : arith N).

(** Coordinates of regular grids *)
Definition tick_list (q o : N) (n : Z) : list N := map (fun i => a_add A o (a_mul A q (a_ofZ A i))) (zrange 0 (n + 1)).

Fixpoint tick_lists (q o : list N) (n : list Z) : list (list N) :=
  match q, o, n with x :: q', y :: o', k :: n' => tick_list x y k :: tick_lists q' o' n' | _, _, _ => [] end.

Lemma ticks_ok q : forall o n, length o = length q -> length n = length q -> ticks A (repeat [] (length q)) q o n = tick_lists q o n.
Proof.
  induction q as [|x q IH]; intros [|y o] [|k n] H1 H2; try discriminate; [reflexivity|]. cbn [length repeat ticks tick_lists]. f_equal. apply IH; cbn in *; lia.
Qed.

Lemma tick_lists_length q : forall o n, length o = length q -> length n = length q -> length (tick_lists q o n) = length q /\
  (Forall (fun k => 0 < k) n -> map (fun l => Z.of_nat (length l)) (tick_lists q o n) = map (fun k => k + 1) n /\ Forall (fun l => l <> []) (tick_lists q o n)).
Proof.
  induction q as [|x q IH]; intros [|y o] [|k n] H1 H2; try discriminate; [split; [reflexivity|intros _; split; constructor]|].
  destruct (IH o n ltac:(cbn in *; lia) ltac:(cbn in *; lia)) as [I1 I2]. cbn [tick_lists length]. split; [lia|]. intros H. inversion H as [|? ? Hk Hn]; subst.
  destruct (I2 Hn) as [I3 I4]. split.
  - cbn [map]. f_equal; [|exact I3]. unfold tick_list. rewrite map_length, zrange_length. lia.
  - constructor; [|exact I4]. unfold tick_list. rewrite zrange_cons by lia. discriminate.
Qed.

End Ticks.

(** ** The writer *)

Section Writer.
Context {N V Cell P U : Type} (A : arith N) (lenient : bool) (d : nat) (points : Cell -> list P) (point : P -> list N) (shapes : Cell -> list U) (shape : U -> list (list N)).
Context (has_shapes has_points : bool) (regular : option (list N * list N)) (grid_label mesh_label point_label : name).
Context (cell_sels : list (name * (Cell -> V))) (shape_sels : list (name * (U -> V))) (point_sels : list (name * (P -> V))).
Notation dim := (S d).
Notation silo := (silo N V). Notation object := (object N V).

Definition writer_region (r : indices) : Prop := r = reg_empty dim \/ exists dims, length dims = dim /\ allpos dims /\ sim_area dims = Some r.
Definition good (s : silo) : Prop := length (si_coords s) = dim /\ writer_region (si_region s).

Notation front := (front lenient).

Lemma front_ok {X} (l : list X) : lenient = true \/ l <> [] -> front l = Some l.
Proof. intros H. destruct l; [|reflexivity]. unfold SiloModel.front. destruct H as [->|H]; [reflexivity|congruence]. Qed.

(** The grid *)
Context (g : gview Cell) (dims : coord) (get : coord -> Cell).
Hypothesis Hl : length dims = dim.
Hypothesis Hp : allpos dims.
Hypothesis Hbox : v_box g = mkBox (zeros dims) dims.
Hypothesis Hget : forall c, in_grid dims c -> v_get g c = Some (get c).

Definition cs : list coord := box_list (v_box g).
Definition xs : list Cell := map get cs.
Definition us : list U := flat_map shapes xs.
Definition ps : list P := flat_map points xs.

(** No vector is empty when it matters, or the implementation doesn't mind. *)
Hypothesis Hdef : lenient = true \/
  (has_points = true -> points (get (zeros dims)) <> []) /\
  (has_shapes = true -> shapes (get (zeros dims)) <> [] /\ Forall (fun u => shape u <> []) (shapes (get (zeros dims)))).
Hypothesis Hpt : Forall (fun p => length (point p) = dim) ps.
Hypothesis Hsh : Forall (fun u => Forall (fun p => length p = dim) (shape u)) us.
Hypothesis Hps : has_points = false -> point_sels = [].
Hypothesis Hss : has_shapes = false -> shape_sels = [].
Hypothesis Hreg : match regular with Some (q, o) => length q = dim /\ length o = dim | None => True end.

Lemma regular_box : box_regular dim (v_box g).
Proof.
  rewrite Hbox. unfold box_regular. cbn [b_origin b_dim]. unfold zeros. rewrite map_length. split; [exact Hl|]. split; [exact Hl|].
  clear - Hl Hp. destruct Hp as [|n l Hn Hq]; [discriminate|]. split; [lia|exact Hq].
Qed.

Lemma coords_ok : box_coords (box_fuel (v_box g)) (v_box g) = Some cs.
Proof. apply box_coords_spec with d; [apply regular_box|]. unfold box_fuel. lia. Qed.

Lemma cs_in c : In c cs <-> in_grid dims c.
Proof. unfold cs. rewrite (box_list_in _ d regular_box). rewrite Hbox. reflexivity. Qed.

Lemma cs_first : exists cs', cs = zeros dims :: cs'.
Proof.
  unfold cs, box_list. rewrite Hbox. cbn [b_origin b_dim]. pose proof (prod_pos dims Hp). destruct (Z.to_nat (prod dims)) as [|k] eqn:E; [lia|].
  cbn [seq map]. eexists. f_equal. apply zadd_from_zero; [exact Hp|]. unfold zeros. now rewrite map_length.
Qed.

Lemma xs_ok : mapo (v_get g) cs = Some xs.
Proof. unfold xs. apply mapo_map. intros c Hc. apply Hget. now apply cs_in. Qed.

Lemma over_all (f : silo -> Cell -> option silo) (h : silo -> Cell -> silo) : forall l s, (forall c, In c l -> in_grid dims c) ->
  (forall pre c post, l = pre ++ c :: post -> f (fold_left h (map get pre) s) (get c) = Some (h (fold_left h (map get pre) s) (get c))) ->
  over_cells f g l s = Some (fold_left h (map get l) s).
Proof.
  induction l as [|c l IH]; intros s Hc Hf; [reflexivity|]. cbn [over_cells map fold_left]. rewrite Hget by (apply Hc; now left). cbn [obind].
  pose proof (Hf [] c l eq_refl) as H0. cbn in H0. rewrite H0. cbn [obind]. apply IH; [intros; apply Hc; now right|].
  intros pre c' post ->. apply (Hf (c :: pre) c' post). reflexivity.
Qed.

Lemma fold_flat {X Y Z} (h : X -> Y -> X) (f : Z -> list Y) l : forall s, fold_left (fun s x => fold_left h (f x) s) l s = fold_left h (flat_map f l) s.
Proof. induction l as [|x l IH]; intros s; [reflexivity|]. cbn [fold_left flat_map]. now rewrite fold_left_app, IH. Qed.

Lemma flush_good s : good s -> flush s = mkSilo (repeat [] dim) [] [] [] [] [] (si_region s).
Proof.
  intros [H _]. unfold flush. f_equal. destruct s as [c t sz ct dt nd r]. cbn [si_coords] in *. rewrite <- H. clear. induction c as [|x c IH]; [reflexivity|]. cbn. now f_equal.
Qed.

(** Points *)
Lemma add_points l : forall q t sz ct dt nd r, fold_left (fun s p => add_point s (point p)) l (mkSilo (cols dim q) t sz ct dt nd r) =
  mkSilo (N := N) (V := V) (cols dim (q ++ map point l)) t sz ct dt nd r.
Proof.
  induction l as [|p l IH]; intros q t sz ct dt nd r; cbn [fold_left map]; [now rewrite app_nil_r|].
  unfold add_point at 2. cbn [si_coords si_types si_sizes si_counts si_data si_nodes si_region]. rewrite <- cols_snoc, IH, <- app_assoc. reflexivity.
Qed.

Lemma collect_points_ok s : good s -> collect_points points point g (flush s) = Some (mkSilo (cols dim (map point ps)) [] [] [] [] [] (si_region s)).
Proof.
  intros H. unfold collect_points. rewrite coords_ok. cbn [obind].
  rewrite (over_all _ (fun s x => fold_left (fun s p => add_point s (point p)) (points x) s)); [|intros c Hc; now apply cs_in|reflexivity].
  fold xs. rewrite (fold_flat (fun s p => add_point s (point p)) points xs). fold ps. rewrite flush_good by exact H.
  change (repeat [] dim) with (cols (N := N) dim []). now rewrite add_points.
Qed.

(** Shapes *)
Lemma add_nodes l : forall q t sz ct dt nd r, Forall (fun p => length p = dim) (q ++ l) -> nd = zrange 0 (Z.of_nat (length q)) ->
  fold_left add_coord l (mkSilo (cols dim q) t sz ct dt nd r) =
  mkSilo (N := N) (V := V) (cols dim (q ++ l)) t sz ct dt (zrange 0 (Z.of_nat (length (q ++ l)))) r.
Proof.
  induction l as [|p l IH]; intros q t sz ct dt nd r Hq ->; cbn [fold_left]; [now rewrite app_nil_r|].
  unfold add_coord at 2. cbn [si_coords si_types si_sizes si_counts si_data si_nodes si_region]. rewrite <- cols_snoc.
  assert (Hh : length (hd [] (cols dim q)) = length q).
  { apply Forall_app in Hq. destruct (cols_length dim q (proj1 Hq)) as [L1 L2]. destruct (cols dim q) as [|a b]; [discriminate|]. now inversion L2. }
  rewrite Hh. rewrite IH; [now rewrite <- app_assoc|now rewrite <- app_assoc|].
  rewrite app_length. cbn [length]. rewrite (zrange_app 0 (Z.of_nat (length q)) (Z.of_nat (length q + 1))) by lia. f_equal.
  rewrite zrange_cons, zrange_nil by lia. reflexivity.
Qed.

Definition shape_state (l : list U) (dt : list V) r : silo :=
  mkSilo (cols dim (flat_map shape l)) (repeat polygon (length l)) (map (fun u => Z.of_nat (length (shape u))) l) (repeat 1 (length l)) dt
    (zrange 0 (Z.of_nat (length (flat_map shape l)))) r.

Lemma repeat_snoc {X} (x : X) n : repeat x n ++ [x] = repeat x (n + 1).
Proof. now rewrite repeat_app. Qed.

Lemma add_shapes l : forall q dt r, Forall (fun u => Forall (fun p => length p = dim) (shape u)) (q ++ l) ->
  fold_left (fun s u => add_shape s (shape u)) l (shape_state q dt r) = shape_state (q ++ l) dt r.
Proof.
  induction l as [|u l IH]; intros q dt r H; cbn [fold_left]; [now rewrite app_nil_r|].
  assert (Hf : Forall (fun p => length p = dim) (flat_map shape (q ++ u :: l))).
  { apply Forall_forall. intros p Hpp. apply in_flat_map in Hpp. destruct Hpp as (v & Hv & Hpv). rewrite Forall_forall in H. specialize (H v Hv). rewrite Forall_forall in H. now apply H. }
  rewrite flat_map_app in Hf. cbn [flat_map] in Hf. rewrite app_assoc in Hf. apply Forall_app in Hf. destruct Hf as [Hf _].
  assert (E : add_shape (shape_state q dt r) (shape u) = shape_state (q ++ [u]) dt r).
  { unfold add_shape, shape_state. cbn [si_coords si_types si_sizes si_counts si_data si_nodes si_region].
    rewrite add_nodes by (auto; reflexivity). rewrite flat_map_app, map_app, (app_length q [u]). cbn [flat_map map length]. rewrite app_nil_r.
    f_equal; apply repeat_snoc. }
  rewrite E, IH by now rewrite <- app_assoc. now rewrite <- app_assoc.
Qed.

Lemma collect_shapes_ok s : good s -> collect_shapes shapes shape g (flush s) = Some (shape_state us [] (si_region s)).
Proof.
  intros H. unfold collect_shapes. rewrite coords_ok. cbn [obind].
  rewrite (over_all _ (fun s x => fold_left (fun s u => add_shape s (shape u)) (shapes x) s)); [|intros c Hc; now apply cs_in|reflexivity].
  fold xs. rewrite (fold_flat (fun s u => add_shape s (shape u)) shapes xs). fold us. rewrite flush_good by exact H.
  change (mkSilo (repeat [] dim) [] [] [] [] [] (si_region s)) with (shape_state [] [] (si_region s)). now rewrite add_shapes.
Qed.

(** Values of items *)
Lemma items_fold {I} (items : Cell -> list I) (sel : I -> V) l : forall s : silo,
  fold_left (fun (s : silo) x => set_data s (si_data s ++ map sel (items x))) l s = set_data s (si_data s ++ map sel (flat_map items l)).
Proof.
  induction l as [|x l IH]; intros s; cbn [fold_left flat_map map].
  - rewrite app_nil_r. now destruct s.
  - rewrite IH. unfold set_data. cbn [si_coords si_types si_sizes si_counts si_data si_nodes si_region]. rewrite map_app, app_assoc. reflexivity.
Qed.

Lemma collect_items_ok {I} (items : Cell -> list I) (sel : I -> V) s : good s -> lenient = true \/ items (get (zeros dims)) <> [] ->
  collect_items lenient items sel g (flush s) = Some (mkSilo (repeat [] dim) [] [] [] (map sel (flat_map items xs)) [] (si_region s)).
Proof.
  intros H Hi. unfold collect_items. rewrite coords_ok. cbn [obind].
  rewrite (over_all _ (fun (s : silo) x => set_data s (si_data s ++ map sel (items x)))).
  - fold xs. rewrite items_fold. rewrite flush_good by exact H. reflexivity.
  - intros c Hc. now apply cs_in.
  - intros pre c post E. rewrite front_ok; [reflexivity|]. destruct Hi as [Hlen|Hi]; [left; assumption|right].
    destruct cs_first as (cs' & Ec). rewrite items_fold. cbn [set_data si_data]. rewrite flush_good by exact H. cbn [si_data app].
    destruct pre as [|c0 pre].
    + cbn [app] in E. cbn [map flat_map app]. assert (c = zeros dims) as -> by congruence. intros F. apply Hi. now apply map_eq_nil in F.
    + cbn [app] in E. assert (c0 = zeros dims) as -> by congruence. cbn [map flat_map]. intros F. apply app_eq_nil in F. destruct F as [F _].
      apply map_eq_nil, app_eq_nil in F. destruct F as [F _]. now apply Hi.
Qed.

(** Values of cells *)
Lemma area_coords r : sim_area dims = Some r -> region_coords r = Some cs.
Proof.
  intros E. destruct (sim_area_spec dims d Hl Hp) as (r' & E' & Hv & Hin & _). assert (r' = r) as -> by congruence.
  destruct (streaks_valid d r Hv) as (l & Hok & _ & El & _). destruct (region_coords_spec d r Hv) as (l' & El' & Hl').
  rewrite El'. f_equal. apply sorted_unique.
  - unfold region_coords in El'. rewrite El in El'. cbn [option_map] in El'. injection El' as <-. now apply (coords_sorted d).
  - apply box_list_sorted with d. apply regular_box.
  - intros c. rewrite Hl', Hin. symmetry. apply cs_in.
Qed.

Lemma update_ok r : writer_region r -> exists r', update_region dim (v_box g) r = Some r' /\ sim_area dims = Some r'.
Proof.
  intros Hr. destruct (sim_area_spec dims d Hl Hp) as (r0 & E0 & _). unfold update_region.
  assert (Ei : reg_insert_box (box_fuel (v_box g)) (reg_empty dim) (v_box g) = sim_area dims).
  { unfold sim_area, box_fuel. rewrite Hbox, Hl. reflexivity. }
  destruct Hr as [->|(dims' & Hl' & Hp' & E')].
  - assert (Eb : bounding_box (reg_empty dim) = Some (null_box dim)).
    { unfold bounding_box. destruct (geometry_valid d (reg_empty dim) (rvalid_empty d)) as (b & l & E & _ & Hin & _ & Hn & _). rewrite E. cbn [option_map fst]. f_equal. apply Hn.
      destruct l as [|c l]; [reflexivity|]. exfalso. destruct (proj1 (Hin c) (or_introl eq_refl)) as [Lc Hc]. eapply (rin_empty d); eauto. }
    rewrite Eb. cbn [obind]. destruct (box_eqb (null_box dim) (v_box g)) eqn:Eq.
    + exfalso. apply box_eqb_spec in Eq. rewrite Hbox in Eq. unfold null_box in Eq. injection Eq as _ Eq. clear - Eq Hp. destruct Hp as [|n l Hn _]; [discriminate|]. cbn [repeat] in Eq. injection Eq as E1 _. lia.
    + cbn [negb]. rewrite Ei. exists r0. split; exact E0.
  - destruct (sim_area_spec dims' d Hl' Hp') as (r1 & E1 & _ & _ & Eb). assert (r1 = r) as -> by congruence. rewrite Eb. cbn [obind].
    destruct (box_eqb (mkBox (zeros dims') dims') (v_box g)) eqn:Eq.
    + apply box_eqb_spec in Eq. rewrite Hbox in Eq. assert (dims' = dims) as -> by congruence. exists r. split; [reflexivity|exact E'].
    + cbn [negb]. rewrite Ei. exists r0. split; exact E0.
Qed.

Lemma collect_cells_ok (sel : Cell -> V) s : good s -> exists r, writer_region r /\
  collect_cells lenient dim sel g (flush s) = Some (mkSilo (repeat [] dim) [] [] [] (map sel xs) [] r).
Proof.
  intros H. unfold collect_cells. rewrite flush_good by exact H. cbn [si_coords si_types si_sizes si_counts si_data si_nodes si_region].
  destruct (update_ok (si_region s) (proj2 H)) as (r & Eu & Ea). rewrite Eu. cbn [obind]. rewrite (area_coords r Ea). cbn [obind]. rewrite xs_ok. cbn [obind].
  rewrite front_ok; [|right; unfold xs; destruct cs_first as (cs' & ->); discriminate]. cbn [option_map].
  exists r. split; [|reflexivity]. right. now exists dims.
Qed.

(** ** The objects of the file *)

Definition shape_objects : list object :=
  if has_shapes then
    [Zonelist zonelist_name (Z.of_nat (length us)) (Z.of_nat dim) (zrange 0 (Z.of_nat (length (flat_map shape us)))) (repeat polygon (length us))
       (map (fun u => Z.of_nat (length (shape u))) us) (repeat 1 (length us));
     Ucdmesh mesh_label (Z.of_nat dim) (cols dim (flat_map shape us)) (Z.of_nat (length (flat_map shape us))) (Z.of_nat (length us)) zonelist_name]
  else [].

Definition point_objects : list object :=
  if has_points then [Pointmesh point_label (Z.of_nat dim) (cols dim (map point ps)) (Z.of_nat (length ps))] else [].

Definition grid_objects : list object :=
  match regular with
  | Some (q, o) => [Quadmesh grid_label (tick_lists A q o (rev dims)) (map (fun k => k + 1) (rev dims))]
  | None => []
  end.

Definition cell_object (sel : name * (Cell -> V)) : object := Quadvar (fst sel) grid_label (map (snd sel) xs) (rev dims).
Definition shape_object (sel : name * (U -> V)) : object := Ucdvar (fst sel) mesh_label (map (snd sel) us) (Z.of_nat (length us)).
Definition point_object (sel : name * (P -> V)) : object := Pointvar (fst sel) point_label (map (snd sel) ps) (Z.of_nat (length ps)).

Definition file_objects : list object :=
  shape_objects ++ point_objects ++ grid_objects ++ map cell_object cell_sels ++ map shape_object shape_sels ++ map point_object point_sels.

Definition does (f : silo -> option (silo * list object)) (o : list object) : Prop := forall s, good s -> exists s', good s' /\ f s = Some (s', o).

Lemma mapo_front (cols : list (list N)) : lenient = true \/ Forall (fun l => l <> []) cols -> mapo front cols = Some cols.
Proof.
  intros H. rewrite (mapo_map front (fun l => l)); [now rewrite map_id|]. intros l Hll. apply front_ok. destruct H as [Hlen|H]; [left; assumption|right]. rewrite Forall_forall in H. now apply H.
Qed.

Lemma first_cell {I} (items : Cell -> list I) : items (get (zeros dims)) <> [] -> flat_map items xs <> [].
Proof.
  intros H F. destruct cs_first as (cs' & E). unfold xs in F. rewrite E in F. cbn [map flat_map] in F. apply app_eq_nil in F. now destruct F.
Qed.

Lemma sum_ones n : fold_right Z.add 0 (repeat 1 n) = Z.of_nat n.
Proof. induction n as [|n IH]; [reflexivity|]. cbn [repeat fold_right]. lia. Qed.

Lemma flat_points : Forall (fun p => length p = dim) (flat_map shape us).
Proof.
  apply Forall_forall. intros p H. apply in_flat_map in H. destruct H as (u & Hu & Hpu). rewrite Forall_forall in Hsh. specialize (Hsh u Hu). rewrite Forall_forall in Hsh. now apply Hsh.
Qed.

Lemma does_shapes : does (handle_shapes lenient dim shapes shape has_shapes mesh_label g) shape_objects.
Proof.
  intros s Hs. unfold handle_shapes, shape_objects. destruct has_shapes; [|exists s; split; [exact Hs|reflexivity]].
  rewrite collect_shapes_ok by exact Hs. cbn [obind]. exists (shape_state us [] (si_region s)).
  destruct (cols_length dim (flat_map shape us) flat_points) as [L1 L2].
  split; [split; [exact L1|apply Hs]|]. unfold output_ucdmesh. cbn [shape_state si_coords si_types si_sizes si_counts si_data si_nodes si_region].
  assert (Hf : lenient = true \/ us <> [] /\ flat_map shape us <> []).
  { destruct (id Hdef) as [Hlen|[_ H]]; [left; assumption|right]. destruct (H eq_refl) as [H1 H2]. pose proof (first_cell shapes H1) as Hu. split; [exact Hu|].
    intros F. destruct cs_first as (cs' & E). unfold us, xs in F. rewrite E in F. cbn [map flat_map] in F. rewrite flat_map_app in F. apply app_eq_nil in F. destruct F as [F _].
    destruct (shapes (get (zeros dims))) as [|u l]; [congruence|]. inversion H2; subst. cbn [flat_map] in F. apply app_eq_nil in F. now destruct F. }
  assert (Hn : lenient = true \/ zrange 0 (Z.of_nat (length (flat_map shape us))) <> []).
  { destruct Hf as [Hlen|[_ H]]; [left; assumption|right]. destruct (flat_map shape us); [congruence|]. cbn [length]. rewrite zrange_cons by lia. discriminate. }
  rewrite (front_ok _ Hn). cbn [obind].
  rewrite !front_ok by (destruct Hf as [Hlen|[H _]]; [now left|right; destruct us; [congruence|discriminate]]). cbn [obind].
  rewrite mapo_front.
  - cbn [obind option_map]. rewrite sum_ones, zrange_length, Z.sub_0_r, Nat2Z.id. reflexivity.
  - destruct Hf as [Hlen|[_ H]]; [left; assumption|right]. eapply Forall_impl; [|exact L2]. cbn. intros l Hll ->. destruct (flat_map shape us); [congruence|discriminate].
Qed.

Lemma does_points : does (handle_points lenient dim points point has_points point_label g) point_objects.
Proof.
  intros s Hs. unfold handle_points, point_objects. destruct has_points; [|exists s; split; [exact Hs|reflexivity]].
  rewrite collect_points_ok by exact Hs. cbn [obind]. exists (mkSilo (cols dim (map point ps)) [] [] [] [] [] (si_region s)).
  assert (Hm : Forall (fun p => length p = dim) (map point ps)).
  { apply Forall_forall. intros p H. apply in_map_iff in H. destruct H as (x & <- & Hx). rewrite Forall_forall in Hpt. now apply Hpt. }
  destruct (cols_length dim (map point ps) Hm) as [L1 L2]. split; [split; [exact L1|apply Hs]|].
  unfold output_pointmesh. cbn [si_coords]. rewrite mapo_front.
  - cbn [obind option_map]. do 4 f_equal. destruct (cols dim (map point ps)) as [|a b]; [discriminate|]. inversion L2 as [|? ? H1 H2]; subst. cbn [hd]. now rewrite H1, map_length.
  - destruct (id Hdef) as [Hlen|[H _]]; [left; assumption|right]. pose proof (first_cell points (H eq_refl)) as Hq. fold ps in Hq.
    eapply Forall_impl; [|exact L2]. cbn. intros l Hll ->. rewrite map_length in Hll. destruct ps; [congruence|discriminate].
Qed.

Lemma does_regular : does (handle_regular A lenient regular grid_label g) grid_objects.
Proof.
  intros s Hs. unfold handle_regular, grid_objects. destruct regular as [[q o]|]; [|exists s; split; [exact Hs|reflexivity]]. destruct Hreg as [Lq Lo].
  rewrite flush_good by exact Hs. unfold collect_regular. cbn [si_coords si_types si_sizes si_counts si_data si_nodes si_region]. rewrite Hbox. cbn [b_dim]. cbv zeta.
  replace (repeat (@nil N) dim) with (repeat (@nil N) (length q)) by now rewrite Lq. rewrite ticks_ok by (rewrite ?rev_length; congruence).
  destruct (tick_lists_length A q o (rev dims) ltac:(congruence) ltac:(rewrite rev_length; congruence)) as [L1 L2].
  destruct (L2 ltac:(now apply Forall_rev)) as [L3 L4]. exists (mkSilo (tick_lists A q o (rev dims)) [] [] [] [] [] (si_region s)). split; [split; [cbn [si_coords]; congruence|apply Hs]|].
  unfold output_quadmesh. cbn [si_coords]. rewrite mapo_front by now right. cbn [obind option_map]. now rewrite L3.
Qed.

Lemma repeat_good r : writer_region r -> forall dt, good (mkSilo (repeat [] dim) [] [] [] dt [] r).
Proof. intros H dt. split; [apply repeat_length|exact H]. Qed.

Lemma does_cell sel : does (handle_cell_var lenient dim grid_label g sel) [cell_object sel].
Proof.
  intros s Hs. unfold handle_cell_var. destruct (collect_cells_ok (snd sel) s Hs) as (r & Hr & E). rewrite E. cbn [obind si_data]. eexists. split; [apply (repeat_good r Hr)|].
  rewrite Hbox. reflexivity.
Qed.

Lemma does_shape sel : In sel shape_sels -> does (handle_shape_var lenient shapes mesh_label g sel) [shape_object sel].
Proof.
  intros Hi s Hs. unfold handle_shape_var.
  assert (Hx : lenient = true \/ shapes (get (zeros dims)) <> []).
  { destruct (id Hdef) as [Hlen|[_ H]]; [left; assumption|right]. destruct has_shapes; [now apply H|]. rewrite Hss in Hi by reflexivity. destruct Hi. }
  rewrite collect_items_ok by assumption. cbn [obind si_data]. rewrite front_ok.
  - cbn [obind]. eexists. split; [apply repeat_good, Hs|]. unfold shape_object. rewrite map_length. reflexivity.
  - destruct Hx as [Hlen|H]; [left; assumption|right]. pose proof (first_cell shapes H) as H1. fold us in *. intros F. apply map_eq_nil in F. now apply H1.
Qed.

Lemma does_point sel : In sel point_sels -> does (handle_point_var lenient points point_label g sel) [point_object sel].
Proof.
  intros Hi s Hs. unfold handle_point_var.
  assert (Hx : lenient = true \/ points (get (zeros dims)) <> []).
  { destruct (id Hdef) as [Hlen|[H _]]; [left; assumption|right]. destruct has_points; [now apply H|]. rewrite Hps in Hi by reflexivity. destruct Hi. }
  rewrite collect_items_ok by assumption. cbn [obind si_data]. rewrite front_ok.
  - cbn [obind]. eexists. split; [apply repeat_good, Hs|]. unfold point_object. rewrite map_length. reflexivity.
  - destruct Hx as [Hlen|H]; [left; assumption|right]. pose proof (first_cell points H) as H1. fold ps in *. intros F. apply map_eq_nil in F. now apply H1.
Qed.

Lemma chain_does fs os : Forall2 does fs os -> does (chain fs) (concat os).
Proof.
  induction 1 as [|f o fs os Hf _ IH]; intros s Hs; [exists s; split; [exact Hs|reflexivity]|].
  destruct (Hf s Hs) as (s1 & G1 & E1). destruct (IH s1 G1) as (s2 & G2 & E2). exists s2. split; [exact G2|]. cbn [chain concat]. rewrite E1. cbn [obind]. now rewrite E2.
Qed.

Lemma does_map {X} (f : X -> silo -> option (silo * list object)) (o : X -> object) l : (forall x, In x l -> does (f x) [o x]) -> does (chain (map f l)) (map o l).
Proof.
  intros H. replace (map o l) with (concat (map (fun x => [o x]) l)) by (clear; induction l as [|x l IH]; [reflexivity|cbn; now f_equal]).
  apply chain_does. induction l as [|x l IH]; cbn [map]; constructor; [apply H; now left|apply IH; intros; apply H; now right].
Qed.

Lemma chain_app fs1 fs2 o1 o2 : does (chain fs1) o1 -> does (chain fs2) o2 -> does (chain (fs1 ++ fs2)) (o1 ++ o2).
Proof.
  revert o1. intros o1 H1 H2 s Hs. destruct (H1 s Hs) as (s1 & G1 & E1). destruct (H2 s1 G1) as (s2 & G2 & E2). exists s2. split; [exact G2|].
  assert (K : forall fs s s1 o, chain fs s = Some (s1, o) -> chain (fs ++ fs2) s = option_map (fun '(s2, o2) => (s2, o ++ o2)) (chain fs2 s1)).
  { clear. induction fs as [|f fs IH]; intros s s1 o E; cbn [chain app] in *.
    - injection E as <- <-. cbn [app]. now destruct (chain fs2 s) as [[? ?]|].
    - destruct (f s) as [[s' o']|]; [|discriminate]. cbn [obind] in *. destruct (chain fs s') as [[s'' o'']|] eqn:E''; [|discriminate]. cbn [obind] in E. injection E as <- <-.
      rewrite (IH s' s'' o'' E''). destruct (chain fs2 s'') as [[? ?]|]; [|reflexivity]. cbn [option_map obind]. now rewrite app_assoc. }
  rewrite (K fs1 s s1 o1 E1), E2. reflexivity.
Qed.

Lemma objects_ok : does (silo_objects A lenient dim points point shapes shape has_shapes has_points regular grid_label mesh_label point_label cell_sels shape_sels point_sels g) file_objects.
Proof.
  unfold silo_objects, file_objects. change (shape_objects ++ point_objects ++ grid_objects ++ map cell_object cell_sels ++ map shape_object shape_sels ++ map point_object point_sels)
    with (shape_objects ++ (point_objects ++ (grid_objects ++ (map cell_object cell_sels ++ map shape_object shape_sels ++ map point_object point_sels)))).
  rewrite !app_assoc. rewrite <- !app_assoc. rewrite (app_assoc shape_objects), (app_assoc (shape_objects ++ point_objects)).
  apply chain_app.
  - replace ((shape_objects ++ point_objects) ++ grid_objects) with (concat [shape_objects; point_objects; grid_objects]) by (cbn [concat]; now rewrite app_nil_r, app_assoc).
    apply chain_does. constructor; [apply does_shapes|]. constructor; [apply does_points|]. constructor; [apply does_regular|constructor].
  - apply chain_app; [apply does_map; intros; apply does_cell|]. apply chain_app; apply does_map; [apply does_shape|apply does_point].
Qed.
End Writer.
