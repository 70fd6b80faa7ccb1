(** Facts on regions on the device and on the CUDAStepper's kernel. *)
From Coq Require Import Permutation.
From Verif Require Import Base ListFacts RegionSpec RegionModel RegionRep RegionIterModel RegionStreaks RegionOpsModel
  CoordModel CoordSpec CoordFacts TopologyFacts PatchModel GridModel GridSpec GridFacts DisplacedFacts GridReach
  StencilModel UpdateModel UpdateSpec UpdateFacts SoAReach CudaFacts CudaGridModel CudaGridSpec CudaGridFacts.

(** ** CUDARegion *)

Lemma vec_get_some {A} (l : list A) i v : vec_get l i = Some v -> 0 <= i < Z.of_nat (length l).
Proof.
  unfold vec_get. destruct (i <? 0) eqn:E; [discriminate|]. intros H. apply Z.ltb_ge in E.
  assert (nth_error l (Z.to_nat i) <> None) as H' by congruence. apply nth_error_Some in H'. lia.
Qed.

(* writes to the positions k, k + 1, ... times n, plus index *)
Lemma add_coord_loop n index : 0 <= index < n -> forall xs k0 buf, Z.of_nat (length buf) = n * Z.of_nat (k0 + length xs) ->
  exists buf', fold_left (fun acc (kx : nat * Z) => obind acc (fun b => vec_set b (Z.of_nat (fst kx) * n + index) (snd kx))) (combine (seq k0 (length xs)) xs) (Some buf) = Some buf' /\
    length buf' = length buf /\
    (forall k x, nth_error xs k = Some x -> vec_get buf' (Z.of_nat (k0 + k) * n + index) = Some x) /\
    (forall p, (forall k, (k0 <= k)%nat -> p <> Z.of_nat k * n + index) -> vec_get buf' p = vec_get buf p).
Proof.
  intros Hi. induction xs as [|x xs IH]; intros k0 buf Hl.
  - exists buf. split; [reflexivity|]. split; [reflexivity|]. split; [intros [|k] y; discriminate|auto].
  - cbn [length seq combine fold_left fst snd obind].
    destruct (vec_set_spec buf (Z.of_nat k0 * n + index) x) as (b1 & E1 & L1 & G1); [cbn [length] in Hl; nia|]. rewrite E1.
    destruct (IH (S k0) b1) as (b2 & E2 & L2 & G2 & G3); [rewrite L1, Hl; f_equal; cbn [length]; lia|]. exists b2. split; [exact E2|]. split; [lia|]. split.
    + intros [|k] y E; cbn in E.
      * injection E as <-. rewrite Nat.add_0_r, G3.
        -- rewrite G1. destruct (Z.eqb_spec (Z.of_nat k0 * n + index) (Z.of_nat k0 * n + index)); [reflexivity|lia].
        -- intros k Hk. nia.
      * replace (k0 + S k)%nat with (S k0 + k)%nat by lia. now apply G2.
    + intros p Hp. rewrite G3 by (intros k Hk; apply Hp; lia). rewrite G1. specialize (Hp k0 (le_n _)).
      destruct (Z.eqb_spec (Z.of_nat k0 * n + index) p); [congruence|reflexivity].
Qed.

Lemma add_coord_spec buf c index n : 0 <= index < n -> Z.of_nat (length buf) = n * Z.of_nat (length c) ->
  exists buf', add_coord buf c index n = Some buf' /\ length buf' = length buf /\
    (forall k x, nth_error (rev c) k = Some x -> vec_get buf' (Z.of_nat k * n + index) = Some x) /\
    (forall k i, 0 <= i < n -> i <> index -> vec_get buf' (Z.of_nat k * n + i) = vec_get buf (Z.of_nat k * n + i)).
Proof.
  intros Hi Hl. destruct (add_coord_loop n index Hi (rev c) 0 buf) as (b' & E & L & G1 & G2); [rewrite rev_length; exact Hl|].
  exists b'. split; [unfold add_coord; rewrite <- (rev_length c); exact E|]. split; [exact L|]. split; [exact G1|].
  intros k i Hr Hne. apply G2. intros k' _ E'. assert (Z.of_nat k = Z.of_nat k') by nia. nia.
Qed.

Lemma add_coords_spec d n : forall cs i0 buf, Forall (fun c => length c = d) cs -> Z.of_nat (length buf) = n * Z.of_nat d -> 0 <= i0 -> i0 + Z.of_nat (length cs) = n ->
  exists buf', add_coords buf cs i0 n = Some buf' /\
    (forall j c k x, nth_error cs j = Some c -> nth_error (rev c) k = Some x -> vec_get buf' (Z.of_nat k * n + (i0 + Z.of_nat j)) = Some x) /\
    (forall k i, 0 <= i < i0 -> vec_get buf' (Z.of_nat k * n + i) = vec_get buf (Z.of_nat k * n + i)).
Proof.
  induction cs as [|c cs IH]; intros i0 buf Hc Hl H0 Hn.
  - exists buf. split; [reflexivity|]. split; [intros [|j]; discriminate|auto].
  - apply Forall_cons_iff' in Hc. destruct Hc as [Hd Hc']. cbn [add_coords]. cbn [length] in Hn.
    destruct (add_coord_spec buf c i0 n) as (b1 & E1 & L1 & G1 & G2); [lia|now rewrite Hd|]. rewrite E1. cbn [obind].
    destruct (IH (i0 + 1) b1 Hc') as (b2 & E2 & G3 & G4); [rewrite L1; exact Hl|lia|lia|]. exists b2. split; [exact E2|]. split.
    + intros [|j] c' k x Ej Ek.
      * cbn in Ej. injection Ej as <-. rewrite G4 by lia. cbn [Z.of_nat]. rewrite Z.add_0_r. now apply G1.
      * cbn in Ej. replace (i0 + Z.of_nat (S j)) with (i0 + 1 + Z.of_nat j) by lia. now apply (G3 j c').
    + intros k i Hi. rewrite G4 by lia. apply G2; lia.
Qed.

Lemma cuda_region_spec d cs : Forall (fun c => length c = d) cs ->
  exists buf, cuda_region d cs = Some buf /\ forall j c, nth_error cs j = Some c -> load_coord d buf (Z.of_nat j) (Z.of_nat (length cs)) = Some c.
Proof.
  intros Hc. destruct (add_coords_spec d (Z.of_nat (length cs)) cs 0 (repeat 0 (d * length cs)) Hc) as (buf & E & G & _); [rewrite repeat_length; lia|lia|lia|].
  exists buf. split; [exact E|]. intros j c Hj. unfold load_coord. assert (Hlen : length c = d) by (rewrite Forall_forall in Hc; apply Hc; now apply nth_error_In in Hj).
  assert (omap (fun k => vec_get buf (Z.of_nat j + Z.of_nat k * Z.of_nat (length cs))) (seq 0 d) = Some (rev c)) as ->.
  { apply omap_spec. rewrite <- Hlen, <- (rev_length c).
    assert (H : forall k x, nth_error (rev c) k = Some x -> vec_get buf (Z.of_nat j + Z.of_nat (0 + k) * Z.of_nat (length cs)) = Some x).
    { intros k x Hk. rewrite <- (G j c k x Hj Hk). f_equal. lia. }
    clear - H. revert H. generalize 0%nat as k0, (rev c) as l. intros k0 l. revert k0. induction l as [|x l IH]; intros k0 H; [constructor|].
    cbn [length seq]. constructor; [specialize (H 0%nat x eq_refl); now rewrite Nat.add_0_r in H|]. apply IH. intros k y Hk.
    replace (S k0 + k)%nat with (k0 + S k)%nat by lia. now apply H. }
  cbn [option_map]. now rewrite rev_involutive.
Qed.

(** ** Neighborhoods *)
Lemma mod_shift x n k : 0 < n -> 0 <= x + k * n < n -> x mod n = x + k * n.
Proof. intros Hn H. rewrite <- (Z_mod_plus_full x k n). now apply Z.mod_small. Qed.

Lemma hood_axis_spec (w : bool) n x : 0 < n -> - n <= x < 2 * n ->
  hood_axis w n x = if w then Some (x mod n) else if (0 <=? x) && (x <? n) then Some x else None.
Proof.
  intros Hn Hx. unfold hood_axis. destruct w.
  - destruct (Z.ltb_spec x 0) as [H|H]; cbn [obind]; rewrite Z.geb_leb.
    + destruct (Z.leb_spec n (x + n)); [lia|]. rewrite (mod_shift x n 1) by lia. f_equal; lia.
    + destruct (Z.leb_spec n x).
      * rewrite (mod_shift x n (-1)) by lia. f_equal; lia.
      * rewrite (mod_shift x n 0) by lia. f_equal; lia.
  - destruct (Z.ltb_spec x 0) as [H|H]; cbn [obind].
    + destruct (Z.leb_spec 0 x); [lia|reflexivity].
    + rewrite Z.geb_leb. destruct (Z.leb_spec 0 x); [|lia]. destruct (Z.leb_spec n x), (Z.ltb_spec x n); try lia; reflexivity.
Qed.

Lemma hood_coord_spec t : forall dim c, length t = length dim -> allpos dim -> close_by dim c -> hood_coord t dim c = denotes t dim c.
Proof.
  induction t as [|w t IH]; intros [|n dim] [|x c] Hl Hp Hc; try discriminate; try (now destruct Hc).
  cbn [hood_coord denotes]. destruct Hc as [Hx Hc]. apply Forall_cons_iff' in Hp. destruct Hp as [Hn Hp]. injection Hl as Hl.
  rewrite hood_axis_spec by (auto; lia). rewrite (IH dim c Hl Hp Hc). destruct w; cbn [obind].
  - destruct (denotes t dim c); reflexivity.
  - destruct ((0 <=? x) && (x <? n)); cbn [obind]; destruct (denotes t dim c); reflexivity.
Qed.

Lemma hood_index_spec dim c : (length dim = 2 \/ length dim = 3)%nat -> length c = length dim -> hood_index dim c = Some (to_index c dim).
Proof.
  intros Hd Hc. destruct dim as [|a [|b' [|d [|]]]]; try (cbn in Hd; lia).
  - destruct c as [|y [|x [|]]]; try discriminate. unfold hood_index, to_index, prod. cbn [fold_right]. f_equal. lia.
  - destruct c as [|z [|y [|x [|]]]]; try discriminate. unfold hood_index, to_index, prod. cbn [fold_right]. f_equal. lia.
Qed.

(** ** The kernel *)

(** An array on the device holds the values [f] for the coordinates in a box. *)
Definition array_holds {C} (b : box) (l : list C) (f : coord -> C) : Prop :=
  length l = Z.to_nat (prod (b_dim b)) /\ forall c, in_box b c -> vec_get l (to_index (zsub c (b_origin b)) (b_dim b)) = Some (f c).

Section Kernel.
Context {C : Type} (t : topology) (st : stencil) (upd : nat -> list C -> C -> C) (b : box).
Context (Ht : length t = length (b_dim b)) (Hd : (length (b_dim b) = 2 \/ length (b_dim b) = 3)%nat) (Hp : allpos (b_dim b)).
Context (Horg : length (b_origin b) = length (b_dim b)) (Hst : st_dim st = length (b_dim b)).
Context (Hrep : repeatable upd).

Lemma hood_spec (old : list C) edge F c : array_holds b old F -> in_box b c -> near_box st b c ->
  hood_values st (simple_hood t st (b_dim b) (zsub c (b_origin b)) old edge) = Some (map (box_value t b F edge) (neighbors st c)).
Proof using Ht Hd Hp Horg Hst.
  intros [Hl Ho] Hc Hn. unfold hood_values, neighbors. rewrite map_map. apply omap_some. apply Forall_forall. intros e He. unfold simple_hood, box_value.
  pose proof (inside_length _ _ _ Hc) as Hlc.
  assert (E : zadd (zsub c (b_origin b)) (fc_coord (st_dim st) (snd e)) = zsub (zadd c (fc_coord (st_dim st) (snd e))) (b_origin b)).
  { assert (Hlf : length (fc_coord (st_dim st) (snd e)) = length (b_dim b)) by (rewrite fc_coord_length; lia).
    revert Hlf. clear - Hlc Horg. generalize (fc_coord (st_dim st) (snd e)). intros f Hf. assert (length f = length (b_origin b)) as Hf' by lia. assert (length c = length (b_origin b)) as Hc' by lia.
    revert Hf' Hc'. clear. generalize (b_origin b) as o. revert f. induction c as [|x c IH]; intros [|y f] [|z o] H1 H2; try discriminate; [reflexivity|].
    cbn. rewrite IH by (cbn in *; lia). f_equal. lia. }
  rewrite E. unfold near_box, neighbors in Hn. rewrite Forall_map, Forall_forall in Hn. specialize (Hn e He). cbn beta in Hn.
  rewrite hood_coord_spec by auto. destruct (denotes t (b_dim b) _) as [rel|] eqn:Ed; [|reflexivity].
  apply denotes_wraps in Ed; auto. apply wraps_to_grid in Ed. rewrite hood_index_spec; [|exact Hd|now apply in_grid_length]. cbn [obind].
  assert (Hlr : length rel = length (b_origin b)) by (rewrite Horg; now apply in_grid_length).
  assert (Er : zsub (zadd rel (b_origin b)) (b_origin b) = rel).
  { revert Hlr. clear. generalize (b_origin b) as o. induction rel as [|x rel IH]; intros [|y o] H; try discriminate; [reflexivity|]. cbn. rewrite IH by (now injection H). f_equal. lia. }
  rewrite <- (Ho (zadd rel (b_origin b))); [now rewrite Er|]. apply in_box_zsub; [exact Horg|]. rewrite Er. split; [rewrite zadd_length'; lia|exact Ed].
Qed.

Lemma array_put (l : list C) F c v : array_holds b l F -> in_box b c ->
  exists l', vec_set l (to_index (zsub c (b_origin b)) (b_dim b)) v = Some l' /\
    forall F', F' c = v -> (forall c', in_box b c' -> c' <> c -> F' c' = F c') -> array_holds b l' F'.
Proof using Ht Hd Hp Horg Hst.
  intros [Hl Ho] Hc. pose proof Hc as Hb. apply in_box_zsub in Hb; [|exact Horg]. destruct Hb as [Hlc Hg].
  pose proof (to_index_bound _ Hp _ Hg) as Hi.
  destruct (vec_set_spec l (to_index (zsub c (b_origin b)) (b_dim b)) v) as (l' & E & L & G); [lia|]. exists l'. split; [exact E|].
  intros F' H1 H2. split; [congruence|]. intros c' Hc'. rewrite G. pose proof Hc' as Hb'. apply in_box_zsub in Hb'; [|exact Horg]. destruct Hb' as [Hlc' Hg'].
  destruct (Z.eqb_spec (to_index (zsub c (b_origin b)) (b_dim b)) (to_index (zsub c' (b_origin b)) (b_dim b))) as [Ei|Ei].
  - apply to_index_inj in Ei; auto. apply sub_inj in Ei; try lia. subst c'. now rewrite H1.
  - rewrite Ho by exact Hc'. f_equal. symmetry. apply H2; [exact Hc'|]. intros ->. congruence.
Qed.

Context (cs : list coord) (coords : list Z) (nano : nat) (old : list C) (edge : C) (F : coord -> C).
Context (Hcs : forall j c, nth_error cs j = Some c -> load_coord (length (b_dim b)) coords (Z.of_nat j) (Z.of_nat (length cs)) = Some c).
Context (Hin : Forall (in_box b) cs) (Hnear : Forall (near_box st b) cs) (Hold : array_holds b old F).

Definition fresh_value (c : coord) (v : C) : C := upd nano (map (box_value t b F edge) (neighbors st c)) v.

Lemma thread_spec k new G : 0 <= k -> array_holds b new G ->
  exists new', update_thread t st upd b nano old edge coords (Z.of_nat (length cs)) k new = Some new' /\
    exists G', array_holds b new' G' /\
    (forall c, nth_error cs (Z.to_nat k) = Some c -> G' c = fresh_value c (G c)) /\
    (forall c, in_box b c -> nth_error cs (Z.to_nat k) <> Some c -> G' c = G c).
Proof using Ht Hd Hp Horg Hst Hcs Hin Hnear Hold.
  intros Hk Hg. unfold update_thread. rewrite Z.geb_leb. destruct (Z.leb_spec (Z.of_nat (length cs)) k) as [Hge|Hlt].
  - exists new. split; [reflexivity|]. exists G. split; [exact Hg|]. split; [|auto]. intros c E. assert (E2 : nth_error cs (Z.to_nat k) <> None) by congruence. apply nth_error_Some in E2. lia.
  - destruct (nth_error cs (Z.to_nat k)) as [c|] eqn:Ek; [|apply nth_error_None in Ek; lia].
    pose proof (Hcs _ _ Ek) as Hld. rewrite Z2Nat.id in Hld by lia. rewrite Hld. cbn [obind].
    pose proof (nth_error_In _ _ Ek) as Hic. rewrite Forall_forall in Hin, Hnear.
    rewrite (hood_spec old edge F c Hold (Hin c Hic) (Hnear c Hic)). cbn [obind].
    destruct Hg as [Hl Hget]. rewrite (Hget c (Hin c Hic)). cbn [obind]. fold (fresh_value c (G c)).
    destruct (array_put new G c (fresh_value c (G c)) (conj Hl Hget) (Hin c Hic)) as (l' & E & H). exists l'. split; [exact E|].
    exists (fun c' => if list_eq_dec Z.eq_dec c' c then fresh_value c (G c) else G c'). split.
    + apply H; [|intros c' _ Hne]; destruct (list_eq_dec Z.eq_dec _ _); congruence.
    + split.
      * intros c' E'. injection E' as <-. destruct (list_eq_dec Z.eq_dec c c); congruence.
      * intros c' _ Hne. destruct (list_eq_dec Z.eq_dec c' c); [subst; congruence|reflexivity].
Qed.

Lemma threads_spec order : forall new G, Forall (fun k => 0 <= k) order -> array_holds b new G ->
  exists new', run_threads t st upd b nano old edge coords (Z.of_nat (length cs)) order new = Some new' /\
    exists G', array_holds b new' G' /\
    (forall k c, In k order -> nth_error cs (Z.to_nat k) = Some c -> G' c = fresh_value c (G c)) /\
    (forall c, in_box b c -> (forall k, In k order -> nth_error cs (Z.to_nat k) <> Some c) -> G' c = G c).
Proof using Ht Hd Hp Horg Hst Hcs Hin Hnear Hold Hrep.
  induction order as [|k order IH]; intros new G Hk Hg.
  - exists new. split; [reflexivity|]. exists G. split; [exact Hg|]. split; [intros k c []|auto].
  - inversion Hk as [|? ? Hk0 Hk']; subst. destruct (thread_spec k new G Hk0 Hg) as (n1 & E1 & G1 & A1 & B1 & B2). cbn [run_threads]. rewrite E1. cbn [obind].
    destruct (IH n1 G1 Hk' A1) as (n2 & E2 & G2 & A2 & D1 & D2). exists n2. split; [exact E2|]. exists G2. split; [exact A2|]. split.
    + intros k' c Hin' Ec. assert (Hb : in_box b c) by (rewrite Forall_forall in Hin; apply Hin; now apply nth_error_In in Ec).
      assert (Hdec : (exists k'', In k'' order /\ nth_error cs (Z.to_nat k'') = Some c) \/ (forall k'', In k'' order -> nth_error cs (Z.to_nat k'') <> Some c)).
      { clear. induction order as [|a l IH]; [right; intros ? []|]. destruct IH as [(k & H1 & H2)|IH]; [left; exists k; split; [now right|exact H2]|].
        destruct (nth_error cs (Z.to_nat a)) as [c'|] eqn:E.
        - destruct (list_eq_dec Z.eq_dec c' c); [subst; left; exists a; split; [now left|exact E]|right; intros k [<-|H]; [congruence|auto]].
        - right. intros k [<-|H]; [congruence|auto]. }
      assert (G1 c = fresh_value c (G c) \/ G1 c = G c) as HG1.
      { destruct (nth_error cs (Z.to_nat k)) as [c'|] eqn:E; [destruct (list_eq_dec Z.eq_dec c' c); [subst; left; now apply B1|right; apply B2; congruence]|right; apply B2; congruence]. }
      destruct Hdec as [(k'' & H1 & H2)|Hno].
      * rewrite (D1 k'' c H1 H2). destruct HG1 as [->| ->]; [|reflexivity]. apply Hrep.
      * rewrite (D2 c Hb Hno). destruct Hin' as [<-|Hin']; [now apply B1|]. exfalso. now apply (Hno k').
    + intros c Hb Hno. rewrite D2 by (auto; intros; apply Hno; now right). apply B2; [exact Hb|]. apply Hno. now left.
Qed.
End Kernel.

Lemma kernel_threads_in grid block k : (1 <= block)%nat -> (In k (kernel_threads grid block) <-> 0 <= k < grid).
Proof.
  intros Hb. unfold kernel_threads. rewrite in_flat_map. split.
  - intros (x & Hx & Hk). apply repeat_spec in Hk. subst. now apply zrange_in in Hx.
  - intros Hk. exists k. split; [now apply zrange_in|]. destruct block; [lia|]. now left.
Qed.
