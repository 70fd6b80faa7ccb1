(** Properties C237-C242: soa_grid as a value, and soa_vector. *)
From Verif Require GridReach.
From Verif Require Import Base ListFacts RegionSpec RegionStreaks RegionOpsModel CoordModel CoordFacts GridModel GridFacts SellFacts SoAModel FlatVectorModel FlatVectorSpec.

Lemma get_in {A} (l : list A) i : 0 <= i < Z.of_nat (length l) -> exists v, vec_get l i = Some v.
Proof. intros H. unfold vec_get. destruct (Z.ltb_spec i 0); [lia|]. destruct (nth_error l (Z.to_nat i)) eqn:E; [eauto|]. apply nth_error_None in E. lia. Qed.

Lemma get_app {A} (a b : list A) i : 0 <= i -> vec_get (a ++ b) i = if i <? Z.of_nat (length a) then vec_get a i else vec_get b (i - Z.of_nat (length a)).
Proof.
  intros H. unfold vec_get. destruct (Z.ltb_spec i 0); [lia|]. destruct (Z.ltb_spec i (Z.of_nat (length a))).
  - apply nth_error_app1. lia.
  - destruct (Z.ltb_spec (i - Z.of_nat (length a)) 0); [lia|]. rewrite nth_error_app2 by lia. f_equal. lia.
Qed.

Lemma get_firstn {A} (m : list A) k i : 0 <= i < Z.of_nat k -> vec_get (firstn k m) i = vec_get m i.
Proof.
  intros H. destruct (Nat.le_gt_cases k (length m)) as [Hk|Hk]; [|rewrite firstn_all2 by lia; reflexivity].
  rewrite <- (firstn_skipn k m) at 2. rewrite get_app by lia. rewrite firstn_length, Nat.min_l by lia. destruct (Z.ltb_spec i (Z.of_nat k)); [reflexivity|lia].
Qed.

Lemma firstn_is {A} (m l : list A) : (length l <= length m)%nat -> (forall i, 0 <= i < Z.of_nat (length l) -> vec_get m i = vec_get l i) -> firstn (length l) m = l.
Proof.
  intros Hl H. apply SellFacts.vec_get_ext; [rewrite firstn_length; lia|]. intros i Hi. rewrite firstn_length in Hi. rewrite get_firstn by lia. apply H. lia.
Qed.

(** Cells which are copied one by one *)
Lemma load_spec {A C} (f : A -> Z) (src : list C) L : forall m, (forall a, In a L -> 0 <= f a < Z.of_nat (length src) /\ f a < Z.of_nat (length m)) ->
  exists m', each (fun a m => obind (vec_get src (f a)) (vec_set m (f a))) L m = Some m' /\ length m' = length m /\
  (forall a, In a L -> vec_get m' (f a) = vec_get src (f a)) /\ (forall j, (forall a, In a L -> f a <> j) -> vec_get m' j = vec_get m j).
Proof.
  induction L as [|a L IH]; intros m H; [exists m; repeat split; auto; intros ? []|].
  destruct (H a (or_introl eq_refl)) as [H1 H2]. destruct (get_in src (f a) H1) as (v & Ev). destruct (vec_set_spec m (f a) v ltac:(lia)) as (m1 & E1 & L1 & G1).
  destruct (IH m1) as (m' & E & Lm & G & G'). { intros b Hb. rewrite L1. apply H. now right. }
  exists m'. cbn [each]. rewrite Ev. cbn [obind]. rewrite E1. cbn [obind]. split; [exact E|]. split; [lia|].
  assert (Hk : forall j, vec_get m1 j = vec_get src j -> vec_get m' j = vec_get src j).
  { intros j Hj. destruct (in_dec Z.eq_dec j (map f L)) as [Hd|Hd].
    - apply in_map_iff in Hd. destruct Hd as (b & <- & Hb). now apply G.
    - rewrite G'; [exact Hj|]. intros b Hb Eb. apply Hd. apply in_map_iff. eauto. }
  split.
  - intros b [<-|Hb]; [|now apply G]. apply Hk. rewrite G1, Z.eqb_refl. now symmetry.
  - intros j Hj. rewrite G' by (intros b Hb; apply Hj; now right). rewrite G1. destruct (Z.eqb_spec (f a) j); [|reflexivity]. exfalso. now apply (Hj a (or_introl eq_refl)).
Qed.

(** ** C237, C238 *)

Theorem C237_swap {C} (sizes : coord -> option coord) (a b : @fgrid C) z y xa xb : fg_dim a = [z; y; xa] -> fg_dim b = [z; y; xb] ->
  let (a', b') := fg_swap a b in
  fg_dim a' = fg_dim b /\ fg_dim b' = fg_dim a /\ forall c, fg_get sizes a' c = fg_get sizes b c /\ fg_get sizes b' c = fg_get sizes a c.
Proof. intros Ha Hb. unfold fg_swap. cbn [fg_dim]. rewrite Ha, Hb. cbn [with_x]. split; [reflexivity|]. split; [reflexivity|]. intros c. unfold fg_get. cbn [fg_dim fg_mem]. rewrite Ha, Hb. split; reflexivity. Qed.
Print Assumptions C237_swap.

Definition s23 : coord -> option coord := custom_sizes [2; 4] [1; 2; 4] [1].
Example C237_example :
  exists a b : @fgrid Z, fg_new s23 (fun q => q) [] [1; 2; 2] = Some a /\ fg_new s23 (fun q => 10 * q) [] [1; 2; 3] = Some b /\
    fg_get s23 (fst (fg_swap a b)) [0; 1; 2] = Some 60 /\ fg_get s23 (snd (fg_swap a b)) [0; 1; 1] = Some 3.
Proof. eexists. eexists. split; [vm_compute; reflexivity|]. split; [vm_compute; reflexivity|]. vm_compute. auto. Qed.

(** Grids of different heights *)
Theorem C238_swap_refuted : exists a b : @fgrid Z, fg_new s23 (fun q => q) [] [1; 1; 2] = Some a /\ fg_new s23 (fun q => q) [] [1; 4; 2] = Some b /\
  fg_dim (fst (fg_swap a b)) <> fg_dim b /\
  fg_get s23 b [0; 3; 1] <> None /\ fg_get s23 (snd (fg_swap a b)) [0; 3; 1] = None /\ fg_dim (snd (fg_swap a b)) = [1; 4; 2].
Proof.
  exists (mkFG [1; 1; 2] [1; 1; 2] [0; 1]), (mkFG [1; 4; 2] [1; 4; 2] [0; 1; 2; 3; 4; 5; 6; 7]).
  split; [vm_compute; reflexivity|]. split; [vm_compute; reflexivity|]. split; [vm_compute; discriminate|]. split; [vm_compute; discriminate|]. split; vm_compute; reflexivity.
Qed.
Print Assumptions C238_swap_refuted.

(** ** C239: copies *)

Lemma cells_mem dz dy dx z y x : In [z; y; x] (cells [dz; dy; dx]) <-> 0 <= z < dz /\ 0 <= y < dy /\ 0 <= x < dx.
Proof.
  unfold cells. rewrite in_flat_map. split.
  - intros (z' & Hz & H). apply in_flat_map in H. destruct H as (y' & Hy & H). apply in_map_iff in H. destruct H as (x' & E & Hx). injection E as -> -> ->. apply zrange_in in Hz, Hy, Hx. auto.
  - intros (Hz & Hy & Hx). exists z. split; [now apply zrange_in|]. apply in_flat_map. exists y. split; [now apply zrange_in|]. apply in_map_iff. exists x. split; [reflexivity|now apply zrange_in].
Qed.

Lemma cells_shape dim c : In c (cells dim) -> exists z y x, c = [z; y; x].
Proof.
  unfold cells. destruct dim as [|dz [|dy [|dx [|]]]]; try (intros []). intros H. apply in_flat_map in H. destruct H as (z & _ & H). apply in_flat_map in H. destruct H as (y & _ & H). apply in_map_iff in H. destruct H as (x & <- & _). eauto.
Qed.

(** A grid as resize() leaves it *)
Definition fg_ok {C} (sizes : coord -> option coord) (g : @fgrid C) : Prop :=
  exists dz dy dx ez ey ex, fg_dim g = [dz; dy; dx] /\ sizes (fg_dim g) = Some [ez; ey; ex] /\ 0 <= dz <= ez /\ 0 <= dy <= ey /\ 0 <= dx <= ex /\ Z.of_nat (length (fg_mem g)) = ez * ey * ex.

Lemma copy_in_spec {C} sizes (src tgt : @fgrid C) : fg_ok sizes src -> fg_dim tgt = fg_dim src -> length (fg_mem tgt) = length (fg_mem src) ->
  exists g, fg_copy_in sizes src tgt = Some g /\ fg_dim g = fg_dim src /\ fg_ext g = fg_ext tgt /\ (forall c, In c (cells (fg_dim src)) -> fg_get sizes g c = fg_get sizes src c).
Proof.
  intros (dz & dy & dx & ez & ey & ex & Ed & Es & Hz & Hy & Hx & Hl) Ht Hlt. unfold fg_copy_in. rewrite Es. cbn [obind].
  destruct (load_spec (gen_index [ez; ey; ex]) (fg_mem src) (cells (fg_dim src)) (fg_mem tgt)) as (m' & E & Lm & G & _).
  - intros c Hc. destruct (cells_shape _ _ Hc) as (z & y & x & ->). rewrite Ed in Hc. apply cells_mem in Hc. destruct Hc as (Cz & Cy & Cx). cbn [gen_index].
    assert (A1 : 0 <= y * ex + x < ey * ex) by nia. assert (A2 : 0 <= z * (ex * ey)) by nia. assert (A3 : (z + 1) * (ex * ey) <= ez * (ex * ey)) by (apply Z.mul_le_mono_nonneg_r; nia). lia.
  - rewrite E. exists (mkFG (fg_dim tgt) (fg_ext tgt) m'). cbn [option_map fg_dim fg_ext]. split; [reflexivity|]. split; [exact Ht|]. split; [reflexivity|].
    intros c Hc. unfold fg_get. cbn [fg_dim fg_mem]. rewrite Ht, Es. cbn [obind]. now apply G.
Qed.

Lemma prod3 a b c : prod [a; b; c] = a * b * c.
Proof. cbn [prod]. lia. Qed.

Theorem C239_copies {C} (sizes : coord -> option coord) (junk : Z -> C) lost (g tgt : @fgrid C) : fg_ok sizes g -> (fg_dim tgt = fg_dim g -> length (fg_mem tgt) = length (fg_mem g)) ->
  (exists g', fg_copy sizes junk lost g = Some g' /\ fg_dim g' = fg_dim g /\ forall c, In c (cells (fg_dim g)) -> fg_get sizes g' c = fg_get sizes g c) /\
  (exists g', fg_assign sizes junk tgt g = Some g' /\ fg_dim g' = fg_dim g /\ forall c, In c (cells (fg_dim g)) -> fg_get sizes g' c = fg_get sizes g c).
Proof.
  intros Hok Ht. split.
  - unfold fg_copy. destruct (copy_in_spec sizes g (mkFG (fg_dim g) lost (map junk (zrange 0 (Z.of_nat (length (fg_mem g)))))) Hok eq_refl) as (g' & E & Ed & _ & G).
    { cbn [fg_mem]. rewrite map_length, zrange_length. lia. } eauto.
  - unfold fg_assign, fg_resize. destruct (CoordModel.coord_eqb (fg_dim tgt) (fg_dim g)) eqn:Eq.
    + assert (Hd : fg_dim tgt = fg_dim g) by now apply GridReach.coord_eqb_spec.
      cbn [obind]. destruct (copy_in_spec sizes g tgt Hok Hd (Ht Hd)) as (g' & E & Ed & _ & G). eauto.
    + pose proof Hok as (dz & dy & dx & ez & ey & ex & Ed & Es & Hz & Hy & Hx & Hl). rewrite Es. cbn [option_map obind].
      destruct (copy_in_spec sizes g (mkFG (fg_dim g) [ez; ey; ex] (map junk (zrange 0 (prod [ez; ey; ex])))) Hok eq_refl) as (g' & E & Ed' & _ & G).
      { cbn [fg_mem]. rewrite map_length, zrange_length, prod3. lia. } eauto.
Qed.
Print Assumptions C239_copies.

Example C239_example :
  exists (g g' : @fgrid Z), fg_new s23 (fun q => q) [] [1; 2; 2] = Some g /\ fg_ok s23 g /\ fg_copy s23 (fun _ => 7) [] g = Some g' /\ fg_get s23 g' [0; 1; 1] = Some 3.
Proof.
  exists (mkFG [1; 2; 2] [1; 2; 2] [0; 1; 2; 3]), (mkFG [1; 2; 2] [] [0; 1; 2; 3]). split; [vm_compute; reflexivity|]. split; [|split; vm_compute; reflexivity].
  exists 1, 2, 2, 1, 2, 2. cbn. repeat split; lia || reflexivity.
Qed.

(** ** C240: soa_vector *)

Lemma fit_le l n e : first_fit l n = Some e -> n <= e.
Proof. intros H. apply find_some in H. lia. Qed.

Lemma fit_between l d n e : first_fit l d = Some e -> d <= n <= e -> first_fit l n = Some e.
Proof.
  induction l as [|s l IH]; [discriminate|]. unfold first_fit in *. cbn [find]. destruct (Z.leb_spec d s) as [Hs|Hs].
  - intros E. injection E as ->. intros Hn. destruct (Z.leb_spec n e); [reflexivity|lia].
  - intros E Hn. destruct (Z.leb_spec n s); [lia|]. now apply IH.
Qed.

Lemma fit_ex n : n <= largest -> exists e, first_fit sizes_1d n = Some e.
Proof.
  intros H. destruct (first_fit sizes_1d n) as [e|] eqn:E; [eauto|]. exfalso. unfold first_fit in E. pose proof (find_none _ _ E 1073741856 ltac:(unfold sizes_1d; repeat (first [left; reflexivity | right]))) as Hf. cbv beta in Hf. unfold largest in H. lia.
Qed.

Lemma fit_in n e : first_fit sizes_1d n = Some e -> 32 <= e <= 536870944 \/ e = largest.
Proof.
  intros H. apply find_some in H. destruct H as [H _]. unfold sizes_1d in H. unfold largest. cbn [In] in H. lia.
Qed.

Section Vector.
Context {C : Type} (junk : Z -> C) (lost : coord) (grow : Z -> Z) (dflt : C) (Hgrow : forall n, 32 <= n <= 536870944 -> n < grow n <= largest).

Definition rep (v : @fvec C) (l : list C) : Prop :=
  exists d e, 0 <= d /\ fg_dim (fv_grid v) = [1; 1; d] /\ fg_ext (fv_grid v) = [1; 1; e] /\ first_fit sizes_1d d = Some e /\
    Z.of_nat (length (fg_mem (fv_grid v))) = e /\ fv_count v = Z.of_nat (length l) /\ Z.of_nat (length l) <= e /\ firstn (length l) (fg_mem (fv_grid v)) = l.

Lemma sizes_line d : default_sizes [1; 1; d] = option_map (fun e => [1; 1; e]) (first_fit sizes_1d d).
Proof using. reflexivity. Qed.

Lemma index_line e i : gen_index [1; 1; e] [0; 0; i] = i.
Proof using. clear. cbn [gen_index]. lia. Qed.

Lemma new_line n e : 0 <= n -> first_fit sizes_1d n = Some e -> fg_new default_sizes junk lost [1; 1; n] = Some (mkFG [1; 1; n] [1; 1; e] (map junk (zrange 0 e))).
Proof using. clear grow dflt Hgrow. intros Hn He. unfold fg_new, fg_resize. cbn [fg_dim CoordModel.coord_eqb]. change (0 =? 1) with false. cbn [andb]. rewrite sizes_line, He. cbn [option_map]. rewrite prod3. do 4 f_equal. lia. Qed.

Lemma rep_get v l i : rep v l -> 0 <= i < Z.of_nat (length l) -> fv_get default_sizes v i = vec_get l i.
Proof using.
  clear junk lost grow dflt Hgrow. intros (d & e & Hd0 & Hd & He & Hf & Hm & Hc & Hle & Hl) Hi. unfold fv_get, fg_get. rewrite Hd, sizes_line, Hf. cbn [option_map obind]. rewrite index_line. rewrite <- Hl at 1. symmetry. apply get_firstn. lia.
Qed.

(** Writing to a place which exists: the list's prefix of [k] elements becomes
    [l']. *)
Lemma rep_write v d e i x l' : 0 <= d -> fg_dim (fv_grid v) = [1; 1; d] -> fg_ext (fv_grid v) = [1; 1; e] -> first_fit sizes_1d d = Some e ->
  Z.of_nat (length (fg_mem (fv_grid v))) = e -> 0 <= i < e -> Z.of_nat (length l') <= e ->
  (forall j, 0 <= j < Z.of_nat (length l') -> vec_get l' j = if i =? j then Some x else vec_get (fg_mem (fv_grid v)) j) ->
  exists g, fg_set default_sizes (fv_grid v) [0; 0; i] x = Some g /\ rep (mkFV g (Z.of_nat (length l'))) l'.
Proof using.
  clear junk lost grow dflt Hgrow. intros Hd0 Hd He Hf Hm Hi Hle Hj. unfold fg_set. rewrite Hd, sizes_line, Hf. cbn [option_map obind]. rewrite index_line. destruct (vec_set_spec (fg_mem (fv_grid v)) i x ltac:(lia)) as (m & E & Lm & G). rewrite E. cbn [option_map].
  eexists. split; [reflexivity|]. exists d, e. cbn [fv_grid fg_dim fg_ext fg_mem fv_count]. repeat split; auto; try lia. apply firstn_is; [lia|]. intros j Hjj. rewrite G, Hj by lia. reflexivity.
Qed.

Lemma rep_prefix v l j : rep v l -> 0 <= j < Z.of_nat (length l) -> vec_get (fg_mem (fv_grid v)) j = vec_get l j.
Proof using. clear junk lost grow dflt Hgrow. intros (d & e & Hd0 & Hd & He & Hf & Hm & Hc & Hle & Hl) Hj. rewrite <- Hl at 1. symmetry. apply get_firstn. lia. Qed.

Lemma rep_reserve v l n e' : rep v l -> 0 <= n -> first_fit sizes_1d n = Some e' -> Z.of_nat (length l) <= e' ->
  exists v', fv_reserve default_sizes junk lost v n = Some v' /\ rep v' l /\ fg_dim (fv_grid v') = [1; 1; e'] /\ fg_ext (fv_grid v') = [1; 1; e'].
Proof using.
  clear grow dflt Hgrow. intros Hr Hn Hf' Hl'. pose proof Hr as (d & e & Hd0 & Hd & He & Hf & Hm & Hc & Hle & Hl). pose proof (fit_le _ _ _ Hf') as Hne. pose proof (fit_between _ _ e' _ Hf' ltac:(lia)) as Hee.
  unfold fv_reserve. rewrite (new_line n e' Hn Hf'). cbn [obind fg_ext x_of].
  assert (Hg1 : fg_resize default_sizes junk (mkFG [1; 1; n] [1; 1; e'] (map junk (zrange 0 e'))) [1; 1; e'] = Some (mkFG [1; 1; e'] [1; 1; e'] (map junk (zrange 0 e')))).
  { unfold fg_resize. cbn [fg_dim]. destruct (CoordModel.coord_eqb [1; 1; n] [1; 1; e']) eqn:Eq.
    - apply GridReach.coord_eqb_spec in Eq. injection Eq as Eq. now rewrite Eq.
    - rewrite sizes_line, Hee. cbn [option_map]. rewrite prod3. do 4 f_equal. lia. }
  rewrite Hg1. cbn [obind]. unfold fg_load. cbn [fg_dim fg_mem fg_ext]. rewrite sizes_line, Hee. cbn [option_map obind]. rewrite He. cbn [x_of]. rewrite Hm, Z.eqb_refl, index_line.
  destruct (load_spec (fun x => 0 + x) (fg_mem (fv_grid v)) (zrange 0 (fv_count v)) (map junk (zrange 0 e'))) as (m' & E & Lm & G & _).
  { intros x Hx. apply zrange_in in Hx. rewrite map_length, zrange_length. lia. }
  assert (E' : each (fun x m => obind (vec_get (fg_mem (fv_grid v)) x) (vec_set m (0 + x))) (zrange 0 (fv_count v)) (map junk (zrange 0 e')) = Some m').
  { rewrite <- E. reflexivity. }
  rewrite E'. cbn [option_map obind]. eexists. split; [reflexivity|]. unfold fg_swap. cbn [snd fv_grid fv_count fg_dim fg_ext fg_mem]. rewrite Hd, He. cbn [with_x]. split; [|split; reflexivity].
  exists e', e'. cbn [fv_grid fv_count fg_dim fg_ext fg_mem]. rewrite map_length, zrange_length in Lm. repeat split; auto; try lia. apply firstn_is; [lia|]. intros i Hi. specialize (G i ltac:(apply zrange_in; lia)). cbv beta in G. rewrite Z.add_0_l in G. rewrite G. now apply (rep_prefix v).
Qed.

Lemma rep_op o v l : rep v l -> allowed o l -> exists v' l', fv_op default_sizes junk lost grow dflt o v = Some v' /\ vstep o l l' /\ rep v' l'.
Proof using Hgrow.
  intros Hr (l0 & Hs). pose proof Hr as (d & e & Hd0 & Hd & He & Hf & Hm & Hc & Hle & Hl). pose proof (fit_le _ _ _ Hf) as Hde. destruct o as [i x|x| |n|n|]; cbn [fv_op].
  - inversion Hs as [i' x' a b y Hi E1 E2 E3| | | | | |]; subst. unfold fv_set. rewrite app_length in *. cbn [length] in *.
    destruct (rep_write v d (Z.of_nat (length (fg_mem (fv_grid v)))) (Z.of_nat (length a)) x (a ++ x :: b) Hd0 Hd He Hf eq_refl ltac:(lia) ltac:(rewrite app_length; cbn [length]; lia)) as (g & E & Hg).
    { rewrite app_length. cbn [length]. intros j Hj. rewrite get_app by lia. destruct (Z.eqb_spec (Z.of_nat (length a)) j) as [<-|Hne].
      - rewrite Z.ltb_irrefl, Z.sub_diag. reflexivity.
      - rewrite (rep_prefix v _ j Hr) by (rewrite app_length; cbn [length]; lia). rewrite get_app by lia. destruct (Z.ltb_spec j (Z.of_nat (length a))); [reflexivity|].
        unfold vec_get. destruct (Z.ltb_spec (j - Z.of_nat (length a)) 0); [reflexivity|]. replace (Z.to_nat (j - Z.of_nat (length a))) with (S (Z.to_nat (j - Z.of_nat (length a) - 1))) by lia. reflexivity. }
    rewrite E. cbn [option_map]. eexists. eexists. split; [reflexivity|]. split; [exact Hs|]. rewrite Hc. rewrite app_length in Hg. cbn [length] in Hg. exact Hg.
  - assert (Hlt : Z.of_nat (length l) < largest) by (inversion Hs; assumption). unfold fv_push.
    assert (exists w e', (if fv_count v =? x_of (fg_ext (fv_grid v)) then fv_reserve default_sizes junk lost v (grow (fv_count v)) else Some v) = Some w /\ rep w l /\ fg_ext (fv_grid w) = [1; 1; e'] /\ Z.of_nat (length l) < e') as (w & e' & Ew & Hw & Hwe & Hlt').
    { rewrite He. cbn [x_of]. destruct (Z.eqb_spec (fv_count v) e) as [Eq|Ne]; [|exists v, e; repeat split; auto; lia].
      destruct (fit_in _ _ Hf) as [Hin| ->]; [|lia]. specialize (Hgrow e Hin). rewrite Eq. destruct (fit_ex (grow e) ltac:(lia)) as (e' & Hf'). pose proof (fit_le _ _ _ Hf').
      destruct (rep_reserve v l (grow e) e' Hr ltac:(lia) Hf' ltac:(lia)) as (w & Ew & Hw & _ & Hwe). exists w, e'. repeat split; auto. lia. }
    rewrite Ew. cbn [obind]. pose proof Hw as (dw & ew & Hdw0 & Hdw & Hew & Hfw & Hmw & Hcw & Hlw & Hlw'). assert (ew = e') as -> by congruence. unfold fv_set.
    destruct (rep_write w dw e' (Z.of_nat (length l)) x (l ++ [x]) Hdw0 Hdw Hew Hfw Hmw ltac:(lia) ltac:(rewrite app_length; cbn [length]; lia)) as (g & E & Hg).
    { rewrite app_length. cbn [length]. intros j Hj. rewrite get_app by lia. destruct (Z.eqb_spec (Z.of_nat (length l)) j) as [<-|Hne].
      - rewrite Z.ltb_irrefl, Z.sub_diag. reflexivity.
      - destruct (Z.ltb_spec j (Z.of_nat (length l))); [|lia]. rewrite (rep_prefix w l j Hw) by lia. reflexivity. }
    rewrite Hcw, E. cbn [option_map fv_grid fv_count]. eexists. eexists. split; [reflexivity|]. split; [now constructor|]. rewrite app_length in Hg. cbn [length] in Hg. replace (Z.of_nat (length l) + 1) with (Z.of_nat (length l + 1)) by lia. exact Hg.
  - inversion Hs as [| |l1 x E1 E2| | | |]; subst. rewrite app_length in *. cbn [length] in *. unfold fv_pop, fv_set. cbn [fv_grid fv_count].
    destruct (rep_write v d (Z.of_nat (length (fg_mem (fv_grid v)))) (Z.of_nat (length l0)) dflt l0 Hd0 Hd He Hf eq_refl ltac:(lia) ltac:(lia)) as (g & E & Hg).
    { intros j Hj. destruct (Z.eqb_spec (Z.of_nat (length l0)) j); [lia|]. rewrite (rep_prefix v _ j Hr) by (rewrite app_length; cbn [length]; lia). rewrite get_app by lia. destruct (Z.ltb_spec j (Z.of_nat (length l0))); [reflexivity|lia]. }
    rewrite Hc. replace (Z.of_nat (length l0 + 1) - 1) with (Z.of_nat (length l0)) by lia. rewrite E. cbn [option_map]. eexists. exists l0. split; [reflexivity|]. split; [exact Hs|exact Hg].
  - assert (Hn : 0 <= n /\ (n <= Z.of_nat (length l) \/ Z.of_nat (length l) <= n <= largest)). { inversion Hs; subst; rewrite ?app_length in *; lia. } clear Hs l0.
    destruct Hn as [Hn0 Hn]. unfold fv_resize. rewrite Hd. cbn [x_of].
    assert (exists w e', (if d <? n then fv_reserve default_sizes junk lost v n else Some v) = Some w /\ rep w l /\ fg_ext (fv_grid w) = [1; 1; e'] /\ n <= e') as (w & e' & Ew & Hw & Hwe & Hne).
    { destruct (Z.ltb_spec d n) as [Hlt|Hge]; [|exists v, e; repeat split; auto; lia]. destruct (Z.le_gt_cases n e) as [Hnl|Hnl].
      - pose proof (fit_between _ _ n _ Hf ltac:(lia)) as Hfn. destruct (rep_reserve v l n e Hr ltac:(lia) Hfn ltac:(lia)) as (w & Ew & Hw & _ & Hwe). exists w, e. auto.
      - destruct (fit_ex n ltac:(lia)) as (e' & Hf'). pose proof (fit_le _ _ _ Hf'). destruct (rep_reserve v l n e' Hr ltac:(lia) Hf' ltac:(lia)) as (w & Ew & Hw & _ & Hwe). exists w, e'. auto. }
    rewrite Ew. cbn [option_map]. pose proof Hw as (dw & ew & Hdw0 & Hdw & Hew & Hfw & Hmw & Hcw & Hlw & Hlw'). assert (ew = e') as -> by congruence.
    set (l' := firstn (Z.to_nat n) (fg_mem (fv_grid w))). assert (Hll : Z.of_nat (length l') = n) by (unfold l'; rewrite firstn_length; lia).
    eexists. exists l'. split; [reflexivity|]. split.
    + destruct Hn as [Hn|Hn].
      * rewrite <- (firstn_skipn (Z.to_nat n) l). replace (firstn (Z.to_nat n) l) with l'; [now constructor|]. unfold l'. rewrite <- Hlw' at 1. rewrite firstn_firstn, Nat.min_l by lia. reflexivity.
      * assert (El : l' = l ++ skipn (length l) l'). { rewrite <- (firstn_skipn (length l) l') at 1. f_equal. unfold l'. rewrite firstn_firstn, Nat.min_l by lia. exact Hlw'. }
        rewrite El. constructor; [rewrite <- El; exact Hll|lia].
    + exists dw, e'. cbn [fv_grid fv_count]. repeat split; auto; try lia. unfold l' at 2. f_equal. lia.
  - inversion Hs as [| | | | |n' l1 Hn E1 E2|]; subst. destruct (fit_ex n ltac:(lia)) as (e' & Hf'). pose proof (fit_le _ _ _ Hf'). destruct (rep_reserve v l0 n e' Hr ltac:(lia) Hf' ltac:(lia)) as (w & Ew & Hw & _). exists w, l0. auto.
  - exists (fv_clear v), []. split; [reflexivity|]. split; [constructor|]. exists d, e. cbn [fv_clear fv_grid fv_count length firstn]. repeat split; auto; lia.
Qed.

Theorem C240_vector n ops : 0 <= n <= largest -> exists v0 l0, fv_new default_sizes junk lost n = Some v0 /\ Z.of_nat (length l0) = n /\
  (all_allowed ops l0 -> exists v l, each (fv_op default_sizes junk lost grow dflt) ops v0 = Some v /\ vsteps ops l0 l /\
    fv_count v = Z.of_nat (length l) /\ forall i, 0 <= i < Z.of_nat (length l) -> fv_get default_sizes v i = vec_get l i).
Proof using Hgrow.
  intros Hn. destruct (fit_ex n ltac:(lia)) as (e & Hf). pose proof (fit_le _ _ _ Hf). exists (mkFV (mkFG [1; 1; n] [1; 1; e] (map junk (zrange 0 e))) n), (firstn (Z.to_nat n) (map junk (zrange 0 e))).
  assert (Hll : Z.of_nat (length (firstn (Z.to_nat n) (map junk (zrange 0 e)))) = n). { rewrite firstn_length, map_length, zrange_length. lia. }
  split; [unfold fv_new; rewrite (new_line n e) by (auto; lia); reflexivity|]. split; [exact Hll|]. set (v0 := mkFV _ n). set (l0 := firstn _ _) in *.
  assert (Hr : rep v0 l0). { exists n, e. cbn [v0 fv_grid fv_count fg_dim fg_ext fg_mem]. repeat split; auto; try lia; [rewrite map_length, zrange_length; lia|]. unfold l0 at 2. f_equal. lia. }
  clearbody v0 l0. clear Hf Hll Hn. revert v0 l0 Hr. induction ops as [|o ops IH]; intros v0 l0 Hr Ha.
  - exists v0, l0. split; [reflexivity|]. split; [constructor|]. split; [destruct Hr as (? & ? & ? & ? & ? & ? & ? & Hc & _); exact Hc|]. intros i Hi. now apply rep_get.
  - inversion Ha as [|o' os l' Ho Hos]; subst. destruct (rep_op o v0 l0 Hr Ho) as (v1 & l1 & E1 & S1 & R1). destruct (IH v1 l1 R1 (Hos l1 S1)) as (v & l & E & S & Hc & G).
    exists v, l. cbn [each]. rewrite E1. cbn [obind]. split; [exact E|]. split; [econstructor; eauto|]. auto.
Qed.
End Vector.
Print Assumptions C240_vector.

(** A vector which has to grow; factor 1.2 *)
Definition grow12 (n : Z) : Z := n * 12 / 10.
Example C240_example_grow : forall n, 32 <= n <= 536870944 -> n < grow12 n <= largest.
Proof. intros n H. unfold grow12, largest. pose proof (Z.div_mod (n * 12) 10 ltac:(lia)). pose proof (Z.mod_pos_bound (n * 12) 10 ltac:(lia)). set (q := n * 12 / 10) in *. set (r := (n * 12) mod 10) in *. clearbody q r. lia. Qed.
Example C240_example : exists v, obind (fv_new default_sizes (fun q => - q) [] 31) (each (fv_op default_sizes (fun q => - q) [] grow12 0) [VPush 5; VPush 6; VPush 7; VSet 0 9; VPop]) = Some v /\
  fv_count v = 33 /\ fv_get default_sizes v 0 = Some 9 /\ fv_get default_sizes v 30 = Some (-30) /\ fv_get default_sizes v 32 = Some 6 /\ x_of (fg_dim (fv_grid v)) = 64.
Proof. eexists. split; [vm_compute; reflexivity|]. vm_compute. auto 6. Qed.
Example C240_example_allowed : forall l : list Z, length l = 31%nat -> all_allowed [VPush 5; VPop; VClear] l.
Proof.
  intros l Hl. constructor; [eexists; constructor; unfold largest; lia|]. intros l1 H1. inversion H1; subst. constructor; [eexists; constructor|]. intros l2 H2. constructor; [eexists; constructor|]. intros l3 H3. constructor.
Qed.

(** ** C241 *)

(** reserve() for less than there is *)
Theorem C241_reserve_refuted : exists (n : Z) (v : @fvec Z), 10 < n /\ fv_new default_sizes (fun q => q) [] n = Some v /\ fv_count v = n /\
  fv_reserve default_sizes (fun q => q) [] v 10 = None.
Proof. exists 40, (mkFV (mkFG [1; 1; 40] [1; 1; 64] (zrange 0 64)) 40). split; [lia|]. split; [vm_compute; reflexivity|]. split; [reflexivity|]. vm_compute. reflexivity. Qed.
Print Assumptions C241_reserve_refuted.

(** ** C242 *)

(** Pushing to a copy: depends on what the extents happen to be *)
Theorem C242_copy_refuted : exists (lost : coord) (w : @fvec Z),
  fv_new default_sizes (fun q => q) [] 32 = Some w /\ (exists u, fv_push default_sizes (fun q => q) [] grow12 w 7 = Some u) /\
  (exists c, fv_copy default_sizes (fun q => q) lost w = Some c /\ fv_push default_sizes (fun q => q) lost grow12 c 7 = None).
Proof.
  exists [0; 0; 0], (mkFV (mkFG [1; 1; 32] [1; 1; 32] (zrange 0 32)) 32). split; [vm_compute; reflexivity|]. split; [eexists; vm_compute; reflexivity|].
  exists (mkFV (mkFG [1; 1; 32] [0; 0; 0] (zrange 0 32)) 32). split; vm_compute; reflexivity.
Qed.
Print Assumptions C242_copy_refuted.
