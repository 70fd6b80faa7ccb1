(** Facts about the kernels of the CUDASimulator. *)
From Coq Require Import Permutation.
From Verif Require Import Base RegionSpec RegionModel RegionStreaks CoordModel CoordSpec CoordFacts GridModel GridSpec GridFacts SellFacts StencilModel UpdateModel UpdateSpec
  RegionOpsModel AdapterModel CudaModel CudaSpec.

(** ** Interleavings *)

Lemma interleaves_perm {A} (ts : list (list A)) r : interleaves ts r -> Permutation (concat ts) r.
Proof.
  induction 1 as [ts H|ts1 ts2 a l r _ IH].
  - induction H as [|l ts -> _ IH]; [constructor|exact IH].
  - rewrite !concat_app in *. cbn [concat] in *. rewrite <- IH. cbn [app]. apply Permutation_sym, Permutation_middle.
Qed.

Lemma interleaves_concat {A} (ts : list (list A)) : interleaves ts (concat ts).
Proof.
  assert (H : forall (ds us : list (list A)), Forall (fun l => l = []) ds -> interleaves (ds ++ us) (concat us)).
  { intros ds us. revert ds. induction us as [|l us IH]; intros ds Hd.
    - rewrite app_nil_r. now constructor.
    - cbn [concat]. induction l as [|a l IHl]; cbn [app].
      + replace (ds ++ [] :: us) with ((ds ++ [[]]) ++ us) by now rewrite <- app_assoc. apply IH. apply Forall_app. auto.
      + now constructor. }
  apply (H [] ts). constructor.
Qed.

(** ** Sweeps along the last axis *)

Lemma map_zrange_ext {B} (f g : Z -> B) a b : (forall x, a <= x < b -> f x = g x) -> map f (zrange a b) = map g (zrange a b).
Proof. intros H. apply map_ext_in. intros x Hx. apply H. now apply zrange_in. Qed.

Lemma sweep_range n index off a lo : sweep n index off a = map (fun z => mkAct (index + (z - lo) * off) a true) (zrange lo (lo + Z.of_nat n)).
Proof.
  unfold sweep, zrange. rewrite map_map. replace (Z.to_nat (lo + Z.of_nat n - lo)) with n by lia.
  apply map_ext. intros k. do 2 f_equal. lia.
Qed.

Lemma traverse_spec wrap lo hi n index off woff corr fn :
  (wrap = true -> 2 <= n /\ 0 <= lo < hi /\ hi <= n) ->
  traverse wrap lo hi n index off woff corr fn =
  map (fun z => mkAct (index + (z - lo) * off) (corr (if wrap && (z =? 0) then woff else 0) (if wrap && (z =? n - 1) then - woff else 0))
                  (negb (wrap && (z =? n - 1)) || fn)) (zrange lo hi).
Proof.
  intros H. unfold traverse. destruct wrap; cbn [andb negb orb].
  - destruct (H eq_refl) as (Hn & Hlo & Hhi). clear H.
    set (lo' := if lo =? 0 then lo + 1 else lo). set (index' := if lo =? 0 then index + off else index).
    assert (Ei : index' = index + (lo' - lo) * off) by (unfold index', lo'; destruct (lo =? 0); lia).
    assert (Eh : forall rest, zrange lo' hi = rest -> map (fun z => mkAct (index + (z - lo) * off) (corr (if z =? 0 then woff else 0) (if z =? n - 1 then - woff else 0)) (negb (z =? n - 1) || fn)) (zrange lo hi)
       = (if lo =? 0 then [mkAct index (corr woff 0) true] else []) ++
         map (fun z => mkAct (index + (z - lo) * off) (corr (if z =? 0 then woff else 0) (if z =? n - 1 then - woff else 0)) (negb (z =? n - 1) || fn)) rest).
    { intros rest <-. unfold lo'. destruct (Z.eqb_spec lo 0) as [->|]; [|reflexivity].
      rewrite (zrange_cons 0 hi) by lia. cbn [map app]. rewrite Z.eqb_refl, (proj2 (Z.eqb_neq 0 (n - 1))) by lia. cbn [negb orb].
      replace (index + (0 - 0) * off) with index by lia. reflexivity. }
    assert (Hlo' : 0 < lo' <= hi) by (unfold lo'; destruct (Z.eqb_spec lo 0); lia).
    destruct (Z.eqb_spec hi n) as [->|Hne].
    + assert (lo' < n) by (unfold lo'; destruct (Z.eqb_spec lo 0); lia).
      assert (Er : zrange lo' n = zrange lo' (n - 1) ++ [n - 1]).
      { rewrite (zrange_app lo' (n - 1) n) by lia. f_equal. rewrite (zrange_cons (n - 1) n) by lia. now rewrite zrange_nil by lia. }
      rewrite (Eh _ Er), map_app. f_equal. f_equal.
      * rewrite (sweep_range _ _ _ _ lo'). replace (lo' + Z.of_nat (Z.to_nat (n - 1 - lo'))) with (n - 1) by lia.
        apply map_zrange_ext. intros z Hz. rewrite (proj2 (Z.eqb_neq z 0)), (proj2 (Z.eqb_neq z (n - 1))) by lia. cbn [negb orb]. f_equal. lia.
      * cbn [map]. rewrite Z.eqb_refl, (proj2 (Z.eqb_neq (n - 1) 0)) by lia. cbn [negb orb]. rewrite Z2Nat.id by lia. do 2 f_equal. rewrite Ei. ring.
    + rewrite (Eh _ eq_refl). f_equal. rewrite (sweep_range _ _ _ _ lo'). replace (lo' + Z.of_nat (Z.to_nat (hi - lo'))) with hi by lia.
      apply map_zrange_ext. intros z Hz. rewrite (proj2 (Z.eqb_neq z 0)), (proj2 (Z.eqb_neq z (n - 1))) by lia. cbn [negb orb]. f_equal. lia.
  - cbn [app]. rewrite (sweep_range _ _ _ _ lo). destruct (Z_le_gt_dec lo hi).
    + replace (lo + Z.of_nat (Z.to_nat (hi - lo))) with hi by lia. reflexivity.
    + replace (Z.to_nat (hi - lo)) with O by lia. rewrite !zrange_nil by (cbn; lia). reflexivity.
Qed.

(** ** Threads *)

Lemma lanes_range g b : 0 <= g -> 1 <= b -> lanes g b = zrange 0 (g * b).
Proof.
  intros Hg Hb. pattern g. apply natlike_ind; [reflexivity| |exact Hg]. intros x Hx IH. unfold lanes in *.
  rewrite (zrange_app 0 x (Z.succ x)) by lia. rewrite flat_map_app, IH.
  assert (0 <= x * b <= Z.succ x * b) by nia. rewrite (zrange_app 0 (x * b) (Z.succ x * b)) by assumption. f_equal.
  rewrite (zrange_cons x (Z.succ x)) by lia. rewrite (zrange_nil (x + 1) (Z.succ x)) by lia. cbn [flat_map]. rewrite app_nil_r.
  unfold zrange. rewrite map_map. replace (Z.succ x * b - x * b) with (b - 0) by ring. apply map_ext. intros k. lia.
Qed.

Lemma nodup_flat_map {A B} (f : A -> list B) l : NoDup l -> (forall a, In a l -> NoDup (f a)) ->
  (forall a a' b, In a l -> In a' l -> In b (f a) -> In b (f a') -> a = a') -> NoDup (flat_map f l).
Proof.
  induction 1 as [|a l Ha Hl IH]; intros H1 H2; [constructor|]. cbn [flat_map].
  assert (Hr : NoDup (flat_map f l)) by (apply IH; [intros; apply H1; now right|intros x x' b Hx Hx'; apply H2; now right]).
  assert (Hd : forall b, In b (f a) -> ~ In b (flat_map f l)).
  { intros b Hb Hb'. apply in_flat_map in Hb'. destruct Hb' as (a' & Ha' & Hb'). apply Ha.
    rewrite (H2 a a' b); auto; [now left|now right]. }
  specialize (H1 a (or_introl eq_refl)). induction H1 as [|b bs Hb _ IHb]; [exact Hr|]. cbn [app]. constructor.
  - rewrite in_app_iff. intros [|Hb']; [contradiction|]. apply (Hd b); [now left|exact Hb'].
  - apply IHb. intros b' Hb'. apply Hd. now right.
Qed.

Lemma ceil_cover a b : 0 < a -> 1 <= b -> a <= ceil_div a b * b /\ (ceil_div a b - 1) * b < a /\ 0 < ceil_div a b.
Proof.
  intros Ha Hb. unfold ceil_div. pose proof (Z.div_mod (- a) b ltac:(lia)). pose proof (Z.mod_pos_bound (- a) b ltac:(lia)).
  assert (a <= - (- a / b) * b) by nia. assert ((- (- a / b) - 1) * b < a) by nia. repeat split; try assumption. nia.
Qed.

Lemma ceil_alt a b : 1 <= b -> (a + b - 1) / b = ceil_div a b.
Proof.
  intros Hb. unfold ceil_div. symmetry. apply Z.div_unique with (- ((- a) mod b) + b - 1).
  - pose proof (Z.mod_pos_bound (- a) b ltac:(lia)). lia.
  - pose proof (Z.div_mod (- a) b ltac:(lia)). nia.
Qed.

(** ** The parameters, by dimension *)

Definition po (w : bool) : Z := if w then 0 else -1.
Definition pe (w : bool) (n : Z) : Z := if w then n else n + 2.

Definition params_for (r : raw) (dim : coord) (b : dim3) : params :=
  match dim with
  | [nx] => mkParams (mkDim3 (ceil_div nx (d3_x b)) 1 1) b (mkDim3 (po (wrap_x r)) 0 0) (mkDim3 nx 1 1)
      (mkDim3 (nx * 1) (1 * pe (wrap_x r) nx) (1 * (pe (wrap_x r) nx * 1))) (pe (wrap_x r) nx) (pe (wrap_x r) nx * 1) 1
  | [ny; nx] => mkParams (mkDim3 (ceil_div nx (d3_x b)) 1 1) b (mkDim3 (po (wrap_x r)) (po (wrap_y r)) 0) (mkDim3 nx ny 1)
      (mkDim3 (nx * 1) (ny * pe (wrap_x r) nx) (1 * (pe (wrap_x r) nx * pe (wrap_y r) ny))) (pe (wrap_x r) nx) (pe (wrap_x r) nx * pe (wrap_y r) ny)
      (ceil_div ny (d3_y b))
  | [nz; ny; nx] => mkParams (mkDim3 (ceil_div nx (d3_x b)) (ceil_div ny (d3_y b)) 1) b
      (mkDim3 (po (wrap_x r)) (po (wrap_y r)) (po (wrap_z r))) (mkDim3 nx ny nz)
      (mkDim3 (nx * 1) (ny * pe (wrap_x r) nx) (nz * (pe (wrap_x r) nx * pe (wrap_y r) ny))) (pe (wrap_x r) nx) (pe (wrap_x r) nx * pe (wrap_y r) ny)
      (ceil_div nz (d3_z b))
  | _ => mkParams b b b b b 0 0 0
  end.

Definition sane (dim : coord) (b : dim3) : Prop :=
  (1 <= length dim <= 3)%nat /\ allpos dim /\ 1 <= d3_x b /\ 1 <= d3_y b /\ 1 <= d3_z b.

Lemma good_sane r dim b : good_launch r dim b -> sane dim b.
Proof.
  intros (H1 & H2 & H3 & H4 & H). split; [|split; [exact H1|auto]]. destruct dim as [|a [|a' [|a'' [|? ?]]]]; cbn in *; try contradiction; lia.
Qed.

Lemma make_params_spec r dim b : sane dim b -> make_params r dim b = Some (params_for r dim b).
Proof.
  intros (Hl & Hp & Hx & Hy & Hz). unfold make_params.
  destruct dim as [|n1 [|n2 [|n3 [|? ?]]]]; cbn [length] in Hl; try lia; cbn -[ceil_div Z.add Z.mul].
  - rewrite (proj2 (Z.eqb_neq (d3_x b) 0)) by lia. reflexivity.
  - rewrite (proj2 (Z.eqb_neq (d3_x b) 0)), (proj2 (Z.eqb_neq (d3_y b) 0)) by lia. cbn -[ceil_div Z.add Z.mul].
    inversion Hp as [|? ? Hn _]; subst. pose proof (ceil_cover n1 (d3_y b) Hn Hy) as (_ & _ & Hc).
    rewrite (proj2 (Z.eqb_neq (ceil_div n1 (d3_y b)) 0)) by lia. reflexivity.
  - rewrite (proj2 (Z.eqb_neq (d3_x b) 0)), (proj2 (Z.eqb_neq (d3_y b) 0)), (proj2 (Z.eqb_neq (d3_z b) 0)) by lia. cbn -[ceil_div Z.add Z.mul].
    inversion Hp as [|? ? Hn _]; subst. pose proof (ceil_cover n1 (d3_z b) Hn Hz) as (_ & _ & Hc).
    rewrite (proj2 (Z.eqb_neq (ceil_div n1 (d3_z b)) 0)) by lia. reflexivity.
Qed.

(** ** Which cells a thread updates, and how *)

Definition thread_cells (r : raw) (dim : coord) (b l : dim3) : list coord :=
  let w := p_wave (params_for r dim b) in
  match dim with
  | [nx] => if d3_x l <? nx then map (fun _ => [d3_x l]) (zrange (d3_y l) (Z.min (d3_y l + 1) 1)) else []
  | [ny; nx] => if d3_x l <? nx then map (fun y => [y; d3_x l]) (zrange (d3_y l * w) (Z.min ((d3_y l + 1) * w) ny)) else []
  | [nz; ny; nx] => if (d3_x l <? nx) && (d3_y l <? ny) then map (fun z => [z; d3_y l; d3_x l]) (zrange (d3_z l * w) (Z.min ((d3_z l + 1) * w) nz)) else []
  | _ => []
  end.

Definition corr_low (w : bool) (x off : Z) : Z := if w && (x =? 0) then off else 0.
Definition corr_high (w : bool) (n x off : Z) : Z := if w && (x =? n - 1) then - off else 0.

Definition cell_adds (r : raw) (dim : coord) (p : params) (c : coord) : adds :=
  let o := p_wrap p in
  match dim, c with
  | [nx], [x] => mkAdds (corr_low (wrap_x r) x (d3_x o)) (corr_high (wrap_x r) nx x (d3_x o)) 0 0 0 0
  | [ny; nx], [y; x] =>
      mkAdds (corr_low (wrap_x r) x (d3_x o)) (corr_high (wrap_x r) nx x (d3_x o))
        (corr_low (wrap_y r) y (d3_y o)) (corr_high (wrap_y r) ny y (d3_y o)) 0 0
  | [nz; ny; nx], [z; y; x] =>
      mkAdds (corr_low (wrap_x r) x (d3_x o)) (corr_high (wrap_x r) nx x (d3_x o))
        (corr_low (wrap_y r) y (d3_y o)) (corr_high (wrap_y r) ny y (d3_y o))
        (corr_low (wrap_z r) z (d3_z o)) (corr_high (wrap_z r) nz z (d3_z o))
  | _, _ => mkAdds 0 0 0 0 0 0
  end.

Definition cell_functor (r : raw) (dim c : coord) : bool :=
  match dim, c with
  | [ny; _], [y; _] => negb (wrap_y r && (y =? ny - 1))
  | _, _ => true
  end.

Definition cell_index (r : raw) (dim c : coord) : Z :=
  let t := raw_topology (length dim) r in to_index (zsub c (pad_offset t)) (pad_dim t dim).

Definition cell_act (r : raw) (dim : coord) (p : params) (c : coord) : act :=
  mkAct (cell_index r dim c) (cell_adds r dim p c) (cell_functor r dim c).

Lemma zrange_shift_map {B} (f : Z -> B) a b k : map f (zrange (a - k) (b - k)) = map (fun x => f (x - k)) (zrange a b).
Proof. unfold zrange. rewrite !map_map. replace (b - k - (a - k)) with (b - a) by lia. apply map_ext. intros i. f_equal. lia. Qed.

Lemma kernel_cells r dim b l : good_launch r dim b -> 0 <= d3_x l -> 0 <= d3_y l < (if Nat.eqb (length dim) 2 then d3_y b else d3_y l + 1) ->
  0 <= d3_z l < d3_z b ->
  kernel (length dim) r (params_for r dim b) l = map (cell_act r dim (params_for r dim b)) (thread_cells r dim b l).
Proof.
  intros Hg Hx Hy Hz. pose proof (good_sane _ _ _ Hg) as (Hl & Hp & Hbx & Hby & Hbz). destruct Hg as (_ & _ & _ & _ & Hg).
  destruct dim as [|n1 [|n2 [|n3 [|? ?]]]]; cbn [length] in Hl; try lia; cbn [Nat.eqb length] in Hy.
  - destruct Hg as (_ & Ew). unfold kernel. cbn [length Nat.ltb Nat.leb]. unfold kernel2D.
    cbn [params_for p_offset p_dim p_wave p_wrap p_offY d3_x d3_y d3_z]. rewrite Ew. unfold thread_cells.
    destruct (Z.ltb_spec (d3_x l) n1) as [H|H]; rewrite Z.geb_leb; [rewrite (proj2 (Z.leb_gt _ _)) by lia|rewrite (proj2 (Z.leb_le _ _)) by lia; reflexivity].
    rewrite traverse_spec by discriminate. rewrite !Z.sub_0_r, !Z.mul_1_r. cbn [andb negb orb].
    rewrite Z.add_0_r. rewrite map_map. apply map_zrange_ext. intros y Hy'. unfold cell_act. f_equal.
    assert (E : y = 0 /\ d3_y l = 0) by lia. destruct E as [-> ->]. unfold cell_index. cbn -[Z.mul Z.add Z.sub]. destruct (wrap_x r); cbn -[Z.mul Z.add Z.sub]; lia.
  - destruct Hg as (_ & Hw). unfold kernel. cbn [length Nat.ltb Nat.leb]. unfold kernel2D.
    cbn [params_for p_offset p_dim p_wave p_wrap p_offY d3_x d3_y d3_z]. unfold thread_cells. cbn [params_for p_wave].
    inversion Hp as [|? ? Hn1 _]; subst. pose proof (ceil_cover n1 (d3_y b) Hn1 Hby) as (Hc1 & Hc2 & Hc3).
    set (w := ceil_div n1 (d3_y b)) in *.
    destruct (Z.ltb_spec (d3_x l) n2) as [H|H]; rewrite Z.geb_leb; [rewrite (proj2 (Z.leb_gt _ _)) by lia|rewrite (proj2 (Z.leb_le _ _)) by lia; reflexivity].
    rewrite traverse_spec.
    + rewrite Z.sub_min_distr_r, Z.add_0_r, (zrange_shift_map _ _ _ (po (wrap_y r))), map_map. apply map_zrange_ext. intros y Hy'.
      assert (0 <= y) by nia.
      unfold cell_act, cell_index, cell_adds, cell_functor, corr_low, corr_high. cbn [p_wrap d3_x d3_y d3_z].
      cbn [length raw_topology firstn rev app pad_offset pad_dim map combine fst snd zsub to_index prod].
      f_equal.
      * unfold po, pe. destruct (wrap_x r), (wrap_y r); cbn -[Z.mul Z.add Z.sub]; ring.
      * unfold po. destruct (wrap_y r); cbn [andb]; [rewrite Z.sub_0_r; reflexivity|reflexivity].
      * unfold po. destruct (wrap_y r); cbn [andb negb]; [rewrite Z.sub_0_r, orb_false_r; reflexivity|reflexivity].
    + intros Ew. rewrite Ew. cbn [po]. destruct (Hw Ew) as (Hn & Hb). unfold all_busy in Hb. rewrite ceil_alt in Hb by lia. fold w in Hb.
      split; [exact Hn|]. assert (d3_y l * w <= (d3_y b - 1) * w) by (apply Z.mul_le_mono_nonneg_r; lia). nia.
  - unfold kernel. cbn [length Nat.ltb Nat.leb]. unfold kernel3D.
    cbn [params_for p_offset p_dim p_wave p_wrap p_offY p_offZ d3_x d3_y d3_z]. unfold thread_cells. cbn [params_for p_wave].
    inversion Hp as [|? ? Hn1 Hp']; subst. pose proof (ceil_cover n1 (d3_z b) Hn1 Hbz) as (Hc1 & Hc2 & Hc3).
    set (w := ceil_div n1 (d3_z b)) in *. rewrite !Z.geb_leb.
    destruct (Z.ltb_spec (d3_x l) n3) as [H|H]; [rewrite (proj2 (Z.leb_gt n3 _)) by lia|rewrite (proj2 (Z.leb_le n3 _)) by lia; reflexivity].
    destruct (Z.ltb_spec (d3_y l) n2) as [H'|H']; [rewrite (proj2 (Z.leb_gt n2 _)) by lia|rewrite (proj2 (Z.leb_le n2 _)) by lia; reflexivity].
    cbn [orb andb].
    rewrite traverse_spec.
    + rewrite Z.sub_min_distr_r, Z.add_0_r, (zrange_shift_map _ _ _ (po (wrap_z r))), map_map. apply map_zrange_ext. intros z Hz'.
      unfold cell_act, cell_index, cell_adds, cell_functor, corr_low, corr_high. cbn [p_wrap d3_x d3_y d3_z].
      cbn [length raw_topology firstn rev app pad_offset pad_dim map combine fst snd zsub to_index prod].
      f_equal.
      * unfold po, pe. destruct (wrap_x r), (wrap_y r), (wrap_z r); cbn -[Z.mul Z.add Z.sub]; ring.
      * unfold po. destruct (wrap_z r); cbn [andb]; [rewrite Z.sub_0_r; reflexivity|reflexivity].
      * apply orb_true_r.
    + intros Ew. rewrite Ew. cbn [po]. destruct (Hg Ew) as (Hn & Hb). unfold all_busy in Hb. rewrite ceil_alt in Hb by lia. fold w in Hb.
      split; [exact Hn|]. assert (d3_z l * w <= (d3_z b - 1) * w) by (apply Z.mul_le_mono_nonneg_r; lia). nia.
Qed.

Lemma threads_in p l : 0 <= d3_x (p_grid p) -> 0 <= d3_y (p_grid p) -> 0 <= d3_z (p_grid p) ->
  1 <= d3_x (p_block p) -> 1 <= d3_y (p_block p) -> 1 <= d3_z (p_block p) ->
  In l (threads p) <-> 0 <= d3_x l < d3_x (p_grid p) * d3_x (p_block p) /\ 0 <= d3_y l < d3_y (p_grid p) * d3_y (p_block p) /\
    0 <= d3_z l < d3_z (p_grid p) * d3_z (p_block p).
Proof.
  intros G1 G2 G3 B1 B2 B3. unfold threads. rewrite !lanes_range by assumption. rewrite in_flat_map. split.
  - intros (z & Hz & H). apply in_flat_map in H. destruct H as (y & Hy & H). apply in_map_iff in H. destruct H as (x & <- & Hx).
    apply zrange_in in Hx, Hy, Hz. cbn [d3_x d3_y d3_z]. auto.
  - intros (Hx & Hy & Hz). exists (d3_z l). split; [now apply zrange_in|]. apply in_flat_map. exists (d3_y l). split; [now apply zrange_in|].
    apply in_map_iff. exists (d3_x l). split; [now destruct l|now apply zrange_in].
Qed.

Lemma threads_nodup p : 0 <= d3_x (p_grid p) -> 0 <= d3_y (p_grid p) -> 0 <= d3_z (p_grid p) ->
  1 <= d3_x (p_block p) -> 1 <= d3_y (p_block p) -> 1 <= d3_z (p_block p) -> NoDup (threads p).
Proof.
  intros G1 G2 G3 B1 B2 B3. unfold threads. rewrite !lanes_range by assumption.
  apply nodup_flat_map; [apply zrange_nodup| |].
  - intros z Hz. apply nodup_flat_map; [apply zrange_nodup| |].
    + intros y Hy. apply FinFun.Injective_map_NoDup; [intros a a' E; now injection E|apply zrange_nodup].
    + intros a a' c _ _ H H'. apply in_map_iff in H, H'. destruct H as (? & <- & _), H' as (? & E & _). injection E. auto.
  - intros a a' c _ _ H H'. apply in_flat_map in H, H'. destruct H as (y & _ & H), H' as (y' & _ & H').
    apply in_map_iff in H, H'. destruct H as (? & <- & _), H' as (? & E & _). injection E. auto.
Qed.

Definition all_cells (r : raw) (dim : coord) (b : dim3) : list coord := flat_map (thread_cells r dim b) (threads (params_for r dim b)).

Lemma params_grid_pos r dim b : sane dim b -> let p := params_for r dim b in
  0 <= d3_x (p_grid p) /\ 0 <= d3_y (p_grid p) /\ 0 <= d3_z (p_grid p) /\ p_block p = b.
Proof.
  intros (Hl & Hp & Hbx & Hby & Hbz). cbn zeta. destruct dim as [|n1 [|n2 [|n3 [|? ?]]]]; cbn [length] in Hl; try lia; cbn [params_for p_grid p_block d3_x d3_y d3_z].
  - inversion Hp as [|? ? Hn1 _]; subst. pose proof (ceil_cover n1 (d3_x b) Hn1 Hbx). repeat split; lia.
  - inversion Hp as [|? ? Hn1 Hp']; subst. inversion Hp' as [|? ? Hn2 _]; subst. pose proof (ceil_cover n2 (d3_x b) Hn2 Hbx). repeat split; lia.
  - inversion Hp as [|? ? Hn1 Hp']; subst. inversion Hp' as [|? ? Hn2 Hp'']; subst. inversion Hp'' as [|? ? Hn3 _]; subst.
    pose proof (ceil_cover n3 (d3_x b) Hn3 Hbx). pose proof (ceil_cover n2 (d3_y b) Hn2 Hby). repeat split; lia.
Qed.

Lemma share_unique a a' w y : 0 <= a -> 0 <= a' -> 0 < w -> a * w <= y < (a + 1) * w -> a' * w <= y < (a' + 1) * w -> a = a'.
Proof. intros. nia. Qed.

Lemma single_nodup {B} (f : Z -> B) a b : b <= a + 1 -> NoDup (map f (zrange a b)).
Proof.
  intros H. destruct (Z_le_gt_dec b a); [rewrite zrange_nil by lia; constructor|].
  rewrite zrange_cons, (zrange_nil (a + 1) b) by lia. cbn [map]. constructor; [tauto|constructor].
Qed.

Lemma all_cells_nodup r dim b : good_launch r dim b -> NoDup (all_cells r dim b).
Proof.
  intros Hg. pose proof (good_sane _ _ _ Hg) as Hs. pose proof (params_grid_pos r dim b Hs) as (G1 & G2 & G3 & Eb).
  pose proof Hs as (Hl & Hp & Hbx & Hby & Hbz). unfold all_cells. apply nodup_flat_map.
  - apply threads_nodup; rewrite ?Eb; assumption.
  - intros l Hin. apply threads_in in Hin; try (rewrite ?Eb; assumption). destruct Hin as (H1 & H2 & H3).
    destruct dim as [|n1 [|n2 [|n3 [|? ?]]]]; cbn [length] in Hl; try lia; unfold thread_cells; cbn [params_for p_wave].
    + destruct (d3_x l <? n1); [|constructor]. apply single_nodup. lia.
    + destruct (d3_x l <? n2); [|constructor]. apply FinFun.Injective_map_NoDup; [intros a a' E; now injection E|apply zrange_nodup].
    + destruct ((d3_x l <? n3) && (d3_y l <? n2)); [|constructor]. apply FinFun.Injective_map_NoDup; [intros a a' E; now injection E|apply zrange_nodup].
  - intros l l' c Hin Hin' Hc Hc'. apply threads_in in Hin, Hin'; try (rewrite ?Eb; assumption).
    destruct Hin as (H1 & H2 & H3), Hin' as (H1' & H2' & H3'). destruct Hg as (_ & _ & _ & _ & Hg).
    destruct l as [lx ly lz], l' as [lx' ly' lz'].
    destruct dim as [|n1 [|n2 [|n3 [|? ?]]]]; cbn [length] in Hl; try lia; unfold thread_cells in Hc, Hc'; cbn [params_for p_wave p_grid p_block d3_x d3_y d3_z] in *.
    + destruct Hg as (Ez & _). destruct (lx <? n1); [|contradiction]. destruct (lx' <? n1); [|contradiction].
      apply in_map_iff in Hc, Hc'. destruct Hc as (y & Ey & Hy), Hc' as (y' & Ey' & Hy'). apply zrange_in in Hy, Hy'. subst c.
      assert (lx' = lx) by now injection Ey'. subst lx'. f_equal; lia.
    + destruct Hg as (Ez & _). destruct (lx <? n2); [|contradiction]. destruct (lx' <? n2); [|contradiction].
      apply in_map_iff in Hc, Hc'. destruct Hc as (y & Ey & Hy), Hc' as (y' & Ey' & Hy'). apply zrange_in in Hy, Hy'. subst c.
      assert (lx' = lx) by now injection Ey'. assert (y' = y) by now injection Ey'. subst lx' y'.
      inversion Hp as [|? ? Hn1 _]; subst. pose proof (ceil_cover n1 (d3_y b) Hn1 Hby) as (_ & _ & Hc3).
      assert (ly = ly') by (apply (share_unique ly ly' (ceil_div n1 (d3_y b)) y); lia). f_equal; lia.
    + destruct ((lx <? n3) && (ly <? n2)); [|contradiction]. destruct ((lx' <? n3) && (ly' <? n2)); [|contradiction].
      apply in_map_iff in Hc, Hc'. destruct Hc as (y & Ey & Hy), Hc' as (y' & Ey' & Hy'). apply zrange_in in Hy, Hy'. subst c.
      assert (lx' = lx) by now injection Ey'. assert (ly' = ly) by now injection Ey'. assert (y' = y) by now injection Ey'. subst lx' ly' y'.
      inversion Hp as [|? ? Hn1 _]; subst. pose proof (ceil_cover n1 (d3_z b) Hn1 Hbz) as (_ & _ & Hc3).
      f_equal. apply (share_unique lz lz' (ceil_div n1 (d3_z b)) y); lia.
Qed.

Lemma all_cells_in r dim b c : good_launch r dim b -> In c (all_cells r dim b) <-> in_grid dim c.
Proof.
  intros Hg. pose proof (good_sane _ _ _ Hg) as Hs. pose proof (params_grid_pos r dim b Hs) as (G1 & G2 & G3 & Eb).
  pose proof Hs as (Hl & Hp & Hbx & Hby & Hbz). unfold all_cells. rewrite in_flat_map.
  destruct Hg as (_ & _ & _ & _ & Hg).
  destruct dim as [|n1 [|n2 [|n3 [|? ?]]]]; cbn [length] in Hl; try lia; (split; [intros (l & Hin & Hc); apply threads_in in Hin; try (rewrite ?Eb; assumption)|intros Hc]).
  - destruct Hin as (H1 & H2 & H3). unfold thread_cells in Hc. destruct (Z.ltb_spec (d3_x l) n1); [|contradiction].
    apply in_map_iff in Hc. destruct Hc as (y & <- & Hy). unfold in_grid. cbn. lia.
  - destruct c as [|x [|? ?]]; cbn in Hc; try tauto. inversion Hp as [|? ? Hn1 _]; subst. pose proof (ceil_cover n1 (d3_x b) Hn1 Hbx).
    exists (mkDim3 x 0 0). split.
    + apply threads_in; try (rewrite ?Eb; assumption). cbn [params_for p_grid p_block d3_x d3_y d3_z]. lia.
    + cbn [thread_cells d3_x d3_y]. rewrite (proj2 (Z.ltb_lt _ _)) by lia. apply in_map_iff. exists 0. split; [reflexivity|apply zrange_in; lia].
  - destruct Hin as (H1 & H2 & H3). unfold thread_cells in Hc. destruct (Z.ltb_spec (d3_x l) n2); [|contradiction].
    apply in_map_iff in Hc. destruct Hc as (y & <- & Hy). apply zrange_in in Hy. cbn [params_for p_wave] in Hy.
    inversion Hp as [|? ? Hn1 _]; subst. pose proof (ceil_cover n1 (d3_y b) Hn1 Hby) as (_ & _ & Hc3).
    unfold in_grid. cbn. assert (0 <= d3_y l * ceil_div n1 (d3_y b)) by nia. lia.
  - destruct c as [|y [|x [|? ?]]]; cbn in Hc; try tauto. inversion Hp as [|? ? Hn1 Hp']; subst. inversion Hp' as [|? ? Hn2 _]; subst.
    pose proof (ceil_cover n2 (d3_x b) Hn2 Hbx). pose proof (ceil_cover n1 (d3_y b) Hn1 Hby) as (C1 & C2 & C3).
    set (w := ceil_div n1 (d3_y b)) in *.
    assert (Hq : (y / w) * w <= y < (y / w + 1) * w) by (pose proof (Z.div_mod y w ltac:(lia)); pose proof (Z.mod_pos_bound y w C3); nia).
    assert (Hq0 : 0 <= y / w) by (apply Z.div_pos; lia). assert (Hq1 : y / w < d3_y b) by nia.
    exists (mkDim3 x (y / w) 0). split.
    + apply threads_in; try (rewrite ?Eb; assumption). cbn [params_for p_grid p_block d3_x d3_y d3_z]. generalize dependent (y / w). intros; lia.
    + cbn [thread_cells d3_x d3_y params_for p_wave]. fold w. rewrite (proj2 (Z.ltb_lt x n2)) by lia.
      apply in_map_iff. exists y. split; [reflexivity|]. apply zrange_in. generalize dependent (y / w). intros; lia.
  - destruct Hin as (H1 & H2 & H3). unfold thread_cells in Hc. destruct (Z.ltb_spec (d3_x l) n3); [|contradiction]. destruct (Z.ltb_spec (d3_y l) n2); [|contradiction].
    apply in_map_iff in Hc. destruct Hc as (y & <- & Hy). apply zrange_in in Hy. cbn [params_for p_wave] in Hy.
    inversion Hp as [|? ? Hn1 _]; subst. pose proof (ceil_cover n1 (d3_z b) Hn1 Hbz) as (_ & _ & Hc3).
    unfold in_grid. cbn. assert (0 <= d3_z l * ceil_div n1 (d3_z b)) by nia. lia.
  - destruct c as [|z [|y [|x [|? ?]]]]; cbn in Hc; try tauto.
    inversion Hp as [|? ? Hn1 Hp']; subst. inversion Hp' as [|? ? Hn2 Hp'']; subst. inversion Hp'' as [|? ? Hn3 _]; subst.
    pose proof (ceil_cover n3 (d3_x b) Hn3 Hbx). pose proof (ceil_cover n2 (d3_y b) Hn2 Hby). pose proof (ceil_cover n1 (d3_z b) Hn1 Hbz) as (C1 & C2 & C3).
    set (w := ceil_div n1 (d3_z b)) in *.
    assert (Hq : (z / w) * w <= z < (z / w + 1) * w) by (pose proof (Z.div_mod z w ltac:(lia)); pose proof (Z.mod_pos_bound z w C3); nia).
    assert (Hq0 : 0 <= z / w) by (apply Z.div_pos; lia). assert (Hq1 : z / w < d3_z b) by nia.
    exists (mkDim3 x y (z / w)). split.
    + apply threads_in; try (rewrite ?Eb; assumption). cbn [params_for p_grid p_block d3_x d3_y d3_z]. generalize dependent (z / w). intros; lia.
    + cbn [thread_cells d3_x d3_y d3_z params_for p_wave]. fold w. rewrite (proj2 (Z.ltb_lt x n3)), (proj2 (Z.ltb_lt y n2)) by lia. cbn [andb].
      apply in_map_iff. exists z. split; [reflexivity|]. apply zrange_in. generalize dependent (z / w). intros; lia.
Qed.

Lemma work_cells r dim b : good_launch r dim b ->
  concat (work (length dim) r (params_for r dim b)) = map (cell_act r dim (params_for r dim b)) (all_cells r dim b).
Proof.
  intros Hg. pose proof (good_sane _ _ _ Hg) as Hs. pose proof (params_grid_pos r dim b Hs) as (G1 & G2 & G3 & Eb).
  pose proof Hs as (Hl & Hp & Hbx & Hby & Hbz). unfold work, all_cells.
  assert (H : forall l, In l (threads (params_for r dim b)) -> kernel (length dim) r (params_for r dim b) l = map (cell_act r dim (params_for r dim b)) (thread_cells r dim b l)).
  { intros l Hin. apply threads_in in Hin; try (rewrite ?Eb; assumption). destruct Hin as (H1 & H2 & H3). apply kernel_cells; [exact Hg|lia| |].
    - destruct dim as [|n1 [|n2 [|n3 [|? ?]]]]; cbn [length] in Hl; try lia; cbn [length Nat.eqb params_for p_grid p_block d3_x d3_y d3_z] in *; lia.
    - rewrite Eb in H3. destruct dim as [|n1 [|n2 [|n3 [|? ?]]]]; cbn [length] in Hl; try lia; cbn [length Nat.eqb params_for p_grid d3_x d3_y d3_z] in *; lia. }
  induction (threads (params_for r dim b)) as [|l ls IH]; [reflexivity|]. cbn [map concat flat_map]. rewrite map_app, H by now left.
  f_equal. apply IH. intros l' Hl'. apply H. now right.
Qed.

(** ** What the neighborhood reads *)

Definition shifted (w : bool) (n x k : Z) : Z :=
  x - po w + (if k <? 0 then corr_low w x n + k else 0) + (if k >? 0 then corr_high w n x n + k else 0).

Lemma shifted_spec w n x k : 0 <= x < n -> -1 <= k <= 1 ->
  0 <= shifted w n x k < pe w n /\ (if w then shifted w n x k + po w = (x + k) mod n /\ 0 <= shifted w n x k + po w < n else shifted w n x k + po w = x + k).
Proof.
  intros Hx Hk. unfold shifted, corr_low, corr_high, po, pe. rewrite !Z.gtb_ltb.
  destruct w; cbn [andb].
  - assert (E : forall v, v = (x + k) mod n /\ 0 <= v < n <-> 0 <= v < n /\ exists q, x + k = n * q + v).
    { intros v. split; [intros [-> Hv]|intros [Hv [q Hq]]].
      - split; [exact Hv|]. exists ((x + k) / n). apply Z.div_mod. lia.
      - split; [|exact Hv]. apply Z.mod_unique with q; [now left|exact Hq]. }
    rewrite E. clear E. destruct (Z.ltb_spec k 0), (Z.ltb_spec 0 k), (Z.eqb_spec x 0), (Z.eqb_spec x (n - 1)); try lia;
      (split; [lia|split; [lia|]]);
      first [exists 0; lia | exists (-1); lia | exists 1; lia].
  - destruct (Z.ltb_spec k 0), (Z.ltb_spec 0 k); lia.
Qed.

Lemma corr_low_mul w x n off : corr_low w x (n * off) = corr_low w x n * off.
Proof. unfold corr_low. destruct (w && (x =? 0)); lia. Qed.

Lemma corr_high_mul w m x n off : corr_high w m x (n * off) = corr_high w m x n * off.
Proof. unfold corr_high. destruct (w && (x =? m - 1)); lia. Qed.

Definition read_at (t : topology) (dim c v : coord) : Prop :=
  (in_grid dim v -> denotes t dim c = Some v) /\ (~ in_grid dim v -> denotes t dim c = None).

Lemma read_at_cons (w : bool) t n dim x c v vs : (if w then v = x mod n /\ 0 <= v < n else v = x) -> read_at t dim c vs ->
  read_at (w :: t) (n :: dim) (x :: c) (v :: vs).
Proof.
  intros Hv (H1 & H2). split.
  - intros Hi. apply in_grid_cons in Hi. destruct Hi as [Hi Hi']. cbn [denotes]. rewrite (H1 Hi'). destruct w.
    + destruct Hv as [-> _]. reflexivity.
    + subst v. rewrite (proj2 (Z.leb_le 0 x)), (proj2 (Z.ltb_lt x n)) by lia. reflexivity.
  - intros Hn. cbn [denotes]. destruct w.
    + rewrite H2; [reflexivity|]. intros Hi. apply Hn. apply in_grid_cons. tauto.
    + subst v. destruct (denotes t dim c) eqn:E; [|reflexivity].
      destruct ((0 <=? x) && (x <? n)) eqn:Eb; [|reflexivity]. exfalso. assert (Hx : Some c0 = None); [apply H2|discriminate Hx].
      intros Hi. apply Hn. apply in_grid_cons. split; [lia|exact Hi].
Qed.

Lemma read_at_nil : read_at [] [] [] [].
Proof. split; [reflexivity|]. intros H. exfalso. apply H. exact I. Qed.

Definition small (f : fixed) : Prop := -1 <= fc_x f <= 1 /\ -1 <= fc_y f <= 1 /\ -1 <= fc_z f <= 1.

Definition flat (d : nat) (f : fixed) : Prop := ((d <= 2)%nat -> fc_z f = 0) /\ ((d <= 1)%nat -> fc_y f = 0).

Lemma table_small st : st_rad st = 1%nat -> (1 <= st_dim st <= 3)%nat -> Forall (fun e => small (snd e) /\ flat (st_dim st) (snd e)) (st_table st).
Proof.
  destruct st as [s d r]. cbn [st_rad st_dim]. intros -> Hd.
  assert (E : d = 1%nat \/ d = 2%nat \/ d = 3%nat) by lia.
  destruct E as [->|[->| ->]]; destruct s; cbn [st_table st_shape st_dim st_rad]; repeat (constructor; [unfold small, flat; cbn [snd fc_x fc_y fc_z]; intuition lia|]); constructor.
Qed.

Definition target (r : raw) (dim c : coord) (f : fixed) : coord :=
  match dim, c with
  | [nx], [x] => [shifted (wrap_x r) nx x (fc_x f)]
  | [ny; nx], [y; x] => [shifted (wrap_y r) ny y (fc_y f); shifted (wrap_x r) nx x (fc_x f)]
  | [nz; ny; nx], [z; y; x] => [shifted (wrap_z r) nz z (fc_z f); shifted (wrap_y r) ny y (fc_y f); shifted (wrap_x r) nx x (fc_x f)]
  | _, _ => []
  end.

Lemma target_spec r dim b c f : (1 <= length dim <= 3)%nat -> in_grid dim c -> small f -> flat (length dim) f ->
  let t := raw_topology (length dim) r in
  let p := params_for r dim b in
  hood_index p (cell_adds r dim p c) (cell_index r dim c) f = to_index (target r dim c f) (pad_dim t dim) /\
  in_grid (pad_dim t dim) (target r dim c f) /\
  read_at t dim (zadd c (fc_coord (length dim) f)) (zadd (target r dim c f) (pad_offset t)).
Proof.
  intros Hl Hc (S1 & S2 & S3) (F1 & F2). cbn zeta. unfold hood_index, cell_index.
  destruct dim as [|n1 [|n2 [|n3 [|? ?]]]]; cbn [length] in *; try lia.
  - destruct c as [|x [|? ?]]; cbn in Hc; try tauto. destruct f as [fx fy fz]. cbn [fc_x fc_y fc_z] in *. rewrite (F1 ltac:(lia)), (F2 ltac:(lia)).
    pose proof (shifted_spec (wrap_x r) n1 x fx ltac:(lia) ltac:(lia)) as (B & E).
    cbn [target fc_x raw_topology firstn rev app pad_dim pad_offset combine map fst snd zsub zadd fc_coord length fc_y fc_z cell_adds params_for p_offY p_offZ p_wrap d3_x d3_y d3_z a_west a_east a_top a_bottom a_south a_north].
    split; [|split].
    + cbn [to_index prod]. unfold shifted. rewrite !Z.mul_1_r. change (0 <? 0) with false. change (0 >? 0) with false. cbn match. unfold po. ring.
    + unfold in_grid. cbn. unfold pe in B. split; [destruct (wrap_x r); lia|exact I].
    + apply read_at_cons; [exact E|apply read_at_nil].
  - destruct c as [|y [|x [|? ?]]]; cbn in Hc; try tauto. destruct f as [fx fy fz]. cbn [fc_x fc_y fc_z] in *. rewrite (F1 ltac:(lia)).
    pose proof (shifted_spec (wrap_x r) n2 x fx ltac:(lia) ltac:(lia)) as (B & E).
    pose proof (shifted_spec (wrap_y r) n1 y fy ltac:(lia) ltac:(lia)) as (B' & E').
    cbn [target fc_x raw_topology firstn rev app pad_dim pad_offset combine map fst snd zsub zadd fc_coord length fc_y fc_z cell_adds params_for p_offY p_offZ p_wrap d3_x d3_y d3_z a_west a_east a_top a_bottom a_south a_north].
    split; [|split].
    + cbn [to_index prod]. unfold shifted. rewrite !Z.mul_1_r, corr_low_mul, corr_high_mul. change (0 <? 0) with false. change (0 >? 0) with false. cbn match. unfold po, pe.
      destruct (fx <? 0), (fx >? 0), (fy <? 0), (fy >? 0); ring.
    + unfold in_grid. cbn. unfold pe in B, B'. split; [destruct (wrap_y r); lia|]. split; [destruct (wrap_x r); lia|exact I].
    + apply read_at_cons; [exact E'|]. apply read_at_cons; [exact E|apply read_at_nil].
  - destruct c as [|z [|y [|x [|? ?]]]]; cbn in Hc; try tauto. destruct f as [fx fy fz]. cbn [fc_x fc_y fc_z] in *.
    pose proof (shifted_spec (wrap_x r) n3 x fx ltac:(lia) ltac:(lia)) as (B & E).
    pose proof (shifted_spec (wrap_y r) n2 y fy ltac:(lia) ltac:(lia)) as (B' & E').
    pose proof (shifted_spec (wrap_z r) n1 z fz ltac:(lia) ltac:(lia)) as (B'' & E'').
    cbn [target fc_x raw_topology firstn rev app pad_dim pad_offset combine map fst snd zsub zadd fc_coord length fc_y fc_z cell_adds params_for p_offY p_offZ p_wrap d3_x d3_y d3_z a_west a_east a_top a_bottom a_south a_north].
    split; [|split].
    + cbn [to_index prod]. unfold shifted. rewrite !Z.mul_1_r, !corr_low_mul, !corr_high_mul. unfold po, pe.
      destruct (fx <? 0), (fx >? 0), (fy <? 0), (fy >? 0), (fz <? 0), (fz >? 0); ring.
    + unfold in_grid. cbn. unfold pe in B, B', B''. split; [destruct (wrap_z r); lia|]. split; [destruct (wrap_y r); lia|]. split; [destruct (wrap_x r); lia|exact I].
    + apply read_at_cons; [exact E''|]. apply read_at_cons; [exact E'|]. apply read_at_cons; [exact E|apply read_at_nil].
Qed.

Lemma in_grid_dec dim c : {in_grid dim c} + {~ in_grid dim c}.
Proof.
  revert c. induction dim as [|n dim IH]; intros [|x c]; [left; exact I|right; intros []|right; intros []|].
  destruct (IH c) as [H|H].
  - destruct (Z_le_dec 0 x) as [H1|H1]; [destruct (Z_lt_dec x n) as [H2|H2]|].
    + left. apply in_grid_cons. auto.
    + right. intros H'. apply in_grid_cons in H'. destruct H' as [H' _]. lia.
    + right. intros H'. apply in_grid_cons in H'. destruct H' as [H' _]. lia.
  - right. intros H'. apply in_grid_cons in H'. destruct H' as [_ H']. exact (H H').
Qed.

Section Values.
Context {C : Type} (st : stencil) (r : raw) (dim : coord) (b : dim3).
Context (Hg : good_launch r dim b) (Hst : st_rad st = 1%nat) (Hd : st_dim st = length dim).
Let t := raw_topology (length dim) r.
Let p := params_for r dim b.

Lemma omap_some {A B} (f : A -> option B) (g : A -> B) l : Forall (fun a => f a = Some (g a)) l -> omap f l = Some (map g l).
Proof using. induction 1 as [|a l H _ IH]; [reflexivity|]. cbn [omap map]. rewrite H. cbn [obind]. now rewrite IH. Qed.

Lemma hood_reads (fo : coord -> C) edge old c : device_holds r dim fo edge old -> in_grid dim c ->
  hood_values st (fun f => vec_get old (hood_index p (cell_adds r dim p c) (cell_index r dim c) f)) =
  Some (map (fun c' => value fo edge (denotes t dim c')) (neighbors st c)).
Proof using Hg Hst Hd.
  intros (Hlen & Ho) Hc. pose proof (good_sane _ _ _ Hg) as (Hl & _). unfold hood_values, neighbors. rewrite map_map. apply omap_some.
  pose proof (table_small st Hst ltac:(lia)) as Ht. eapply Forall_impl; [|exact Ht]. intros e (He & Hf). rewrite Hd in Hf.
  destruct (target_spec r dim b c (snd e) Hl Hc He Hf) as (E & Hi & Hr1 & Hr2). fold p t in E, Hi, Hr1, Hr2. rewrite E, Hd.
  specialize (Ho _ Hi). cbn zeta in Ho. fold t in Ho. destruct Ho as (Ho1 & Ho2).
  destruct (in_grid_dec dim (zadd (target r dim c (snd e)) (pad_offset t))) as [H|H].
  - rewrite (Hr1 H). exact (Ho1 H).
  - rewrite (Hr2 H). exact (Ho2 H).
Qed.
End Values.
