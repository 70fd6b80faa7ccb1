(** Launches of kernels, and what those of CUDASoAGrid do. *)
From Coq Require Import Permutation.
From Verif Require Import Base ListFacts RegionSpec RegionModel RegionRep RegionIterModel RegionStreaks RegionOpsModel HaloSpec CoordModel CoordSpec CoordFacts
  PatchModel GridModel GridSpec GridFacts SellFacts BytesFacts UpdateModel UpdateFacts SoAModel SoASpec SoAFacts SoARep CudaSoAModel.
From Verif Require CudaFacts UpdateProps.

(** ** Threads *)

Lemma cells3_in nz ny nx c : In c (cells3 [nz; ny; nx]) <-> exists z y x, c = [z; y; x] /\ 0 <= z < nz /\ 0 <= y < ny /\ 0 <= x < nx.
Proof.
  unfold cells3. rewrite in_flat_map. split.
  - intros (z & Hz & H). apply in_flat_map in H. destruct H as (y & Hy & H). apply in_map_iff in H. destruct H as (x & <- & Hx).
    apply zrange_in in Hz, Hy, Hx. exists z, y, x. auto.
  - intros (z & y & x & -> & Hz & Hy & Hx). exists z. split; [now apply zrange_in|]. apply in_flat_map. exists y. split; [now apply zrange_in|].
    apply in_map_iff. exists x. split; [reflexivity|now apply zrange_in].
Qed.

Lemma cells3_nodup n : NoDup (cells3 n).
Proof.
  destruct n as [|nz [|ny [|nx [|]]]]; try constructor. unfold cells3. apply CudaFacts.nodup_flat_map; [apply zrange_nodup| |].
  - intros z _. apply CudaFacts.nodup_flat_map; [apply zrange_nodup| |].
    + intros y _. apply FinFun.Injective_map_NoDup; [intros a b E; congruence|apply zrange_nodup].
    + intros y y' b _ _ H H'. apply in_map_iff in H, H'. destruct H as (x & <- & _), H' as (x' & E & _). congruence.
  - intros z z' b _ _ H H'. apply in_flat_map in H, H'. destruct H as (y & _ & H), H' as (y' & _ & H').
    apply in_map_iff in H, H'. destruct H as (x & <- & _), H' as (x' & E & _). congruence.
Qed.

Lemma list_prod_flat {A B} (l : list A) (l' : list B) : list_prod l l' = flat_map (fun a => map (fun b => (a, b)) l') l.
Proof. induction l as [|a l IH]; [reflexivity|]. cbn. now rewrite IH. Qed.

Lemma threads_nodup grid block : NoDup (threads grid block).
Proof.
  unfold threads. rewrite list_prod_flat. apply CudaFacts.nodup_flat_map; [apply cells3_nodup| |].
  - intros a _. apply FinFun.Injective_map_NoDup; [intros x y E; congruence|apply cells3_nodup].
  - intros a a' b _ _ H H'. apply in_map_iff in H, H'. destruct H as (x & <- & _), H' as (x' & E & _). congruence.
Qed.

(** One axis *)
Lemma axis_inj b k j k' j' : 0 <= j < b -> 0 <= j' < b -> b * k + j = b * k' + j' -> k = k' /\ j = j'.
Proof. intros H H' E. assert (k = k') by nia. subst. split; lia. Qed.

Lemma axis_cover b n x : 0 < b -> 0 <= x < n * b -> exists k j, 0 <= k < n /\ 0 <= j < b /\ b * k + j = x.
Proof.
  intros Hb Hx. exists (x / b), (x mod b). pose proof (Z.div_mod x b ltac:(lia)). pose proof (Z.mod_pos_bound x b Hb).
  set (q := x / b) in *. set (r := x mod b) in *. clearbody q r. split; [nia|]. split; lia.
Qed.

Lemma threads_in nz ny nx bz by_ bx th : In th (threads [nz; ny; nx] [bz; by_; bx]) <->
  exists kz ky kx jz jy jx, th = ([kz; ky; kx], [jz; jy; jx]) /\ 0 <= kz < nz /\ 0 <= ky < ny /\ 0 <= kx < nx /\ 0 <= jz < bz /\ 0 <= jy < by_ /\ 0 <= jx < bx.
Proof.
  unfold threads. destruct th as [k j]. rewrite in_prod_iff, !cells3_in. split.
  - intros ((kz & ky & kx & -> & H) & (jz & jy & jx & -> & H')). exists kz, ky, kx, jz, jy, jx. tauto.
  - intros (kz & ky & kx & jz & jy & jx & E & H). injection E as -> ->. split; [exists kz, ky, kx|exists jz, jy, jx]; tauto.
Qed.

Definition inside (n b : coord) (p : coord) : Prop :=
  match n, b with
  | [nz; ny; nx], [bz; by_; bx] => exists z y x, p = [z; y; x] /\ 0 <= z < nz * bz /\ 0 <= y < ny * by_ /\ 0 <= x < nx * bx
  | _, _ => False
  end.

Lemma position_cover nz ny nx bz by_ bx p : 0 < bz -> 0 < by_ -> 0 < bx -> inside [nz; ny; nx] [bz; by_; bx] p <->
  exists th, In th (threads [nz; ny; nx] [bz; by_; bx]) /\ position [bz; by_; bx] th = p.
Proof.
  intros H1 H2 H3. split.
  - intros (z & y & x & -> & Hz & Hy & Hx). destruct (axis_cover bz nz z H1 Hz) as (kz & jz & A1 & A2 & A3).
    destruct (axis_cover by_ ny y H2 Hy) as (ky & jy & B1 & B2 & B3). destruct (axis_cover bx nx x H3 Hx) as (kx & jx & C1 & C2 & C3).
    exists ([kz; ky; kx], [jz; jy; jx]). split; [apply threads_in; exists kz, ky, kx, jz, jy, jx; auto 9|]. cbn -[Z.mul Z.add]. now rewrite A3, B3, C3.
  - intros (th & Hth & <-). apply threads_in in Hth. destruct Hth as (kz & ky & kx & jz & jy & jx & -> & A1 & A2 & A3 & A4 & A5 & A6).
    cbn -[Z.mul Z.add]. do 3 eexists. split; [reflexivity|]. repeat split; nia.
Qed.

Lemma position_inj nz ny nx bz by_ bx th th' : In th (threads [nz; ny; nx] [bz; by_; bx]) -> In th' (threads [nz; ny; nx] [bz; by_; bx]) ->
  position [bz; by_; bx] th = position [bz; by_; bx] th' -> th = th'.
Proof.
  intros H H' E. apply threads_in in H, H'. destruct H as (kz & ky & kx & jz & jy & jx & -> & A1 & A2 & A3 & A4 & A5 & A6).
  destruct H' as (kz' & ky' & kx' & jz' & jy' & jx' & -> & B1 & B2 & B3 & B4 & B5 & B6). cbn -[Z.mul Z.add] in E.
  assert (E1 : bz * kz + jz = bz * kz' + jz') by congruence. assert (E2 : by_ * ky + jy = by_ * ky' + jy') by congruence.
  assert (E3 : bx * kx + jx = bx * kx' + jx') by congruence. apply axis_inj in E1, E2, E3; auto.
  destruct E1 as [-> ->], E2 as [-> ->], E3 as [-> ->]. reflexivity.
Qed.

(** ** Writing *)

Lemma put_all_app {X} (a b : list (Z * X)) m : put_all (a ++ b) m = obind (put_all a m) (put_all b).
Proof. revert m. induction a as [|[i v] a IH]; intros m; [reflexivity|]. cbn. destruct (vec_set m i v); cbn; [apply IH|reflexivity]. Qed.

Lemma put_all_spec {X} (ws : list (Z * X)) : forall m, NoDup (map fst ws) -> (forall w, In w ws -> 0 <= fst w < Z.of_nat (length m)) ->
  exists m', put_all ws m = Some m' /\ length m' = length m /\ (forall i v, In (i, v) ws -> vec_get m' i = Some v) /\
    forall i, ~ In i (map fst ws) -> vec_get m' i = vec_get m i.
Proof.
  induction ws as [|[i v] ws IH]; intros m Hn Hr.
  - exists m. split; [reflexivity|]. split; [reflexivity|]. split; [intros ? ? []|reflexivity].
  - cbn [map fst] in Hn. inversion Hn as [|? ? Hi Hn']; subst. destruct (vec_set_spec m i v) as (m1 & E1 & L1 & G1); [apply (Hr (i, v)); now left|].
    destruct (IH m1 Hn') as (m' & E & L & G & G'); [intros w Hw; rewrite L1; apply Hr; now right|]. exists m'. cbn [put_all]. rewrite E1. cbn [obind].
    split; [exact E|]. split; [lia|]. split.
    + intros i' v' [Ew|Hw]; [|now apply G]. injection Ew as <- <-. rewrite G' by exact Hi. rewrite G1, Z.eqb_refl. reflexivity.
    + intros i' Hi'. cbn in Hi'. rewrite G' by tauto. rewrite G1. destruct (Z.eqb_spec i i'); [tauto|reflexivity].
Qed.

Lemma each_put {X A} (k : A -> option (list (Z * X))) (w : A -> list (Z * X)) l : (forall a, In a l -> k a = Some (w a)) ->
  forall m, each (fun a m => obind (k a) (fun ws => put_all ws m)) l m = put_all (flat_map w l) m.
Proof.
  induction l as [|a l IH]; intros H m; [reflexivity|]. cbn [each flat_map]. rewrite H by now left. cbn [obind]. rewrite put_all_app.
  destruct (put_all (w a) m); cbn [obind]; [|reflexivity]. apply IH. intros b Hb. apply H. now right.
Qed.

Lemma launch_spec {X} order (k : kernel X) (w : coord -> list (Z * X)) grid block m :
  Permutation (threads grid block) (order grid block) -> launchable grid block = true -> Forall (fun b => 0 < b) block ->
  (forall p, inside grid block p -> k p = Some (w p)) ->
  (forall p, inside grid block p -> NoDup (map fst (w p)) /\ forall i v, In (i, v) (w p) -> 0 <= i < Z.of_nat (length m)) ->
  (forall p p' i v v', inside grid block p -> inside grid block p' -> In (i, v) (w p) -> In (i, v') (w p') -> p = p') ->
  exists m', launch order k grid block m = Some m' /\ length m' = length m /\
    (forall p i v, inside grid block p -> In (i, v) (w p) -> vec_get m' i = Some v) /\
    forall i, (forall p v, inside grid block p -> ~ In (i, v) (w p)) -> vec_get m' i = vec_get m i.
Proof.
  intros Hp Hl Hb Hk Hw Hd. unfold launch. rewrite Hl. unfold launchable in Hl.
  destruct grid as [|nz [|ny [|nx [|]]]]; try discriminate. destruct block as [|bz [|by_ [|bx [|]]]]; try discriminate. clear Hl.
  apply Forall_cons_iff' in Hb. destruct Hb as [B1 Hb]. apply Forall_cons_iff' in Hb. destruct Hb as [B2 Hb]. apply Forall_cons_iff' in Hb. destruct Hb as [B3 _].
  set (grid := [nz; ny; nx]) in *. set (block := [bz; by_; bx]) in *. set (ths := order grid block) in *.
  assert (Hin : forall th, In th ths <-> In th (threads grid block)) by (intros th; split; apply Permutation_in; [now apply Permutation_sym|exact Hp]).
  assert (Hnd : NoDup ths) by (apply (Permutation_NoDup Hp), threads_nodup).
  assert (Hpos : forall th, In th ths -> inside grid block (position block th)) by (intros th Hth; apply position_cover; auto; exists th; split; [now apply Hin|reflexivity]).
  rewrite (each_put _ (fun th => w (position block th))) by (intros th Hth; now apply Hk, Hpos).
  destruct (put_all_spec (flat_map (fun th => w (position block th)) ths) m) as (m' & E & L & G & G').
  - rewrite flat_map_concat_map, concat_map, map_map, <- flat_map_concat_map. apply CudaFacts.nodup_flat_map; [exact Hnd| |].
    + intros th Hth. now apply Hw, Hpos.
    + intros th th' i Hth Hth' Hi Hi'. apply in_map_iff in Hi, Hi'. destruct Hi as ((i1 & v1) & <- & Hi), Hi' as ((i2 & v2) & E & Hi'). cbn in E. subst i2.
      apply (position_inj nz ny nx bz by_ bx); [now apply Hin|now apply Hin|]. eapply Hd; eauto.
  - intros [i v] Hiv. apply in_flat_map in Hiv. destruct Hiv as (th & Hth & Hiv). cbn. destruct (Hw _ (Hpos th Hth)) as [_ Hw']. now apply (Hw' i v).
  - exists m'. split; [exact E|]. split; [exact L|]. split.
    + intros p i v Hpi Hi. apply G. apply position_cover in Hpi; auto. destruct Hpi as (th & Hth & <-). apply in_flat_map. exists th. split; [now apply Hin|exact Hi].
    + intros i Hi. apply G'. intros Hc. apply in_map_iff in Hc. destruct Hc as ((i' & v) & Ei & Hc). cbn in Ei. subst i'. apply in_flat_map in Hc. destruct Hc as (th & Hth & Hc).
      now apply (Hi _ v (Hpos th Hth)).
Qed.

(** ** Sizes of launches *)

Lemma round_up_spec a b : 0 < b -> a <= round_up a b * b /\ (round_up a b - 1) * b < a.
Proof.
  intros Hb. unfold round_up. pose proof (Z.div_mod a b ltac:(lia)) as H. pose proof (Z.mod_pos_bound a b Hb) as H'.
  destruct (Z.eqb_spec (a mod b) 0) as [E|E]; set (q := a / b) in *; set (r := a mod b) in *; clearbody q r; nia.
Qed.

Lemma widen_bound n w limit x : 0 < w <= limit -> w * 2 ^ Z.of_nat n = limit -> w <= widen n w limit x <= limit.
Proof.
  revert w. induction n as [|n IH]; intros w Hw E; cbn [widen]; [lia|]. destruct (Z.ltb_spec w limit); [|lia]. destruct (Z.leb_spec x w); [lia|].
  assert (w * 2 * 2 ^ Z.of_nat n = limit) by (rewrite <- E, Nat2Z.inj_succ, Z.pow_succ_r by lia; ring).
  assert (0 < 2 ^ Z.of_nat n) by (apply Z.pow_pos_nonneg; lia). specialize (IH (w * 2) ltac:(nia) ltac:(lia)). lia.
Qed.

Lemma widen_512 x : 32 <= widen 4 32 512 x <= 512.
Proof. apply widen_bound; lia. Qed.

Lemma widen_128 x : 32 <= widen 4 32 128 x <= 128.
Proof.
  unfold widen. repeat match goal with |- context [if ?c then _ else _] => destruct c eqn:? end; lia.
Qed.

(** Blocks which suit a grid *)
Definition suits (dim block : coord) : Prop :=
  match dim, block with
  | [z; y; x], [bz; by_; bx] => bz = 1 /\ 0 < by_ /\ 0 < bx /\ bx * by_ <= 512 /\ (by_ = 4 \/ y < 4)
  | _, _ => False
  end.

Lemma cu_block_suits z y x : suits [z; y; x] (cu_block [z; y; x]).
Proof.
  unfold cu_block. pose proof (widen_512 x). pose proof (widen_128 x). destruct (Z.leb_spec 4 y); cbn [suits]; set (a := widen _ _ _ _) in *; clearbody a; lia.
Qed.

Lemma lfa_block_suits z y x : suits [z; y; x] (lfa_block [z; y; x]).
Proof. unfold lfa_block. destruct (Z.leb_spec 4 y); cbn [suits]; lia. Qed.

Lemma suits_launch z y x block : suits [z; y; x] block -> 0 < z <= 65535 -> 0 < y <= 262140 -> 0 < x ->
  launchable (blocks [z; y; x] block) block = true /\ Forall (fun b => 0 < b) block /\
  forall a b c, 0 <= a < z -> 0 <= b < y -> 0 <= c < x -> inside (blocks [z; y; x] block) block [a; b; c].
Proof.
  intros Hs Hz Hy Hx. destruct block as [|bz [|by_ [|bx [|]]]]; cbn [suits] in Hs; try contradiction. destruct Hs as (-> & H1 & H2 & H3 & H4).
  unfold blocks. cbn [combine map fst snd]. destruct (round_up_spec z 1 ltac:(lia)) as [Z1 Z2]. destruct (round_up_spec y by_ H1) as [Y1 Y2]. destruct (round_up_spec x bx H2) as [X1 X2].
  set (nz := round_up z 1) in *. set (ny := round_up y by_) in *. set (nx := round_up x bx) in *. clearbody nz ny nx. split; [|split].
  - unfold launchable. assert (0 < nx) by nia. assert (0 < ny) by nia. assert (ny <= 65535) by (destruct H4; subst; nia). lia.
  - repeat constructor; lia.
  - intros a b c A B C'. cbn [inside]. exists a, b, c. split; [reflexivity|]. repeat split; nia.
Qed.

(** Nothing happens if there is nothing to do. *)
Lemma line_none {X} order (k : kernel X) n m : n <= 0 -> launch_line order k n m = Some m.
Proof.
  intros Hn. unfold launch_line, launch, lfa_block. change (4 <=? 1) with false. cbv iota. unfold blocks. cbn [combine map fst snd launchable].
  destruct (round_up_spec n 512 ltac:(lia)) as [_ X0]. set (q := round_up n 512) in *. clearbody q. replace (0 <? q) with false by lia. reflexivity.
Qed.

(** One thread per entry *)
Lemma line_spec {X} order (k : kernel X) (w : Z -> list (Z * X)) n m :
  (forall g b, Permutation (threads g b) (order g b)) -> 0 < n ->
  (forall z y i, 0 <= i -> k [z; y; i] = if n <=? i then Some [] else Some (w i)) ->
  (forall i, 0 <= i < n -> NoDup (map fst (w i)) /\ forall j v, In (j, v) (w i) -> 0 <= j < Z.of_nat (length m)) ->
  (forall i i' j v v', 0 <= i < n -> 0 <= i' < n -> In (j, v) (w i) -> In (j, v') (w i') -> i = i') ->
  exists m', launch_line order k n m = Some m' /\ length m' = length m /\
    (forall i j v, 0 <= i < n -> In (j, v) (w i) -> vec_get m' j = Some v) /\
    forall j, (forall i v, 0 <= i < n -> ~ In (j, v) (w i)) -> vec_get m' j = vec_get m j.
Proof.
  intros Ho Hn Hk Hw Hd. destruct (suits_launch 1 1 n (lfa_block [1; 1; n]) (lfa_block_suits 1 1 n) ltac:(lia) ltac:(lia) Hn) as (L1 & L2 & L3).
  set (grid := blocks [1; 1; n] (lfa_block [1; 1; n])) in *. set (block := lfa_block [1; 1; n]) in *.
  set (W := fun p : coord => match p with [_; _; i] => if n <=? i then [] else w i | _ => [] end).
  assert (Hi : forall p, inside grid block p -> exists i, p = [0; 0; i] /\ 0 <= i).
  { intros p Hp. unfold grid, block, lfa_block in Hp. change (4 <=? 1) with false in Hp. cbv iota in Hp. unfold blocks in Hp. cbn [combine map fst snd inside] in Hp.
    change (round_up 1 1) with 1 in Hp. destruct Hp as (z & y & x & -> & Z1 & Y1 & X1). exists x. split; [|lia]. assert (z = 0) by lia. assert (y = 0) by lia. now subst. }
  destruct (launch_spec order k W grid block m (Ho _ _) L1 L2) as (m' & E & L & G & G').
  - intros p Hp. destruct (Hi p Hp) as (i & -> & Hi0). cbn [W]. rewrite Hk by exact Hi0. now destruct (n <=? i).
  - intros p Hp. destruct (Hi p Hp) as (i & -> & Hi0). cbn [W]. destruct (Z.leb_spec n i); [split; [constructor|intros ? ? []]|]. apply Hw. lia.
  - intros p p' j v v' Hp Hp' Hj Hj'. destruct (Hi p Hp) as (i & -> & Hi0), (Hi p' Hp') as (i' & -> & Hi0'). cbn [W] in Hj, Hj'.
    destruct (Z.leb_spec n i); [destruct Hj|]. destruct (Z.leb_spec n i'); [destruct Hj'|]. do 2 f_equal. f_equal. eapply Hd; [| |exact Hj|exact Hj']; lia.
  - exists m'. split; [exact E|]. split; [exact L|]. split.
    + intros i j v Hin Hj. apply (G [0; 0; i]); [apply L3; lia|]. cbn [W]. destruct (Z.leb_spec n i); [lia|exact Hj].
    + intros j Hj. apply G'. intros p v Hp Hc. destruct (Hi p Hp) as (i & -> & Hi0). cbn [W] in Hc. destruct (Z.leb_spec n i); [destruct Hc|]. apply (Hj i v); [lia|exact Hc].
Qed.

(** ** Lines of cells *)

Lemma vec_write_spec {X} n : forall (m : list X) i vs, 0 <= i -> i + Z.of_nat n <= Z.of_nat (length m) -> (n <= length vs)%nat ->
  exists m', vec_write m i n vs = Some m' /\ length m' = length m /\
    forall j, vec_get m' j = if (i <=? j) && (j <? i + Z.of_nat n) then vec_get vs (j - i) else vec_get m j.
Proof.
  induction n as [|n IH]; intros m i vs Hi Hn Hv.
  - exists m. split; [reflexivity|]. split; [reflexivity|]. intros j. destruct (Z.leb_spec i j), (Z.ltb_spec j (i + Z.of_nat 0)); try lia; reflexivity.
  - destruct vs as [|v vs]; [cbn in Hv; lia|]. cbn [vec_write]. destruct (vec_set_spec m i v) as (m1 & E1 & L1 & G1); [lia|]. rewrite E1. cbn [obind].
    destruct (IH m1 (i + 1) vs) as (m' & E & L & G); [lia|lia|cbn in Hv; lia|]. exists m'. split; [exact E|]. split; [lia|]. intros j. rewrite G, G1.
    destruct (Z.eqb_spec i j) as [->|Hne].
    + destruct (Z.leb_spec (j + 1) j), (Z.leb_spec j j), (Z.ltb_spec j (j + Z.of_nat (S n))); try lia. cbn [andb]. now rewrite Z.sub_diag.
    + destruct (Z.leb_spec (i + 1) j), (Z.leb_spec i j), (Z.ltb_spec j (i + 1 + Z.of_nat n)), (Z.ltb_spec j (i + Z.of_nat (S n))); try lia; cbn [andb]; try reflexivity.
      symmetry. replace (j - i) with (1 + (j - (i + 1))) by lia. rewrite SellFacts.vec_get_cons by lia. reflexivity.
Qed.

Lemma vec_set_some {X} (m : list X) i v m' : vec_set m i v = Some m' -> 0 <= i < Z.of_nat (length m) /\ length m' = length m.
Proof.
  unfold vec_set. destruct (Z.ltb_spec i 0); [discriminate|]. intros E.
  assert (Hk : forall k (l l' : list X), vec_put l k v = Some l' -> (k < length l)%nat /\ length l' = length l).
  { induction k as [|k IH]; intros [|x l] l' E'; cbn in E'; try discriminate; [injection E' as <-; cbn; lia|].
    destruct (vec_put l k v) as [l1|] eqn:E1; [|discriminate]. injection E' as <-. apply IH in E1. cbn. lia. }
  apply Hk in E. lia.
Qed.

Lemma vec_write_some {X} n : forall (m : list X) i vs m', vec_write m i (S n) vs = Some m' -> 0 <= i /\ i + Z.of_nat (S n) <= Z.of_nat (length m) /\ (S n <= length vs)%nat.
Proof.
  induction n as [|n IH]; intros m i vs m' E; destruct vs as [|v vs]; try discriminate; cbn [vec_write] in E; destruct (vec_set m i v) as [m1|] eqn:E1; try discriminate; cbn [obind] in E;
    apply vec_set_some in E1; destruct E1 as [H1 L1].
  - cbn. lia.
  - apply IH in E. cbn [length]. lia.
Qed.

Lemma vec_read_range {X} (l : list X) n i r : vec_read l i (S n) = Some r -> 0 <= i /\ i + Z.of_nat (S n) <= Z.of_nat (length l).
Proof.
  revert i r. induction n as [|n IH]; intros i r E; cbn [vec_read] in E; destruct (vec_get l i) as [v|] eqn:E1; try discriminate; cbn [obind] in E;
    pose proof (SellFacts.vec_get_some _ _ _ E1).
  - lia.
  - destruct (vec_read l (i + 1) (S n)) as [r'|] eqn:E2; [|cbn [vec_read] in E2; rewrite E2 in E; discriminate]. apply IH in E2. lia.
Qed.

Lemma vec_read_get {X} (l : list X) n i r : vec_read l i n = Some r -> length r = n /\ forall k, 0 <= k < Z.of_nat n -> vec_get l (i + k) = vec_get r k.
Proof.
  intros E. apply BytesFacts.read_holds in E. destruct E as [Hl H]. split; [exact Hl|]. intros k Hk. apply H. lia.
Qed.

Lemma gen_add ez ey ex z y x k : gen_index [ez; ey; ex] [z; y; x + k] = gen_index [ez; ey; ex] [z; y; x] + k.
Proof. cbn. ring. Qed.

Lemma sum_nonneg (ss : list (coord * Z)) : Forall (fun s => 0 <= snd s) ss -> 0 <= sum_lengths ss.
Proof.
  induction 1 as [|s ss H _ IH]; [cbn; lia|]. change (sum_lengths (s :: ss)) with (snd s + sum_lengths ss). lia.
Qed.

Section Lines.
Context (order : coord -> coord -> list (coord * coord)) (Ho : forall g b, Permutation (threads g b) (order g b)).

Lemma write_line {X} (k : kernel X) n i0 vs m m' : vec_write m i0 (Z.to_nat n) vs = Some m' ->
  (0 < n -> forall z y i, 0 <= i -> k [z; y; i] = if n <=? i then Some [] else option_map (fun v => [(i0 + i, v)]) (vec_get vs i)) ->
  launch_line order k n m = Some m'.
Proof using Ho.
  intros E Hk. destruct (Z.le_gt_cases n 0) as [Hn|Hn].
  - replace (Z.to_nat n) with 0%nat in E by lia. injection E as <-. now apply line_none.
  - specialize (Hk ltac:(lia)). destruct (Z.to_nat n) as [|n'] eqn:En; [lia|]. pose proof (vec_write_some _ _ _ _ _ E) as (A1 & A2 & A3).
    destruct (vec_write_spec (S n') m i0 vs A1 A2 A3) as (m1 & E1 & L1 & G1). assert (m1 = m') by congruence. subst m1.
    destruct (line_spec order k (fun i => match vec_get vs i with Some v => [(i0 + i, v)] | None => [] end) n m Ho ltac:(lia)) as (m2 & E2 & L2 & G2 & G2').
    + intros z y i Hi. rewrite Hk by exact Hi. destruct (Z.leb_spec n i); [reflexivity|]. destruct (vec_get_ex vs i) as (v & Ev); [lia|]. now rewrite Ev.
    + intros i Hi. destruct (vec_get vs i); [|split; [constructor|intros ? ? []]]. split; [repeat constructor; intros []|]. intros j v [Ej|[]]. injection Ej as <- <-. lia.
    + intros i i' j v v' Hi Hi' Hj Hj'. destruct (vec_get vs i); [|destruct Hj]. destruct (vec_get vs i'); [|destruct Hj'].
      destruct Hj as [Hj|[]], Hj' as [Hj'|[]]. assert (i0 + i = i0 + i') by congruence. lia.
    + rewrite E2. f_equal. apply SellFacts.vec_get_ext; [lia|]. intros j Hj. rewrite G1.
      destruct (Z.leb_spec i0 j), (Z.ltb_spec j (i0 + Z.of_nat (S n'))); cbn [andb].
      1: { destruct (vec_get_ex vs (j - i0)) as (v & Ev); [lia|]. rewrite Ev. apply (G2 (j - i0)); [lia|]. rewrite Ev. left. f_equal. lia. }
      all: apply G2'; intros i v Hi Hc; destruct (vec_get vs i); [|destruct Hc]; destruct Hc as [Hc|[]]; assert (i0 + i = j) by congruence; lia.
Qed.

Lemma lfa_set_ok {C} ez ey ex z y x (vs : list C) n m m' : 0 <= n <= Z.of_nat (length vs) ->
  vec_write m (gen_index [ez; ey; ex] [z; y; x]) (Z.to_nat n) vs = Some m' -> lfa_set order [ez; ey; ex] [z; y; x] vs n m = Some m'.
Proof using Ho.
  intros Hn E. unfold lfa_set. destruct (vec_read vs 0 (Z.to_nat n)) as [src|] eqn:Es.
  - cbn [obind]. apply vec_read_get in Es. destruct Es as [Ls Gs]. apply (write_line _ n (gen_index [ez; ey; ex] [z; y; x]) vs _ _ E). intros Hp z' y' i Hi. cbn [set_kernel]. rewrite Z.mul_1_r.
    destruct (Z.leb_spec n i); [reflexivity|]. rewrite gen_add. specialize (Gs i ltac:(lia)). cbn [Z.add] in Gs. now rewrite Gs.
  - exfalso. assert (Hh : forall k i, 0 <= i -> i + Z.of_nat k <= Z.of_nat (length vs) -> vec_read vs i k <> None).
    { induction k as [|k IH]; intros i Hi Hk; cbn; [discriminate|]. destruct (vec_get_ex vs i) as (v & Ev); [lia|]. rewrite Ev. cbn.
      specialize (IH (i + 1) ltac:(lia) ltac:(lia)). destruct (vec_read vs (i + 1) k); [discriminate|congruence]. }
    apply (Hh (Z.to_nat n) 0); try lia. exact Es.
Qed.

Lemma lfa_get_ok {C} (junk : Z -> C) ez ey ex z y x n m r : 
  vec_read m (gen_index [ez; ey; ex] [z; y; x]) (Z.to_nat n) = Some r -> lfa_get order junk [ez; ey; ex] [z; y; x] n m = Some r.
Proof using Ho.
  intros E. unfold lfa_get. pose proof (vec_read_get _ _ _ _ E) as [Lr Gr].
  apply (write_line _ n 0 r).
  - destruct (vec_write_spec (Z.to_nat n) (map junk (zrange 0 n)) 0 r) as (m1 & E1 & L1 & G1); try lia.
    { rewrite map_length, zrange_length. lia. }
    rewrite E1. f_equal. rewrite map_length, zrange_length in L1. apply SellFacts.vec_get_ext; [lia|]. intros j Hj. rewrite G1.
    destruct (Z.leb_spec 0 j), (Z.ltb_spec j (0 + Z.of_nat (Z.to_nat n))); try lia. cbn [andb]. f_equal. lia.
  - intros Hp z' y' i Hi. cbn [get_kernel]. destruct (Z.leb_spec n i); [reflexivity|]. rewrite gen_add, Gr by lia. reflexivity.
Qed.

(** ** Regions *)
Context {C M : Type} (K : nat) (part : nat -> C -> M) (assemble : list M -> C).

Lemma omap_get {A B} (f : A -> option B) l vs : omap f l = Some vs -> length vs = length l /\
  forall i a, vec_get l i = Some a -> vec_get vs i = f a.
Proof.
  clear. revert vs. induction l as [|a l IH]; intros vs E; cbn in E.
  - injection E as <-. split; [reflexivity|]. intros i a H. apply SellFacts.vec_get_some in H. cbn in H. lia.
  - destruct (f a) as [b|] eqn:Ea; [|discriminate]. cbn in E. destruct (omap f l) as [bs|]; [|discriminate]. cbn in E. injection E as <-. destruct (IH bs eq_refl) as [IH1 IH2].
    split; [cbn; lia|]. intros i a' H. destruct (Z.eq_dec i 0) as [->|Hi].
    + change (Some a = Some a') in H. injection H as <-. now rewrite Ea.
    + pose proof (SellFacts.vec_get_some _ _ _ H) as Hr. replace i with (1 + (i - 1)) in H |- * by lia. rewrite SellFacts.vec_get_cons in H by lia. rewrite SellFacts.vec_get_cons by lia. now apply IH2.
Qed.

Lemma lfa_load_ok ext buf raw stride ss : forall off m m', Forall (fun s => 0 <= snd s) ss -> 0 <= off -> off + sum_lengths ss <= stride ->
  (forall i, 0 <= i < Z.of_nat K * stride -> vec_get raw i = vec_get buf i) ->
  mem_load K assemble ext buf stride ss off m = Some m' -> lfa_load order K assemble ext raw stride ss off m = Some m'.
Proof using Ho.
  clear part. induction ss as [|[o n] ss IH]; intros off m m' Hs Hoff Hst Hraw E; [exact E|]. cbn [sum_lengths fold_right snd] in Hst. fold (sum_lengths ss) in Hst.
  inversion Hs as [|? ? Hn Hs']; subst. cbn [snd] in Hn. pose proof (sum_nonneg ss Hs').
  cbn [mem_load lfa_load] in *. destruct (omap (unpack K assemble buf stride) (zrange off (off + n))) as [vs|] eqn:Ev; [|discriminate]. cbn [obind] in E.
  destruct (vec_write m (gen_index ext o) (Z.to_nat n) vs) as [m1|] eqn:Ew; [|discriminate]. cbn [obind] in E.
  rewrite (write_line _ n (gen_index ext o) vs m m1 Ew); [cbn [obind]; apply IH; auto; lia|]. intros Hp z y i Hi. cbn [load_kernel]. destruct (Z.leb_spec n i); [reflexivity|].
  f_equal. apply omap_get in Ev. destruct Ev as [_ Gv]. rewrite (Gv i (off + i)).
  - unfold unpack. f_equal. apply UpdateFacts.omap_ext. intros j Hj. apply in_seq in Hj. apply Hraw. nia.
  - unfold vec_get. destruct (Z.ltb_spec i 0); [lia|]. apply zrange_nth_error. lia.
Qed.

(** The state of the buffer when the first cells have been saved *)
Definition saved (stride : Z) (cells : list C) (buf : list M) : Prop :=
  Z.of_nat (length buf) = Z.of_nat K * stride /\
  forall j q c, (j < K)%nat -> vec_get cells q = Some c -> vec_get buf (Z.of_nat j * stride + q) = Some (part j c).

Lemma save_step ext m stride o n off cells part_cells buf : 0 <= n -> Z.of_nat (length cells) = off -> off + n <= stride ->
  vec_read m (gen_index ext o) (Z.to_nat n) = Some part_cells -> saved stride cells buf ->
  exists buf', launch_line order (save_kernel K part ext m n stride o off) n buf = Some buf' /\ saved stride (cells ++ part_cells) buf'.
Proof using Ho.
  clear assemble. intros Hn Hoff Hst Er [Hlb Hb]. pose proof (vec_read_get _ _ _ _ Er) as [Lr Gr]. destruct (Z.eq_dec n 0) as [->|Hne].
  - rewrite line_none by lia. exists buf. split; [reflexivity|]. destruct part_cells; [|cbn in Lr; lia]. rewrite app_nil_r. now split.
  - set (w := fun i => match vec_get part_cells i with Some v => map (fun j => (Z.of_nat j * stride + (off + i), part j v)) (seq 0 K) | None => [] end).
    destruct (line_spec order (save_kernel K part ext m n stride o off) w n buf Ho ltac:(lia)) as (m2 & E2 & L2 & G2 & G2').
    + intros z y i Hi. cbn [save_kernel]. destruct (Z.leb_spec n i); [reflexivity|]. rewrite Gr by lia. unfold w. destruct (vec_get_ex part_cells i) as (v & Ev); [lia|]. now rewrite Ev.
    + intros i Hi. unfold w. destruct (vec_get part_cells i); [|split; [constructor|intros ? ? []]]. split.
      * rewrite map_map. cbn [fst]. apply UpdateProps.nodup_map_in; [apply seq_NoDup|]. intros a b _ _ E. nia.
      * intros j v Hj. apply in_map_iff in Hj. destruct Hj as (k & Ek & Hk). apply in_seq in Hk. injection Ek as <- _. nia.
    + intros i i' j v v' Hi Hi' Hj Hj'. unfold w in Hj, Hj'. destruct (vec_get part_cells i); [|destruct Hj]. destruct (vec_get part_cells i'); [|destruct Hj'].
      apply in_map_iff in Hj, Hj'. destruct Hj as (a & Ea & Ha), Hj' as (b & Eb & Hb'). assert (E : Z.of_nat a * stride + (off + i) = Z.of_nat b * stride + (off + i')) by congruence.
      assert (Z.of_nat a = Z.of_nat b) by nia. nia.
    + exists m2. split; [exact E2|]. split; [lia|]. intros j q c Hj Hq. pose proof (SellFacts.vec_get_some _ _ _ Hq) as Hr. rewrite app_length in Hr. rewrite SellFacts.vec_get_app in Hq.
      destruct (Z.ltb_spec q (Z.of_nat (length cells))).
      * rewrite G2'; [now apply Hb|]. intros i v Hi Hc. unfold w in Hc. destruct (vec_get part_cells i); [|destruct Hc]. apply in_map_iff in Hc. destruct Hc as (k & Ek & Hk).
        assert (E : Z.of_nat k * stride + (off + i) = Z.of_nat j * stride + q) by congruence. assert (Z.of_nat k = Z.of_nat j) by nia. nia.
      * apply (G2 (q - off)); [lia|]. unfold w. rewrite Hoff in Hq. rewrite Hq. apply in_map_iff. exists j. split; [f_equal; lia|apply in_seq; lia].
Qed.

Lemma lfa_save_ok ext m stride ss : forall off cells rest buf, Forall (fun s => 0 <= snd s) ss -> Z.of_nat (length cells) = off -> off + sum_lengths ss = stride ->
  read_streaks ext m ss = Some rest -> saved stride cells buf ->
  exists buf', lfa_save order K part ext m stride ss off buf = Some buf' /\ saved stride (cells ++ rest) buf' /\ Z.of_nat (length (cells ++ rest)) = stride.
Proof using Ho.
  clear assemble. induction ss as [|[o n] ss IH]; intros off cells rest buf Hs Hoff Hst E Hb.
  - cbn in E. injection E as <-. exists buf. rewrite app_nil_r. cbn in Hst. split; [reflexivity|]. split; [exact Hb|lia].
  - cbn [sum_lengths fold_right snd] in Hst. fold (sum_lengths ss) in Hst. inversion Hs as [|? ? Hn Hs']; subst. cbn [snd] in Hn.
    pose proof (sum_nonneg ss Hs').
    cbn [read_streaks] in E. destruct (vec_read m (gen_index ext o) (Z.to_nat n)) as [a|] eqn:Ea; [|discriminate]. cbn [obind] in E.
    destruct (read_streaks ext m ss) as [rest'|] eqn:Er; [|discriminate]. injection E as <-.
    destruct (save_step ext m (Z.of_nat (length cells) + (n + sum_lengths ss)) o n (Z.of_nat (length cells)) cells a buf Hn eq_refl ltac:(lia) Ea Hb) as (b1 & E1 & Hb1).
    pose proof (vec_read_get _ _ _ _ Ea) as [La _]. cbn [lfa_save]. rewrite E1. cbn [obind].
    destruct (IH (Z.of_nat (length cells) + n) (cells ++ a) rest' b1 Hs' ltac:(rewrite app_length; lia) ltac:(lia) eq_refl Hb1) as (buf' & E2 & Hb2 & Hl2).
    rewrite <- app_assoc in Hb2, Hl2. exists buf'. auto.
Qed.
End Lines.
