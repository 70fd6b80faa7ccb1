(** Facts on the Struct of Arrays layout: memory, padding. *)
From Verif Require Import Base ListFacts RegionSpec RegionModel RegionRep RegionIterModel RegionStreaks RegionOpsModel HaloSpec
  CoordModel CoordSpec CoordFacts TopologyFacts PatchModel GridModel GridSpec GridFacts DisplacedFacts
  StencilModel StencilSpec UpdateModel UpdateSpec UpdateFacts SoAModel SoASpec.

(** ** Sizes *)

Lemma first_fit_le l n e : first_fit l n = Some e -> n <= e.
Proof. intros H. unfold first_fit in H. apply find_some in H. lia. Qed.

Lemma custom_sizes_ok xs ys zs : sizes_ok (custom_sizes xs ys zs).
Proof.
  intros dim ext H. destruct dim as [|z [|y [|x [|]]]]; try discriminate. cbn in H.
  destruct (first_fit xs x) as [ex|] eqn:E1; [|discriminate]. destruct (first_fit ys y) as [ey|] eqn:E2; [|discriminate].
  destruct (first_fit zs z) as [ez|] eqn:E3; [|discriminate]. cbn in H. injection H as <-. repeat constructor; eapply first_fit_le; eauto.
Qed.

Lemma uniform_1d_ok l : sizes_ok (uniform_1d l).
Proof.
  intros dim ext H. destruct dim as [|z [|y [|x [|]]]]; try discriminate. cbn in H. destruct (Z.eqb_spec y 1); [|discriminate]. destruct (Z.eqb_spec z 1); [|discriminate].
  destruct (first_fit l x) as [ee|] eqn:E; [|discriminate]. apply first_fit_le in E. cbn in H. injection H as <-. repeat constructor; lia.
Qed.

Lemma uniform_2d_ok l : sizes_ok (uniform_2d l).
Proof.
  intros dim ext H. destruct dim as [|z [|y [|x [|]]]]; try discriminate. cbn [uniform_2d] in H. destruct (Z.eqb_spec z 1); [|discriminate].
  destruct (first_fit l (Z.max x y)) as [ee|] eqn:E; [|discriminate]. apply first_fit_le in E. cbn in H. injection H as <-. repeat constructor; lia.
Qed.

Lemma uniform_3d_ok l : sizes_ok (uniform_3d l).
Proof.
  intros dim ext H. destruct dim as [|z [|y [|x [|]]]]; try discriminate. cbn [uniform_3d] in H.
  destruct (first_fit l (Z.max x (Z.max y z))) as [ee|] eqn:E; [|discriminate]. apply first_fit_le in E. cbn in H. injection H as <-. repeat constructor; lia.
Qed.

Lemma default_sizes_ok : sizes_ok default_sizes.
Proof.
  intros dim ext H. destruct dim as [|z [|y [|x [|]]]]; try discriminate. unfold default_sizes in H.
  destruct ((1 <? y) && (1 <? z)); [now apply uniform_3d_ok in H|]. destruct (1 <? y); [now apply uniform_2d_ok in H|now apply uniform_1d_ok in H].
Qed.

(** ** Memory *)

Definition m3 {C} (ext : coord) (m : list C) (F : place -> C) : Prop := exists e, rep ext (mkVGrid ext m e) F.

Lemma gen_to ez ey ex z y x : gen_index [ez; ey; ex] [z; y; x] = to_index [z; y; x] [ez; ey; ex].
Proof. cbn. ring. Qed.

Section Mem.
Context {C : Type} (ez ey ex : Z).
Context (Hz : 0 < ez) (Hy : 0 < ey) (Hx : 0 < ex).
Let ext := [ez; ey; ex].

Lemma ext_pos : allpos ext.
Proof using Hz Hy Hx. repeat constructor; assumption. Qed.

Lemma ext_in z y x : in_grid ext [z; y; x] <-> 0 <= z < ez /\ 0 <= y < ey /\ 0 <= x < ex.
Proof using. unfold in_grid, ext. cbn. lia. Qed.

Lemma m3_get (m : list C) F z y x : m3 ext m F -> 0 <= z < ez -> 0 <= y < ey -> 0 <= x < ex -> vec_get m (gen_index ext [z; y; x]) = Some (F (Some [z; y; x])).
Proof using. intros (e & _ & _ & _ & H) H1 H2 H3. unfold ext. rewrite gen_to. apply H, ext_in. auto. Qed.

Lemma m3_set (m : list C) F z y x v : m3 ext m F -> 0 <= z < ez -> 0 <= y < ey -> 0 <= x < ex ->
  exists m', vec_set m (gen_index ext [z; y; x]) v = Some m' /\ m3 ext m' (upd F (Some [z; y; x]) v).
Proof using Hz Hy Hx.
  intros (e & R) H1 H2 H3. unfold ext. rewrite gen_to. fold ext. destruct (rep_put (cube 3) ext eq_refl ext_pos _ F [z; y; x] v R) as (l' & E & R').
  - apply ext_in. auto.
  - exists l'. split; [exact E|]. exists e. exact R'.
Qed.

Lemma gen_next z y x : gen_index ext [z; y; x] + 1 = gen_index ext [z; y; x + 1].
Proof using. unfold ext. cbn. ring. Qed.

Lemma m3_read (m : list C) F z y : m3 ext m F -> 0 <= z < ez -> 0 <= y < ey -> forall n x, 0 <= x -> x + Z.of_nat n <= ex ->
  vec_read m (gen_index ext [z; y; x]) n = Some (map (fun x' => F (Some [z; y; x'])) (zrange x (x + Z.of_nat n))).
Proof using.
  intros R H1 H2. induction n as [|n IH]; intros x H3 H4.
  - rewrite zrange_nil by lia. reflexivity.
  - rewrite zrange_cons by lia. cbn [vec_read map]. rewrite (m3_get m F z y x R) by lia. cbn [obind]. rewrite gen_next, IH by lia.
    replace (x + 1 + Z.of_nat n) with (x + Z.of_nat (S n)) by lia. reflexivity.
Qed.

Lemma m3_write z y : 0 <= z < ez -> 0 <= y < ey -> forall n x (m : list C) F vs, m3 ext m F -> 0 <= x -> x + Z.of_nat n <= ex -> (n <= length vs)%nat ->
  exists m', vec_write m (gen_index ext [z; y; x]) n vs = Some m' /\
    m3 ext m' (last_written F (combine (map (fun x' => Some [z; y; x']) (zrange x (x + Z.of_nat n))) vs)).
Proof using Hz Hy Hx.
  intros H1 H2. induction n as [|n IH]; intros x m F vs R H3 H4 H5.
  - rewrite zrange_nil by lia. exists m. split; [reflexivity|exact R].
  - destruct vs as [|v vs]; [cbn in H5; lia|]. rewrite zrange_cons by lia. cbn [vec_write map combine].
    destruct (m3_set m F z y x v R H1 H2) as (m1 & E1 & R1); [lia|]. rewrite E1. cbn [obind]. rewrite gen_next.
    destruct (IH (x + 1) m1 _ vs R1) as (m' & E' & R'); [lia|lia|cbn in H5; lia|]. exists m'. split; [exact E'|].
    replace (x + 1 + Z.of_nat n) with (x + Z.of_nat (S n)) in R' by lia. exact R'.
Qed.

(** ** Padding *)

Lemma fill_spec v z y stop : 0 <= z < ez -> 0 <= y < ey -> stop <= ex -> forall x (m : list C) F, m3 ext m F -> 0 <= x ->
  exists m' F', fill v x stop (gen_index ext [z; y; x]) m = Some m' /\ m3 ext m' F' /\
    forall z' y' x', F' (Some [z'; y'; x']) = if (z' =? z) && (y' =? y) && (x <=? x') && (x' <? stop) then v else F (Some [z'; y'; x']).
Proof using Hz Hy Hx.
  intros H1 H2 H3. unfold fill. intros x m F R H4. remember (Z.to_nat (stop - x)) as n eqn:En. revert x m F R H4 En.
  induction n as [|n IH]; intros x m F R H4 En.
  - exists m, F. split; [reflexivity|]. split; [exact R|]. intros z' y' x'. destruct (Z.leb_spec x x'), (Z.ltb_spec x' stop); try lia; now rewrite ?andb_false_r.
  - cbn [repeat vec_write]. destruct (m3_set m F z y x v R H1 H2) as (m1 & E1 & R1); [lia|]. rewrite E1. cbn [obind]. rewrite gen_next.
    destruct (IH (x + 1) m1 _ R1) as (m' & F' & E' & R' & HF); [lia|lia|]. exists m', F'. split; [exact E'|]. split; [exact R'|].
    intros z' y' x'. rewrite HF. unfold upd. destruct (place_dec (Some [z; y; x]) (Some [z'; y'; x'])) as [E|E].
    + assert (z' = z /\ y' = y /\ x' = x) as (-> & -> & ->) by (repeat split; congruence).
      rewrite !Z.eqb_refl. cbn [andb]. destruct (Z.leb_spec x x), (Z.ltb_spec x stop), (Z.leb_spec (x + 1) x); cbn [andb]; auto; lia.
    + destruct (Z.eqb_spec z' z), (Z.eqb_spec y' y); cbn [andb]; auto. destruct (Z.ltb_spec x' stop); rewrite ?andb_false_r, ?andb_true_r; auto.
      destruct (Z.leb_spec (x + 1) x'), (Z.leb_spec x x'); auto; try lia. exfalso. apply E. assert (x' = x) by lia. congruence.
Qed.

Lemma sc_row_spec init gx rx edge inner on_edge z y (m : list C) F : m3 ext m F -> 0 <= z < ez -> 0 <= y < ey -> 0 <= rx -> 2 * rx <= gx -> gx <= ex ->
  exists m' F', sc_row init gx rx edge inner on_edge (gen_index ext [z; y; 0]) m = Some m' /\ m3 ext m' F' /\
    forall z' y' x', F' (Some [z'; y'; x']) =
      if (z' =? z) && (y' =? y) && (0 <=? x') && (x' <? gx) then
        if on_edge || (x' <? rx) || (gx - rx <=? x') then edge else if init then inner else F (Some [z'; y'; x'])
      else F (Some [z'; y'; x']).
Proof using Hz Hy Hx.
  intros R H1 H2 H3 H4 H5. unfold sc_row. destruct (fill_spec edge z y rx H1 H2 ltac:(lia) 0 m F R ltac:(lia)) as (m1 & F1 & E1 & R1 & HF1). rewrite E1. cbn [obind].
  rewrite (Z.max_r 0 rx) by lia. replace (gen_index ext [z; y; 0] + rx) with (gen_index ext [z; y; rx]) by (unfold ext; cbn; ring).
  assert (Hmid : exists m2 F2, (if on_edge || init then fill (if on_edge then edge else inner) rx (gx - rx) (gen_index ext [z; y; rx]) m1 else Some m1) = Some m2 /\ m3 ext m2 F2 /\
    forall z' y' x', F2 (Some [z'; y'; x']) = if (on_edge || init) && ((z' =? z) && (y' =? y) && (rx <=? x') && (x' <? gx - rx)) then (if on_edge then edge else inner) else F1 (Some [z'; y'; x'])).
  { destruct (on_edge || init).
    - apply (fill_spec _ z y (gx - rx) H1 H2 ltac:(lia) rx m1 F1 R1 ltac:(lia)).
    - exists m1, F1. split; [reflexivity|]. split; [exact R1|]. reflexivity. }
  destruct Hmid as (m2 & F2 & E2 & R2 & HF2). rewrite E2. cbn [obind].
  assert (Ex : (if on_edge || init then Z.max rx (gx - rx) else rx + (gx - 2 * rx)) = gx - rx) by (destruct (on_edge || init); lia). rewrite Ex.
  replace (gen_index ext [z; y; rx] + (gx - rx - rx)) with (gen_index ext [z; y; gx - rx]) by (unfold ext; cbn; ring).
  destruct (fill_spec edge z y gx H1 H2 ltac:(lia) (gx - rx) m2 F2 R2 ltac:(lia)) as (m3' & F3 & E3 & R3 & HF3).
  exists m3', F3. split; [exact E3|]. split; [exact R3|]. intros z' y' x'. rewrite HF3, HF2, HF1.
  destruct (Z.eqb_spec z' z), (Z.eqb_spec y' y); cbn [andb]; rewrite ?andb_false_r; auto.
  destruct (Z.leb_spec 0 x'), (Z.ltb_spec x' gx), (Z.leb_spec (gx - rx) x'), (Z.leb_spec rx x'), (Z.ltb_spec x' (gx - rx)), (Z.ltb_spec x' rx); cbn [andb orb]; rewrite ?andb_false_r, ?andb_true_r, ?orb_true_r, ?orb_false_r; try lia; auto.
  all: destruct on_edge, init; reflexivity.
Qed.
End Mem.

Lemma each_zrange {S} (f : Z -> S -> option S) lo hi (P : Z -> S -> Prop) : lo <= hi ->
  (forall k s, lo <= k < hi -> P k s -> exists s', f k s = Some s' /\ P (k + 1) s') ->
  forall s, P lo s -> exists s', each f (zrange lo hi) s = Some s' /\ P hi s'.
Proof.
  intros Hle Hstep. remember (Z.to_nat (hi - lo)) as n eqn:En. revert lo Hle Hstep En. induction n as [|n IH]; intros lo Hle Hstep En s Hs.
  - assert (lo = hi) as -> by lia. rewrite zrange_nil by lia. exists s. split; [reflexivity|exact Hs].
  - rewrite zrange_cons by lia. destruct (Hstep lo s ltac:(lia) Hs) as (s1 & E1 & H1). cbn [each]. rewrite E1. cbn [obind].
    apply (IH (lo + 1)); auto; try lia. intros k s' Hk. apply Hstep. lia.
Qed.

Lemma set_content_spec {C} init ez ey ex gz gy gx rz ry rx (edge inner : C) m F : m3 [ez; ey; ex] m F ->
  0 <= gz <= ez -> 0 <= gy <= ey -> 0 <= gx <= ex -> 0 < ez -> 0 < ey -> 0 < ex -> 0 <= rx -> 2 * rx <= gx ->
  exists m' F', set_content init [ez; ey; ex] [gz; gy; gx] [rz; ry; rx] edge inner m = Some m' /\ m3 [ez; ey; ex] m' F' /\
    forall z y x, 0 <= z < gz -> 0 <= y < gy -> 0 <= x < gx -> F' (Some [z; y; x]) =
      if (z <? rz) || (gz - rz <=? z) || (y <? ry) || (gy - ry <=? y) || (x <? rx) || (gx - rx <=? x) then edge
      else if init then inner else F (Some [z; y; x]).
Proof.
  intros R Hgz Hgy Hgx Hz Hy Hx Hr1 Hr2. unfold set_content.
  set (val := fun z y x (old : C) => if (z <? rz) || (gz - rz <=? z) || (y <? ry) || (gy - ry <=? y) || (x <? rx) || (gx - rx <=? x) then edge else if init then inner else old).
  destruct (each_zrange
    (fun z m => each (fun y m => sc_row init gx rx edge inner ((z <? rz) || (gz - rz <=? z) || (y <? ry) || (gy - ry <=? y)) (z * ex * ey + y * ex) m) (zrange 0 gy) m) 0 gz
    (fun k m => exists F', m3 [ez; ey; ex] m F' /\ forall z y x, 0 <= y < gy -> 0 <= x < gx ->
      F' (Some [z; y; x]) = if (0 <=? z) && (z <? k) then val z y x (F (Some [z; y; x])) else F (Some [z; y; x])) ltac:(lia)) with (s := m) as (m' & E & F' & R' & HF).
  - intros z m1 Hk (F1 & R1 & HF1).
    destruct (each_zrange
      (fun y m => sc_row init gx rx edge inner ((z <? rz) || (gz - rz <=? z) || (y <? ry) || (gy - ry <=? y)) (z * ex * ey + y * ex) m) 0 gy
      (fun k m => exists F', m3 [ez; ey; ex] m F' /\ forall z' y x, 0 <= x < gx ->
        F' (Some [z'; y; x]) = if (z' =? z) && (0 <=? y) && (y <? k) then val z y x (F1 (Some [z'; y; x])) else F1 (Some [z'; y; x])) ltac:(lia)) with (s := m1) as (m2 & E2 & F2 & R2 & HF2).
    + intros y m2 Hk2 (F2 & R2 & HF2).
      destruct (sc_row_spec ez ey ex Hz Hy Hx init gx rx edge inner ((z <? rz) || (gz - rz <=? z) || (y <? ry) || (gy - ry <=? y)) z y m2 F2 R2) as (m3' & F3 & E3 & R3 & HF3); try lia.
      replace (gen_index [ez; ey; ex] [z; y; 0]) with (z * ex * ey + y * ex) in E3 by (cbn; ring).
      exists m3'. split; [exact E3|]. exists F3. split; [exact R3|]. intros z' y' x' Hx'. rewrite HF3, HF2 by lia.
      destruct (Z.eqb_spec z' z) as [->|]; cbn [andb]; [|reflexivity]. destruct (Z.eqb_spec y' y) as [->|]; cbn [andb].
      * destruct (Z.leb_spec 0 x'), (Z.ltb_spec x' gx); try lia. cbn [andb]. destruct (Z.leb_spec 0 y), (Z.ltb_spec y (y + 1)), (Z.ltb_spec y y); try lia. cbn [andb]. unfold val.
        reflexivity.
      * destruct (Z.leb_spec 0 y'), (Z.ltb_spec y' y), (Z.ltb_spec y' (y + 1)); try lia; reflexivity.
    + exists F1. split; [exact R1|]. intros z' y x _. destruct (Z.eqb_spec z' z), (Z.leb_spec 0 y), (Z.ltb_spec y 0); try lia; reflexivity.
    + exists m2. split; [exact E2|]. exists F2. split; [exact R2|]. intros z' y x Hy' Hx'. rewrite HF2, HF1 by lia.
      destruct (Z.leb_spec 0 y), (Z.ltb_spec y gy); try lia. rewrite !andb_true_r. destruct (Z.eqb_spec z' z) as [->|].
      * destruct (Z.leb_spec 0 z), (Z.ltb_spec z z), (Z.ltb_spec z (z + 1)); try lia. reflexivity.
      * destruct (Z.leb_spec 0 z'), (Z.ltb_spec z' z), (Z.ltb_spec z' (z + 1)); try lia; reflexivity.
  - exists F. split; [exact R|]. intros z y x _ _. destruct (Z.leb_spec 0 z), (Z.ltb_spec z 0); try lia; reflexivity.
  - exists m', F'. split; [|split; [exact R'|]].
    + rewrite <- E. reflexivity.
    + intros z y x H1 H2 H3. rewrite HF by lia. destruct (Z.leb_spec 0 z), (Z.ltb_spec z gz); try lia. reflexivity.
Qed.

(** ** Where cells are stored *)

Definition emb (t : topology) (R : Z) (c : coord) : coord := zadd (edge_radii t R) (pad 0 c).
Definition pl (t : topology) (R : Z) (dims p : coord) : place :=
  option_map (skipn (3 - length t)) (denotes (cube 3) (pad 1 dims) (zsub p (edge_radii t R))).

Ltac leq := repeat match goal with |- _ :: _ = _ :: _ => apply (f_equal2 cons); [lia|] end; try reflexivity.

Ltac d123 t dims :=
  destruct t as [|?w0 [|?w1 [|?w2 [|? ?]]]]; destruct dims as [|?n0 [|?n1 [|?n2 [|? ?]]]]; cbn [length] in *; try discriminate; try lia; try congruence.

Lemma act_dims t R dims : length t = length dims -> (length t <= 3)%nat -> t <> [] ->
  zadd (pad 1 dims) (map (fun r => r * 2) (edge_radii t R)) = soa_dims t R dims.
Proof.
  intros Hl H3 Hne. d123 t dims.
  all: unfold soa_dims, edge_radii, pad; cbn -[Z.mul Z.add Z.sub Z.leb Z.ltb]; repeat match goal with |- context [if ?w then _ else _] => destruct w end; cbn -[Z.mul Z.add Z.sub Z.leb Z.ltb]; leq.
Qed.

Lemma emb_in t R dims c : length t = length dims -> (length t <= 3)%nat -> t <> [] -> 0 <= R -> in_grid dims c ->
  in_grid (soa_dims t R dims) (emb t R c) /\ pl t R dims (emb t R c) = Some c.
Proof.
  intros Hl H3 Hne HR Hc. pose proof (in_grid_length _ _ Hc) as Hlc. unfold in_grid in *. d123 t dims; destruct c as [|c0 [|c1 [|c2 [|? ?]]]]; try discriminate; cbn in Hc.
  all: unfold soa_dims, emb, pl, edge_radii, pad; cbn -[Z.mul Z.add Z.sub Z.leb Z.ltb];
    repeat match goal with |- context [if ?w then 0 else _] => is_var w; destruct w end; cbn -[Z.mul Z.add Z.sub Z.leb Z.ltb].
  all: split; [repeat split; lia|].
  all: repeat match goal with |- context [?a <=? ?x] => destruct (Z.leb_spec a x); [|lia] | |- context [?x <? ?a] => destruct (Z.ltb_spec x a); [|lia] end.
  all: cbn -[Z.sub Z.add]; apply f_equal; leq.
Qed.

Lemma pl_inv t R dims p c : length t = length dims -> (length t <= 3)%nat -> t <> [] -> 0 <= R -> in_grid (soa_dims t R dims) p ->
  pl t R dims p = Some c -> in_grid dims c /\ p = emb t R c.
Proof.
  intros Hl H3 Hne HR Hp E. pose proof (in_grid_length _ _ Hp) as Hlp. unfold in_grid in *. d123 t dims; destruct p as [|p0 [|p1 [|p2 [|? ?]]]]; try discriminate.
  all: unfold soa_dims, emb, pl, edge_radii, pad in *; cbn -[Z.mul Z.add Z.sub Z.leb Z.ltb] in *;
    repeat match goal with H : context [if ?w then 0 else _] |- _ => is_var w; destruct w end; cbn -[Z.mul Z.add Z.sub Z.leb Z.ltb] in *.
  all: repeat match type of E with context [?a <=? ?x] => destruct (Z.leb_spec a x); [|try discriminate E; fail] | context [?x <? ?a] => destruct (Z.ltb_spec x a) end; cbn -[Z.mul Z.add Z.sub] in E; try discriminate E.
  all: injection E as <-; cbn -[Z.mul Z.add Z.sub]; split; [repeat split; lia|leq].
Qed.

Lemma pl_edge t R dims z y x : length t = length dims -> (length t <= 3)%nat -> t <> [] -> 0 <= R -> in_grid (soa_dims t R dims) [z; y; x] ->
  match soa_dims t R dims, edge_radii t R with
  | [gz; gy; gx], [rz; ry; rx] =>
      (z <? rz) || (gz - rz <=? z) || (y <? ry) || (gy - ry <=? y) || (x <? rx) || (gx - rx <=? x) =
      match pl t R dims [z; y; x] with None => true | Some _ => false end
  | _, _ => False
  end.
Proof.
  intros Hl H3 Hne HR Hp. unfold in_grid in *. d123 t dims.
  all: unfold soa_dims, pl, edge_radii, pad in *; cbn -[Z.mul Z.add Z.sub Z.leb Z.ltb] in *;
    repeat match goal with H : context [if ?w then _ else _] |- _ => is_var w; destruct w end; cbn -[Z.mul Z.add Z.sub Z.leb Z.ltb] in *.
  all: repeat (match goal with |- context [?a <=? ?b] => destruct (Z.leb_spec a b) | |- context [?a <? ?b] => destruct (Z.ltb_spec a b) end;
    cbn -[Z.mul Z.add Z.sub Z.leb Z.ltb]; try reflexivity; try lia).
Qed.
