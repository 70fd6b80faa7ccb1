(** Facts on Images, the Plotter and PPM files. *)
From Verif Require Import Base RegionSpec RegionModel RegionOpsModel CoordModel CoordSpec PatchModel GridModel GridSpec RegionStreaks CoordFacts GridFacts AdapterModel ImageModel ImageSpec.
From Coq Require Import Lia.

Lemma flat_in w h x y : 0 <= x < w -> 0 <= y < h -> in_grid [h; w] [y; x].
Proof. intros Hx Hy. cbn. repeat split; lia. Qed.

Lemma dim_pos w h : 0 < w -> 0 < h -> allpos [h; w].
Proof. intros. repeat constructor; lia. Qed.

Lemma prod2 w h : prod [h; w] = w * h.
Proof. unfold prod. cbn. lia. Qed.

Section Pictures.
Variables (w h : Z).
Hypothesis Hw : 0 < w.
Hypothesis Hh : 0 < h.

Definition by_place (e : color) (f : Z -> Z -> color) (p : place) : color := match p with Some [y; x] => f x y | _ => e end.

Lemma close2 x y : 0 <= x < w -> 0 <= y < h -> close_by [h; w] [y; x].
Proof using Hw Hh. intros. apply in_grid_close; [now apply dim_pos|now apply flat_in]. Qed.

Lemma picture_rep i f : picture w h i f -> rep [h; w] i (by_place (g_edge i) f).
Proof using Hw Hh.
  intros (H1 & H2 & H3). split; [exact H1|]. split; [now rewrite prod2|]. split; [reflexivity|]. intros c Hc.
  destruct c as [|y [|x [|? ?]]]; cbn in Hc; try tauto. destruct Hc as (Hy & Hx & _). cbn [by_place]. specialize (H3 x y ltac:(lia) ltac:(lia)).
  unfold grid_get in H3. rewrite H1 in H3. destruct (out_of_bounds flat [y; x] [h; w]) eqn:Eo.
  - pose proof (denotes_oob flat [h; w] [y; x] eq_refl (dim_pos w h Hw Hh) Eo) as E. rewrite (denotes_self flat [h; w] [y; x] eq_refl (dim_pos w h Hw Hh)) in E; [discriminate|]. apply flat_in; lia.
  - destruct (denotes_in flat [h; w] [y; x] eq_refl (dim_pos w h Hw Hh) (close2 x y ltac:(lia) ltac:(lia)) Eo) as [E _].
    rewrite (denotes_self flat [h; w] [y; x] eq_refl (dim_pos w h Hw Hh)) in E by (apply flat_in; lia). assert (E' : normalize_edges [y; x] [h; w] = [y; x]) by congruence.
    rewrite E' in H3. exact H3.
Qed.

Lemma rep_picture i F : rep [h; w] i F -> picture w h i (fun x y => F (Some [y; x])).
Proof using Hw Hh.
  intros Hr. pose proof Hr as (H1 & H2 & _ & _). split; [exact H1|]. split; [now rewrite H2, prod2|]. intros x y Hx Hy.
  rewrite (rep_get flat [h; w] eq_refl (dim_pos w h Hw Hh) i F [y; x] Hr (close2 x y Hx Hy)).
  now rewrite (denotes_self flat [h; w] [y; x] eq_refl (dim_pos w h Hw Hh) (flat_in w h x y Hx Hy)).
Qed.

Lemma picture_ext i f f' : picture w h i f -> (forall x y, 0 <= x < w -> 0 <= y < h -> f x y = f' x y) -> picture w h i f'.
Proof using. intros (H1 & H2 & H3) H. split; [exact H1|]. split; [exact H2|]. intros x y Hx Hy. rewrite <- H; auto. Qed.

Lemma picture_make col : picture w h (image_make w h col) (fun _ _ => col).
Proof using Hw Hh.
  unfold image_make. eapply picture_ext; [apply rep_picture, (rep_make flat [h; w] eq_refl (dim_pos w h Hw Hh))|]. intros. reflexivity.
Qed.

Definition dot (x y : Z) (c : color) (f : Z -> Z -> color) : Z -> Z -> color := fun x' y' => if (x' =? x) && (y' =? y) then c else f x' y'.

Lemma picture_set i f x y c : picture w h i f -> 0 <= x < w -> 0 <= y < h ->
  exists i', grid_set flat i [y; x] c = Some i' /\ picture w h i' (dot x y c f).
Proof using Hw Hh.
  intros Hp Hx Hy. destruct (rep_set flat [h; w] eq_refl (dim_pos w h Hw Hh) i _ [y; x] c (picture_rep i f Hp) (close2 x y Hx Hy)) as (i' & E & R).
  exists i'. split; [exact E|]. eapply picture_ext; [apply rep_picture, R|]. intros x' y' Hx' Hy'. cbn beta. unfold upd, dot.
  rewrite (denotes_self flat [h; w] [y; x] eq_refl (dim_pos w h Hw Hh) (flat_in w h x y Hx Hy)).
  match goal with |- context [place_dec ?a ?b] => destruct (place_dec a b) as [Ep|Ep] end.
  - injection Ep as E1 E2. subst. now rewrite !Z.eqb_refl.
  - destruct (Z.eqb_spec x' x), (Z.eqb_spec y' y); cbn [andb]; try reflexivity. subst. now contradiction Ep.
Qed.

Lemma picture_dims i f : picture w h i f -> img_w i = w /\ img_h i = h.
Proof using. intros (H & _). unfold img_w, img_h. rewrite H. auto. Qed.

Lemma picture_get i f x y : picture w h i f -> 0 <= x < w -> 0 <= y < h -> grid_get flat i [y; x] = Some (f x y).
Proof using. intros (_ & _ & H). apply H. Qed.

(** Membership in a list of pixels. *)
Definition has (l : list (Z * Z)) (x y : Z) : bool := existsb (fun p => (fst p =? x) && (snd p =? y)) l.

Lemma has_in l x y : has l x y = true <-> In (x, y) l.
Proof using.
  unfold has. rewrite existsb_exists. split.
  - intros ([a b] & Hi & E). cbn in E. replace (x, y) with (a, b); [exact Hi|]. f_equal; lia.
  - intros Hi. exists (x, y). split; [exact Hi|]. cbn. lia.
Qed.

Lemma scan_in sx ex sy ey x y : In (x, y) (scan sx ex sy ey) <-> sx <= x < ex /\ sy <= y < ey.
Proof using.
  unfold scan. rewrite in_flat_map. split.
  - intros (y' & Hy & Hi). apply in_map_iff in Hi. destruct Hi as (x' & E & Hx). apply zrange_in in Hy, Hx. injection E as -> ->. auto.
  - intros [Hx Hy]. exists y. rewrite zrange_in, in_map_iff. split; [exact Hy|]. exists x. rewrite zrange_in. auto.
Qed.

Lemma fill_pixels col : forall l i f, picture w h i f -> (forall x y, In (x, y) l -> 0 <= x < w /\ 0 <= y < h) ->
  exists i', each (fun p i' => grid_set flat i' [snd p; fst p] col) l i = Some i' /\
    picture w h i' (fun x y => if has l x y then col else f x y).
Proof using Hw Hh.
  induction l as [|[x y] l IH]; intros i f Hp Hl; cbn [each].
  - exists i. split; [reflexivity|exact Hp].
  - destruct (Hl x y (or_introl eq_refl)) as [Hx Hy]. destruct (picture_set i f x y col Hp Hx Hy) as (i1 & E & P1). cbn [fst snd]. rewrite E. cbn [obind].
    destruct (IH i1 _ P1) as (i2 & E2 & P2); [intros; apply Hl; now right|]. exists i2. split; [exact E2|].
    eapply picture_ext; [exact P2|]. intros x' y' _ _. unfold dot. unfold has at 2. cbn [existsb fst snd]. fold (has l x' y').
    rewrite (Z.eqb_sym x x'), (Z.eqb_sym y y'). destruct (has l x' y'), ((x' =? x) && (y' =? y)); reflexivity.
Qed.

Lemma fill_box_spec ux uy bw bh col i f : picture w h i f ->
  exists i', fill_box ux uy bw bh col i = Some i' /\ picture w h i' (fun x y => if inside_rect ux uy bw bh x y then col else f x y).
Proof using Hw Hh.
  intros Hp. destruct (picture_dims i f Hp) as [Ew Eh]. unfold fill_box. rewrite Ew, Eh.
  destruct (fill_pixels col (scan (Z.max ux 0) (Z.min (ux + bw) w) (Z.max uy 0) (Z.min (uy + bh) h)) i f Hp) as (i' & E & P).
  { intros x y Hi. apply scan_in in Hi. lia. }
  exists i'. split; [exact E|]. eapply picture_ext; [exact P|]. intros x y Hx Hy. cbn beta.
  assert (Eb : has (scan (Z.max ux 0) (Z.min (ux + bw) w) (Z.max uy 0) (Z.min (uy + bh) h)) x y = inside_rect ux uy bw bh x y).
  { apply Bool.eq_true_iff_eq. rewrite has_in, scan_in. unfold inside_rect. lia. }
  now rewrite Eb.
Qed.
End Pictures.

(** ** copy *)

Section Copy.
Variables (sw sh w h : Z).
Hypothesis Hw : 0 < w.
Hypothesis Hh : 0 < h.

Lemma copy_ok sx sy src fs tx ty : picture sw sh src fs ->
  forall l tgt f, picture w h tgt f ->
  (forall x y, In (x, y) l -> in_rect w h (tx + x) (ty + y) = true -> in_rect sw sh (sx + x) (sy + y) = true) ->
  exists tgt', copy_pixels sx sy src tx ty l tgt = Drawn tgt' /\
    picture w h tgt' (fun x y => if has l (x - tx) (y - ty) then fs (x - tx + sx) (y - ty + sy) else f x y).
Proof using Hw Hh.
  intros Hs. induction l as [|[x y] l IH]; intros tgt f Ht Hl; cbn [copy_pixels].
  - exists tgt. split; [reflexivity|exact Ht].
  - destruct (picture_dims w h tgt f Ht) as [-> ->]. destruct (picture_dims sw sh src fs Hs) as [-> ->].
    destruct (in_rect w h (tx + x) (ty + y)) eqn:Et; cbn [negb].
    + rewrite (Hl x y (or_introl eq_refl) Et). cbn [negb]. pose proof (Hl x y (or_introl eq_refl) Et) as Es. unfold in_rect in Es, Et.
      rewrite (picture_get sw sh src fs (sx + x) (sy + y) Hs) by lia.
      destruct (picture_set w h Hw Hh tgt f (tx + x) (ty + y) (fs (sx + x) (sy + y)) Ht) as (t1 & -> & P1); [lia|lia|].
      destruct (IH t1 _ P1) as (t2 & E2 & P2); [intros; apply Hl; [now right|assumption]|]. exists t2. split; [exact E2|].
      eapply picture_ext; [exact P2|]. intros x' y' Hx' Hy'. cbn beta. unfold dot, has at 2. cbn [existsb fst snd]. fold (has l (x' - tx) (y' - ty)).
      destruct (has l (x' - tx) (y' - ty)); [now rewrite Bool.orb_true_r|]. rewrite Bool.orb_false_r.
      destruct (Z.eqb_spec x' (tx + x)), (Z.eqb_spec y' (ty + y)), (Z.eqb_spec x (x' - tx)), (Z.eqb_spec y (y' - ty)); cbn [andb]; try lia; try reflexivity.
      f_equal; lia.
    + destruct (IH tgt f Ht) as (t2 & E2 & P2); [intros; apply Hl; [now right|assumption]|]. exists t2. split; [exact E2|].
      eapply picture_ext; [exact P2|]. intros x' y' Hx' Hy'. cbn beta. unfold has at 2. cbn [existsb fst snd]. fold (has l (x' - tx) (y' - ty)).
      unfold in_rect in Et. replace ((x =? x' - tx) && (y =? y' - ty)) with false by lia. reflexivity.
Qed.

Lemma copy_fails sx sy src fs tx ty : picture sw sh src fs -> forall l tgt f, picture w h tgt f ->
  (exists x y, In (x, y) l /\ in_rect w h (tx + x) (ty + y) = true /\ in_rect sw sh (sx + x) (sy + y) = false) ->
  copy_pixels sx sy src tx ty l tgt = InvalidArgument.
Proof using Hw Hh.
  intros Hs. induction l as [|[x y] l IH]; intros tgt f Ht (a & b & Hi & H1 & H2); [destruct Hi|]. cbn [copy_pixels].
  destruct (picture_dims w h tgt f Ht) as [-> ->]. destruct (picture_dims sw sh src fs Hs) as [-> ->].
  destruct (in_rect w h (tx + x) (ty + y)) eqn:Et; cbn [negb].
  - destruct (in_rect sw sh (sx + x) (sy + y)) eqn:Es; cbn [negb]; [|reflexivity]. pose proof Et as Et'. pose proof Es as Es'. unfold in_rect in Es', Et'.
    rewrite (picture_get sw sh src fs (sx + x) (sy + y) Hs) by lia.
    destruct (picture_set w h Hw Hh tgt f (tx + x) (ty + y) (fs (sx + x) (sy + y)) Ht) as (t1 & -> & P1); [lia|lia|].
    apply (IH t1 _ P1). destruct Hi as [E|Hi]; [injection E as <- <-; congruence|]. exists a, b. auto.
  - apply (IH tgt f Ht). destruct Hi as [E|Hi]; [injection E as <- <-; congruence|]. exists a, b. auto.
Qed.
End Copy.

(** ** Plotter *)

Lemma tile_of x o c k : 0 < c -> (k * c - o <= x < k * c - o + c <-> (x + o) / c = k).
Proof.
  intros Hc. pose proof (Z.div_mod (x + o) c ltac:(lia)) as Hd. pose proof (Z.mod_pos_bound (x + o) c Hc) as Hm. split.
  - intros Hx. symmetry. apply (Z.div_unique_pos (x + o) c k (x + o - c * k)); lia.
  - intros E. rewrite E in Hd. lia.
Qed.

Lemma ceil_div_spec a b k : 0 < b -> (k < ceil_div a b <-> k * b < a).
Proof.
  intros Hb. unfold ceil_div. pose proof (Z.div_mod (- a) b ltac:(lia)) as Hd. pose proof (Z.mod_pos_bound (- a) b Hb) as Hm.
  set (q := - a / b) in *. clearbody q. set (m := (- a) mod b) in *. clearbody m. split; intros; nia.
Qed.

Section Plot.
Context {C : Type} (paint : C -> option color) (w h cw ch : Z).
Hypothesis Hw : 0 < w.
Hypothesis Hh : 0 < h.
Hypothesis Hcw : 0 < cw.
Hypothesis Hch : 0 < ch.

Lemma plot_cells g ox oy (k : Z -> Z -> color) : forall l i f, picture w h i f ->
  (forall x y, In (x, y) l -> exists cell, v_get g [y; x] = Some cell /\ paint cell = Some (k x y)) ->
  exists i', each (fun p i' => obind (v_get g [snd p; fst p]) (fun cell => plot_cell paint cell (fst p * cw - ox) (snd p * ch - oy) cw ch i')) l i = Some i' /\
    picture w h i' (fun x y => if has l ((x + ox) / cw) ((y + oy) / ch) then k ((x + ox) / cw) ((y + oy) / ch) else f x y).
Proof using Hw Hh Hcw Hch.
  induction l as [|[x y] l IH]; intros i f Hp Hl; cbn [each].
  - exists i. split; [reflexivity|exact Hp].
  - destruct (Hl x y (or_introl eq_refl)) as (cell & E1 & E2). cbn [fst snd]. rewrite E1. cbn [obind]. unfold plot_cell. rewrite E2. cbn [obind].
    destruct (fill_box_spec w h Hw Hh (x * cw - ox + 0) (y * ch - oy + 0) cw ch (k x y) i f Hp) as (i1 & E3 & P1). fold (plot_cell paint). rewrite E3. cbn [obind].
    destruct (IH i1 _ P1) as (i2 & E4 & P2); [intros; apply Hl; now right|]. exists i2. split; [exact E4|].
    eapply picture_ext; [exact P2|]. intros x' y' Hx' Hy'. cbn beta. unfold has at 2. cbn [existsb fst snd]. fold (has l ((x' + ox) / cw) ((y' + oy) / ch)).
    destruct (has l ((x' + ox) / cw) ((y' + oy) / ch)); [now rewrite Bool.orb_true_r|]. rewrite Bool.orb_false_r.
    pose proof (tile_of x' ox cw x Hcw) as Tx. pose proof (tile_of y' oy ch y Hch) as Ty. set (qx := (x' + ox) / cw) in *. set (qy := (y' + oy) / ch) in *. clearbody qx qy.
    replace (inside_rect (x * cw - ox + 0) (y * ch - oy + 0) cw ch x' y') with ((x =? qx) && (y =? qy)).
    + destruct (Z.eqb_spec x qx), (Z.eqb_spec y qy); cbn [andb]; try reflexivity. now subst.
    + apply Bool.eq_true_iff_eq. unfold inside_rect. rewrite !Bool.andb_true_iff, !Z.leb_le, !Z.ltb_lt, !Z.eqb_eq. lia.
Qed.
End Plot.

(** ** Numbers and files *)

Lemma read_stop acc l : (forall b l', l = b :: l' -> ~ 48 <= b <= 57) -> read_number acc l = (acc, l).
Proof. destruct l as [|b l]; intros H; [reflexivity|]. cbn [read_number]. specialize (H b l eq_refl). replace ((48 <=? b) && (b <=? 57)) with false by lia. reflexivity. Qed.

Lemma digits_S f n : digits (S f) n = (if n <? 10 then [] else digits f (n / 10)) ++ [48 + n mod 10].
Proof. reflexivity. Qed.

Lemma log2_div10 n : 10 <= n -> Z.log2 (n / 10) < Z.log2 n.
Proof.
  intros Hn. assert (H1 : 0 < n / 10) by (apply Z.div_str_pos; lia). pose proof (Z.log2_double (n / 10) H1) as H2.
  assert (H3 : 2 * (n / 10) <= n) by (pose proof (Z.mul_div_le n 10 ltac:(lia)); lia). pose proof (Z.log2_le_mono _ _ H3). lia.
Qed.

Lemma digits_spec : forall f n, 0 <= n -> (Z.to_nat (Z.log2 n) < f)%nat ->
  Forall (fun b => 48 <= b <= 57) (digits f n) /\ digits f n <> [] /\
  forall l, exists p, 0 <= p /\ forall acc, read_number acc (digits f n ++ l) = read_number (acc * 10 ^ p + n) l.
Proof.
  induction f as [|f IH]; intros n Hn Hf; [lia|]. rewrite digits_S. pose proof (Z.mod_pos_bound n 10 ltac:(lia)) as Hm. pose proof (Z.div_mod n 10 ltac:(lia)) as Hd.
  destruct (Z.ltb_spec n 10) as [Hs|Hs].
  - rewrite Z.mod_small in * by lia. cbn [app]. split; [repeat constructor; lia|]. split; [discriminate|]. intros l. exists 1. split; [lia|]. intros a.
    cbn [read_number]. replace ((48 <=? 48 + n) && (48 + n <=? 57)) with true by lia. f_equal. lia.
  - assert (Hq : 0 <= n / 10) by (apply Z.div_pos; lia). pose proof (log2_div10 n Hs) as Hlog. destruct (IH (n / 10) Hq) as (H1 & H2 & H3).
    { pose proof (Z.log2_nonneg (n / 10)). lia. }
    split; [apply Forall_app; split; [exact H1|repeat constructor; lia]|]. split; [now destruct (digits f (n / 10))|]. intros l.
    destruct (H3 ((48 + n mod 10) :: l)) as (p & Hp & H4). exists (p + 1). split; [lia|]. intros a. rewrite <- app_assoc. cbn [app]. rewrite H4.
    set (q := n / 10) in *. set (m := n mod 10) in *. clearbody q m. cbn [read_number]. replace ((48 <=? 48 + m) && (48 + m <=? 57)) with true by lia. f_equal.
    rewrite Z.pow_add_r by lia. nia.
Qed.

Lemma dec_digits n : 0 <= n -> Forall (fun b => 48 <= b <= 57) (dec n) /\ dec n <> [].
Proof.
  intros Hn. unfold dec. replace (n <? 0) with false by lia. rewrite Z.abs_eq by lia. cbn [app].
  destruct (digits_spec (S (Z.to_nat (Z.log2 n))) n Hn ltac:(lia)) as (H1 & H2 & _). auto.
Qed.

Lemma read_dec n l : 0 <= n -> (forall b l', l = b :: l' -> ~ 48 <= b <= 57) -> read_number 0 (dec n ++ l) = (n, l).
Proof.
  intros Hn Hl. unfold dec. replace (n <? 0) with false by lia. rewrite Z.abs_eq by lia. cbn [app].
  destruct (digits_spec (S (Z.to_nat (Z.log2 n))) n Hn ltac:(lia)) as (_ & _ & H3). destruct (H3 l) as (p & Hp & H4). rewrite H4. now rewrite read_stop by exact Hl.
Qed.

Lemma read_zeros k l : read_number 0 (repeat 48 k ++ l) = read_number 0 l.
Proof. induction k as [|k IH]; [reflexivity|]. cbn [repeat app read_number]. exact IH. Qed.

Lemma pixels_bytes w h i f : picture w h i f -> forall l, (forall x y, In (x, y) l -> 0 <= x < w /\ 0 <= y < h) ->
  exists bs, ppm_pixels i l = Some bs /\
    read_pixels (length l) bs = Some (map (fun p => (red (f (fst p) (snd p)), green (f (fst p) (snd p)), blue (f (fst p) (snd p)))) l).
Proof.
  intros Hp. induction l as [|[x y] l IH]; intros Hl; cbn [ppm_pixels].
  - exists []. split; reflexivity.
  - destruct (Hl x y (or_introl eq_refl)) as [Hx Hy]. rewrite (picture_get w h i f x y Hp Hx Hy). cbn [obind].
    destruct IH as (bs & -> & E); [intros; apply Hl; now right|]. cbn [option_map]. eexists. split; [reflexivity|]. cbn [length read_pixels]. rewrite E. reflexivity.
Qed.

Lemma zrange_length a b : length (zrange a b) = Z.to_nat (b - a).
Proof. unfold zrange. now rewrite map_length, seq_length. Qed.

Lemma scan_length w h : 0 <= w -> 0 <= h -> length (scan 0 w 0 h) = Z.to_nat (w * h).
Proof.
  intros Hw Hh. unfold scan. assert (H : forall l : list Z, length (flat_map (fun y => map (fun x => (x, y)) (zrange 0 w)) l) = (length l * Z.to_nat w)%nat).
  { induction l as [|y l IH]; [reflexivity|]. cbn [flat_map]. rewrite app_length, map_length, zrange_length, IH. cbn [length]. rewrite Z.sub_0_r. lia. }
  rewrite H, zrange_length, Z.sub_0_r. rewrite Z2Nat.inj_mul by lia. lia.
Qed.

Lemma scan_rows {X} w h (f : Z -> Z -> X) : map (fun p => f (fst p) (snd p)) (scan 0 w 0 h) = rows w h f.
Proof.
  unfold scan, rows. induction (zrange 0 h) as [|y l IH]; [reflexivity|]. cbn [flat_map]. rewrite map_app, IH, map_map. reflexivity.
Qed.

Lemma ppm_file_spec w h i f : 0 < w -> 0 < h -> picture w h i f ->
  exists bs, ppm_file i = Some bs /\ read_ppm bs = Some (w, h, rows w h (fun x y => (red (f x y), green (f x y), blue (f x y)))).
Proof.
  intros Hw Hh Hp. unfold ppm_file. destruct (picture_dims w h i f Hp) as [-> ->].
  destruct (pixels_bytes w h i f Hp (scan 0 w 0 h)) as (bs & -> & E); [intros x y Hi; now apply scan_in in Hi|]. cbn [option_map]. eexists. split; [reflexivity|].
  unfold ppm_header. cbn [app]. unfold read_ppm. rewrite <- !app_assoc. cbn [app].
  rewrite read_dec; [|lia|intros b l' Eb; injection Eb as <- _; lia]. rewrite <- !app_assoc. cbn [app].
  rewrite read_dec; [|lia|intros b l' Eb; injection Eb as <- _; lia]. cbn [read_number Z.leb Z.compare Pos.compare Pos.compare_cont andb].
  rewrite scan_length in E by lia. rewrite scan_rows with (f := fun x y => (red (f x y), green (f x y), blue (f x y))) in E.
  cbn. rewrite E. reflexivity.
Qed.
