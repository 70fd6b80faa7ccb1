(** Facts on files. *)
From Coq Require Import Sorted Permutation.
From Verif Require Import Base ListFacts RegionSpec RegionModel RegionRep RegionOpsModel RegionIterModel RegionStreaks CoordModel CoordSpec CoordFacts TopologyFacts GridModel GridFacts PatchModel HaloSpec SellFacts FileModel.

Section Bytes.
Context {B : Type}.

(** A write whose bytes are those of [img] at the same place. *)
Definition fits (img : list B) (w : file_write (B := B)) : Prop :=
  exists p q, img = p ++ snd w ++ q /\ Z.of_nat (length p) = fst w.

Definition covers (w : file_write (B := B)) (k : Z) : Prop := fst w <= k < fst w + Z.of_nat (length (snd w)).

Lemma fits_nth img w k : fits img w -> covers w k -> nth_error (snd w) (Z.to_nat (k - fst w)) = nth_error img (Z.to_nat k).
Proof.
  intros (p & q & -> & Hp) Hc. unfold covers in Hc. rewrite nth_error_app2 by lia. rewrite nth_error_app1 by lia. f_equal. lia.
Qed.

Lemma write_at_spec (f : file (B := B)) w k : write_at f w k = if (fst w <=? k) && (k <? fst w + Z.of_nat (length (snd w))) then nth_error (snd w) (Z.to_nat (k - fst w)) else f k.
Proof. reflexivity. Qed.

Lemma run_writes_spec img ws : Forall (fits img) ws -> forall f k,
  ((exists w, In w ws /\ covers w k) \/ f k = nth_error img (Z.to_nat k)) -> run_writes f ws k = nth_error img (Z.to_nat k).
Proof.
  induction 1 as [|w ws Hw Hs IH]; intros f k Hk.
  - destruct Hk as [(w & [] & _)|Hk]. exact Hk.
  - cbn [run_writes fold_left]. apply IH. rewrite write_at_spec.
    destruct ((fst w <=? k) && (k <? fst w + Z.of_nat (length (snd w)))) eqn:E.
    + right. apply fits_nth; [exact Hw|]. apply andb_prop in E. unfold covers. lia.
    + destruct Hk as [(w' & [<-|Hi] & Hc)|Hk]; [|left; eauto|now right].
      exfalso. unfold covers in Hc. apply andb_false_iff in E. lia.
Qed.

Lemma read_at_spec (f : file (B := B)) (img m : list B) : forall p q, img = p ++ m ++ q ->
  (forall k, Z.of_nat (length p) <= k < Z.of_nat (length p) + Z.of_nat (length m) -> f k = nth_error img (Z.to_nat k)) ->
  read_at f (Z.of_nat (length p)) (length m) = Some m.
Proof.
  induction m as [|b m IH]; intros p q E H; [reflexivity|]. cbn [length read_at].
  rewrite H by (cbn [length]; lia). rewrite E at 1. rewrite Nat2Z.id, nth_error_app2, Nat.sub_diag by lia. cbn [app nth_error obind].
  replace (Z.of_nat (length p) + 1) with (Z.of_nat (length (p ++ [b]))) by (rewrite app_length; cbn; lia).
  rewrite (IH (p ++ [b]) q); [reflexivity| |].
  - rewrite E, <- app_assoc. reflexivity.
  - intros k Hk. rewrite app_length in Hk. cbn [length] in Hk. apply H. cbn [length]. lia.
Qed.

(** A datatype without gaps. *)
Definition packs {A} (T : dtype B A) (ok : A -> Prop) : Prop :=
  0 < dt_size T /\ (forall a, ok a -> Z.of_nat (length (dt_pack T a)) = dt_size T /\ dt_unpack T (dt_pack T a) = a).

Lemma read_item_spec {A} (T : dtype B A) ok (f : file) img a p q : packs T ok -> ok a -> img = p ++ dt_pack T a ++ q ->
  (forall k, Z.of_nat (length p) <= k < Z.of_nat (length p) + dt_size T -> f k = nth_error img (Z.to_nat k)) ->
  read_item T f (Z.of_nat (length p)) = Some a.
Proof.
  intros [Hs Hp] Ha E H. destruct (Hp a Ha) as [Hl Hu]. unfold read_item. rewrite <- Hl, Nat2Z.id.
  rewrite (read_at_spec f img (dt_pack T a) p q E); [cbn; now rewrite Hu|]. intros k Hk. apply H. lia.
Qed.

Lemma flat_length {A} (T : dtype B A) l : packs T (fun _ => True) -> Z.of_nat (length (flat_map (dt_pack T) l)) = Z.of_nat (length l) * dt_size T.
Proof.
  intros [Hs Hp]. induction l as [|a l IH]; [reflexivity|]. cbn [flat_map]. rewrite app_length. destruct (Hp a I) as [Hl _]. cbn [length]. lia.
Qed.

Lemma read_items_spec {A} (T : dtype B A) (f : file) img l : packs T (fun _ => True) -> forall p q, img = p ++ flat_map (dt_pack T) l ++ q ->
  (forall k, Z.of_nat (length p) <= k < Z.of_nat (length p) + Z.of_nat (length l) * dt_size T -> f k = nth_error img (Z.to_nat k)) ->
  read_items T f (Z.of_nat (length p)) (length l) = Some l.
Proof.
  intros HT. pose proof HT as [Hs Hp]. induction l as [|a l IH]; intros p q E H; [reflexivity|]. cbn [length read_items].
  destruct (Hp a I) as [Hl Hu]. cbn [flat_map] in E. rewrite <- app_assoc in E. cbn [length] in H.
  assert (E1 : read_at f (Z.of_nat (length p)) (Z.to_nat (dt_size T)) = Some (dt_pack T a)).
  { rewrite <- Hl, Nat2Z.id. apply (read_at_spec f img _ p (flat_map (dt_pack T) l ++ q)); [exact E|]. intros k Hk. apply H. lia. }
  rewrite E1. cbn [obind]. replace (Z.of_nat (length p) + dt_size T) with (Z.of_nat (length (p ++ dt_pack T a))) by (rewrite app_length; lia).
  rewrite (IH (p ++ dt_pack T a) q); [cbn; now rewrite Hu| |].
  - now rewrite E, <- app_assoc.
  - intros k Hk. rewrite app_length in Hk. apply H. lia.
Qed.
End Bytes.

(** ** Cells in linear order *)

Definition in_order {A} (dims : coord) (g : coord -> A) : list A := map (fun i => g (from_index dims i)) (zrange 0 (prod dims)).

Lemma zrange_shift o a b : zrange (o + a) (o + b) = map (fun x => o + x) (zrange a b).
Proof. unfold zrange. rewrite map_map. replace (o + b - (o + a)) with (b - a) by lia. apply map_ext. intros. lia. Qed.

Lemma in_grid_snoc dp n pre x : in_grid (dp ++ [n]) (pre ++ [x]) -> length pre = length dp -> in_grid dp pre /\ 0 <= x < n.
Proof.
  revert pre. induction dp as [|m dp IH]; intros [|y pre] H Hl; try discriminate.
  - cbn [app] in H. apply in_grid_cons in H. split; [exact I|exact (proj1 H)].
  - cbn [app] in H. apply in_grid_cons in H. destruct H as [Hy H]. destruct (IH pre H ltac:(now injection Hl)) as [H1 H2].
    split; [apply in_grid_cons; auto|exact H2].
Qed.

Lemma allpos_snoc dp n : allpos (dp ++ [n]) -> allpos dp /\ 0 < n.
Proof. intros H. apply Forall_app in H. destruct H as [H1 H2]. split; [exact H1|now inversion H2]. Qed.

(** The cells of a streak are neighbours in this order. *)
Lemma streak_in_order {A} dims (g : coord -> A) s : allpos dims -> length (s_origin s) = length dims -> s_x s < s_e s ->
  (forall c, in_streak s c -> in_grid dims c) ->
  let i := to_index (s_origin s) dims in
  0 <= i /\ i + (s_e s - s_x s) <= prod dims /\
  in_order dims g = map (fun i => g (from_index dims i)) (zrange 0 i) ++ map g (streak_coords s) ++
    map (fun i => g (from_index dims i)) (zrange (i + (s_e s - s_x s)) (prod dims)).
Proof.
  intros Hd Hl Hx Hin i.
  assert (Hls : length dims = S (length (s_pre s))) by (unfold s_origin in Hl; rewrite app_length in Hl; cbn in Hl; lia).
  destruct (coord_split dims (length (s_pre s)) Hls) as (dp & n & -> & Hdp). destruct (allpos_snoc dp n Hd) as [Hdp' Hn].
  assert (Hci : forall x, s_x s <= x < s_e s -> in_grid (dp ++ [n]) (s_pre s ++ [x])) by (intros x Hr; apply Hin, in_streak_snoc; auto).
  assert (Ei : forall x, to_index (s_pre s ++ [x]) (dp ++ [n]) = to_index (s_pre s) dp * n + x) by (intros; apply to_index_snoc; auto).
  unfold i, s_origin. rewrite Ei. set (o := to_index (s_pre s) dp * n) in *.
  pose proof (to_index_bound _ Hd _ (Hci (s_x s) ltac:(lia))) as B1. rewrite Ei in B1.
  pose proof (to_index_bound _ Hd _ (Hci (s_e s - 1) ltac:(lia))) as B2. rewrite Ei in B2.
  split; [lia|]. split; [lia|]. unfold in_order.
  rewrite (zrange_app 0 (o + s_x s) (prod (dp ++ [n]))) by lia.
  rewrite (zrange_app (o + s_x s) (o + s_x s + (s_e s - s_x s)) (prod (dp ++ [n]))) by lia. rewrite !map_app. f_equal. f_equal.
  replace (o + s_x s + (s_e s - s_x s)) with (o + s_e s) by lia. rewrite zrange_shift, map_map. unfold streak_coords. rewrite map_map.
  apply map_ext_in. intros x Hxx. apply zrange_in in Hxx. f_equal. rewrite <- Ei. apply from_to; [exact Hd|]. now apply Hci.
Qed.

Lemma normalize_inside t dims c : length t = length dims -> in_grid dims c -> normalize t c dims = c.
Proof.
  intros Hl Hc. unfold normalize. assert (Ho : out_of_bounds t c dims = false /\ normalize_edges c dims = c).
  { revert t c Hl Hc. induction dims as [|n dims IH]; intros [|w t] [|x c] Hl Hc; try discriminate; try (now destruct Hc); try (split; reflexivity).
    apply in_grid_cons in Hc. destruct Hc as [Hx Hc]. destruct (IH t c ltac:(now injection Hl) Hc) as [H1 H2].
    cbn [out_of_bounds normalize_edges]. rewrite H1, H2. unfold wrap. destruct (Z.ltb_spec x 0); [lia|]. destruct (Z.leb_spec n x); [lia|].
    split; [now destruct w|reflexivity]. }
  destruct Ho as [-> ->]. reflexivity.
Qed.

(** All coordinates of a grid, in lexicographic order. *)
Definition grid_list (dims : coord) (l : list coord) : Prop := StronglySorted coord_lt l /\ forall c, In c l <-> in_grid dims c.

Lemma sorted_unique l : forall l', StronglySorted coord_lt l -> StronglySorted coord_lt l' -> (forall c, In c l <-> In c l') -> l = l'.
Proof.
  induction l as [|a l IH]; intros l' Hs Hs' Hi.
  - destruct l' as [|b l']; [reflexivity|]. exfalso. apply (Hi b). now left.
  - destruct l' as [|b l']; [exfalso; apply (Hi a); now left|]. inversion Hs as [|? ? Hs1 Ha]; inversion Hs' as [|? ? Hs2 Hb]; subst.
    rewrite Forall_forall in Ha, Hb.
    assert (Eab : a = b).
    { destruct (proj1 (Hi a) (or_introl eq_refl)) as [E|E]; [now symmetry|]. destruct (proj2 (Hi b) (or_introl eq_refl)) as [E'|E']; [exact E'|].
      exfalso. apply (coord_lt_irrefl a). apply coord_lt_trans with b; auto. }
    subst b. f_equal. apply IH; auto. intros c. specialize (Hi c). cbn [In] in Hi. split; intros Hc.
    + destruct (proj1 Hi (or_intror Hc)) as [<-|H]; [exfalso; apply (coord_lt_irrefl a); auto|exact H].
    + destruct (proj2 Hi (or_intror Hc)) as [<-|H]; [exfalso; apply (coord_lt_irrefl a); auto|exact H].
Qed.

Lemma sorted_map_in {A B} (f : A -> B) (R : A -> A -> Prop) (Q : B -> B -> Prop) l :
  (forall a b, In a l -> In b l -> R a b -> Q (f a) (f b)) -> StronglySorted R l -> StronglySorted Q (map f l).
Proof.
  intros H. induction 1 as [|a l Hs IH Ha]; cbn [map]; constructor.
  - apply IH. intros; apply H; auto; now right.
  - apply Forall_forall. intros y Hy. apply in_map_iff in Hy. destruct Hy as (b & <- & Hb). rewrite Forall_forall in Ha. apply H; [now left|now right|auto].
Qed.

Lemma grid_list_from dims : allpos dims -> grid_list dims (map (from_index dims) (zrange 0 (prod dims))).
Proof.
  intros Hd. split.
  - apply (sorted_map_in _ Z.lt); [|apply zrange_sorted]. intros a b Ha Hb H. apply zrange_in in Ha. apply zrange_in in Hb. apply from_index_mono; auto; lia.
  - intros c. rewrite in_map_iff. split.
    + intros (i & <- & Hi). apply zrange_in in Hi. now apply from_index_in.
    + intros Hc. exists (to_index c dims). split; [now apply from_to|]. apply zrange_in. now apply to_index_bound.
Qed.

Lemma in_order_list {A} dims (g : coord -> A) l : allpos dims -> grid_list dims l -> in_order dims g = map g l.
Proof.
  intros Hd [Hs Hi]. destruct (grid_list_from dims Hd) as [Hs' Hi']. unfold in_order. rewrite <- (map_map (from_index dims) g). f_equal.
  apply sorted_unique; auto. intros c. rewrite Hi, Hi'. reflexivity.
Qed.

Section Calls.
Context {B A : Type} (TC : dtype B coord) (TU : dtype B Z) (T : dtype B A) (t : topology) (okU : Z -> Prop).
Context (d : nat) (dims : coord) (step maxs : Z) (edge : A) (g : coord -> A).
Context (HT : packs T (fun _ => True)) (HC : packs TC (fun c => length c = S d)) (HU : packs TU okU).
Context (XT : dt_ext T = dt_size T) (XC : dt_ext TC = dt_size TC) (XU : dt_ext TU = dt_size TU).
Context (Hd : allpos dims) (Hld : length dims = S d) (Hlt : length t = S d) (Hst : okU step) (Hmx : okU maxs).

Definition head : list B := dt_pack TC dims ++ dt_pack TU step ++ dt_pack TU maxs ++ dt_pack T edge.
Definition image : list B := head ++ flat_map (dt_pack T) (in_order dims g).

(** A call writes cells of the grid [g]. *)
Definition call_ok (k : wcall (A := A)) : Prop :=
  rvalid d (w_region k) /\ (forall c, inr d (w_region k) c -> in_grid dims c /\ w_get k c = g c) /\ (w_rank k = 0 -> w_edge k = edge).

Let lC : Z.of_nat (length (dt_pack TC dims)) = dt_size TC := proj1 (proj2 HC dims Hld).
Let lS : Z.of_nat (length (dt_pack TU step)) = dt_size TU := proj1 (proj2 HU step Hst).
Let lM : Z.of_nat (length (dt_pack TU maxs)) = dt_size TU := proj1 (proj2 HU maxs Hmx).
Let lE : Z.of_nat (length (dt_pack T edge)) = dt_size T := proj1 (proj2 HT edge I).

Lemma head_length : Z.of_nat (length head) = header_length TC TU T.
Proof. unfold head, header_length. rewrite !app_length. lia. Qed.

Lemma header_fits : Forall (fits image) (header_writes TC TU T dims step maxs edge).
Proof.
  unfold header_writes, image, head. set (tl := flat_map (dt_pack T) (in_order dims g)).
  repeat apply Forall_cons; [| | | |constructor]; unfold fits; cbn [fst snd].
  - exists [], ((dt_pack TU step ++ dt_pack TU maxs ++ dt_pack T edge) ++ tl). split; [now rewrite <- !app_assoc|reflexivity].
  - exists (dt_pack TC dims), ((dt_pack TU maxs ++ dt_pack T edge) ++ tl). split; [now rewrite <- !app_assoc|lia].
  - exists (dt_pack TC dims ++ dt_pack TU step), (dt_pack T edge ++ tl). split; [now rewrite <- !app_assoc|rewrite app_length; lia].
  - exists (dt_pack TC dims ++ dt_pack TU step ++ dt_pack TU maxs), tl. split; [now rewrite <- !app_assoc|rewrite !app_length; lia].
Qed.

Lemma header_covers k : 0 <= k < header_length TC TU T -> exists w, In w (header_writes TC TU T dims step maxs edge) /\ covers w k.
Proof.
  intros Hk. unfold header_length in Hk. rewrite XT, XC, XU in Hk. unfold header_writes, covers.
  destruct (Z_lt_le_dec k (dt_size TC)); [eexists; split; [now left|cbn [fst snd]; lia]|].
  destruct (Z_lt_le_dec k (dt_size TC + dt_size TU)); [eexists; split; [right; now left|cbn [fst snd]; lia]|].
  destruct (Z_lt_le_dec k (dt_size TC + 2 * dt_size TU)); [eexists; split; [do 2 right; now left|cbn [fst snd]; lia]|].
  eexists; split; [do 3 right; now left|cbn [fst snd]; lia].
Qed.

(** Where the cells of a streak are found. *)
Lemma streak_place s : length (s_origin s) = S d -> s_x s < s_e s -> (forall c, in_streak s c -> in_grid dims c) ->
  exists p q, image = p ++ flat_map (dt_pack T) (map g (streak_coords s)) ++ q /\
    Z.of_nat (length p) = cell_offset TC TU T (normalize t (s_origin s) dims) dims.
Proof.
  intros Hl Hx Hin. destruct (streak_in_order dims g s Hd ltac:(lia) Hx Hin) as (H0 & H1 & E).
  rewrite normalize_inside; [|lia|apply Hin; unfold s_origin; apply in_streak_snoc; split; [reflexivity|lia]].
  unfold image. rewrite E. rewrite !flat_map_app. eexists (head ++ _), _. split; [rewrite <- app_assoc; reflexivity|].
  rewrite app_length, Nat2Z.inj_add, head_length, flat_length by exact HT. rewrite map_length, zrange_length. unfold cell_offset. rewrite XT.
  rewrite Z.sub_0_r, Z2Nat.id by exact H0. reflexivity.
Qed.

Lemma streak_write_fits k s ss : call_ok k -> reg_streaks (w_region k) = Some ss -> In s ss -> fits image (streak_write TC TU T t dims (w_get k) s).
Proof.
  intros (Hv & Hg & _) Es Hs. destruct (streaks_valid d _ Hv) as (l & Hok & Hin & El & _). rewrite Es in El. injection El as <-.
  destruct Hok as [_ Hf]. rewrite Forall_forall in Hf. destruct (Hf s Hs) as [Hp Hx].
  assert (Hc : forall c, in_streak s c -> inr d (w_region k) c).
  { intros c Hc. assert (Hl : length c = S d) by (destruct Hc as (x & -> & _); rewrite app_length; cbn; lia). split; [exact Hl|]. apply Hin; [exact Hl|]. exists s. auto. }
  destruct (streak_place s) as (p & q & E & Hpl).
  { unfold s_origin. rewrite app_length. cbn. lia. } { exact Hx. } { intros c Hi. now apply Hg, Hc. }
  exists p, q. unfold streak_write. cbn [fst snd]. split; [|exact Hpl].
  replace (map (w_get k) (streak_coords s)) with (map g (streak_coords s)); [exact E|]. apply map_ext_in. intros c Hi. apply streak_coords_in in Hi. symmetry. now apply Hg, Hc.
Qed.

Lemma streak_write_covers k s c o : length (s_origin s) = S d -> s_x s < s_e s -> (forall c, in_streak s c -> in_grid dims c) ->
  in_streak s c -> 0 <= o < dt_size T -> covers (streak_write TC TU T t dims k s) (header_length TC TU T + to_index c dims * dt_size T + o).
Proof.
  intros Hl Hx Hin Hc Ho. unfold covers, streak_write. cbn [fst snd]. unfold cell_offset. rewrite XT, flat_length by exact HT. rewrite map_length.
  rewrite normalize_inside; [|lia|apply Hin; unfold s_origin; apply in_streak_snoc; split; [reflexivity|lia]].
  assert (Hls : length dims = S (length (s_pre s))) by (unfold s_origin in Hl; rewrite app_length in Hl; cbn in Hl; lia).
  destruct (coord_split dims (length (s_pre s)) Hls) as (dp & n & E & Hdp). destruct Hc as (x & -> & Hxx). unfold s_origin. rewrite E, !to_index_snoc by auto.
  unfold streak_coords. rewrite map_length, zrange_length, Z2Nat.id by lia.
  assert (x * dt_size T + o < s_e s * dt_size T) by nia. nia.
Qed.

Lemma all_writes ks : Forall call_ok ks -> exists ws, mpiio_writes TC TU T t dims step maxs ks = Some ws /\ Forall (fits image) ws /\
  (forall k, In k ks -> w_rank k = 0 -> forall i, 0 <= i < header_length TC TU T -> exists w, In w ws /\ covers w i) /\
  (forall k c o, In k ks -> inr d (w_region k) c -> 0 <= o < dt_size T -> exists w, In w ws /\ covers w (header_length TC TU T + to_index c dims * dt_size T + o)).
Proof.
  induction 1 as [|k ks Hk Hks IH].
  - exists []. repeat split; [constructor|intros k []|intros k c o []].
  - destruct IH as (ws & E & Hf & Hh & Hc). pose proof Hk as (Hv & Hg & He). destruct (streaks_valid d _ Hv) as (ss & Hok & Hin & Es & _).
    cbn [mpiio_writes]. unfold mpiio_write. rewrite Es. cbn [option_map obind]. rewrite E. cbn [option_map]. eexists. split; [reflexivity|].
    set (hw := if w_rank k =? 0 then header_writes TC TU T dims step maxs (w_edge k) else []).
    split; [|split].
    + apply Forall_app. split; [|exact Hf]. apply Forall_app. split.
      * unfold hw. destruct (Z.eqb_spec (w_rank k) 0) as [E0|]; [|constructor]. rewrite (He E0). apply header_fits.
      * apply Forall_forall. intros w Hw. apply in_map_iff in Hw. destruct Hw as (s & <- & Hs). now apply streak_write_fits with ss.
    + intros k' [<-|Hk'] E0 i Hi.
      * destruct (header_covers i Hi) as (w & Hw & Hcv). exists w. split; [|exact Hcv]. rewrite !in_app_iff. left. left. unfold hw.
        rewrite E0, Z.eqb_refl, (He E0). exact Hw.
      * destruct (Hh k' Hk' E0 i Hi) as (w & Hw & Hcv). exists w. split; [|exact Hcv]. apply in_or_app. now right.
    + intros k' c o [<-|Hk'] Hi Ho.
      * destruct Hi as [Hl Hi]. apply Hin in Hi; [|exact Hl]. destruct Hi as (s & Hs & Hi). destruct Hok as [_ Hfs]. rewrite Forall_forall in Hfs. destruct (Hfs s Hs) as [Hp Hx].
        exists (streak_write TC TU T t dims (w_get k) s). split; [rewrite !in_app_iff; left; right; apply in_map_iff; eauto|].
        apply streak_write_covers; auto; [unfold s_origin; rewrite app_length; cbn; lia|].
        intros c' Hc'. apply Hg. assert (Hl' : length c' = S d) by (destruct Hc' as (x & -> & _); rewrite app_length; cbn; lia). split; [exact Hl'|]. apply Hin; [exact Hl'|]. exists s. auto.
      * destruct (Hc k' c o Hk' Hi Ho) as (w & Hw & Hcv). exists w. split; [|exact Hcv]. apply in_or_app. now right.
Qed.

(** Reading, from a file which agrees with the image ... *)
Context (f : file (B := B)) (Hfh : forall i, 0 <= i < header_length TC TU T -> f i = nth_error image (Z.to_nat i)).

Lemma read_metadata_spec : read_metadata TC TU f = Some (dims, step, maxs).
Proof.
  unfold read_metadata. pose proof (proj1 HC) as P1. pose proof (proj1 HU) as P2. unfold header_length in Hfh. rewrite XT, XC, XU in Hfh.
  assert (P3 : 0 <= dt_size T) by lia.
  assert (E1 : read_item TC f 0 = Some dims).
  { apply (read_item_spec TC (fun c => length c = S d) f image dims [] ((dt_pack TU step ++ dt_pack TU maxs ++ dt_pack T edge) ++ flat_map (dt_pack T) (in_order dims g)) HC Hld).
    - unfold image, head. now rewrite <- !app_assoc.
    - cbn [length]. intros k Hk. apply Hfh. lia. }
  assert (E2 : read_item TU f (dt_size TC) = Some step).
  { rewrite <- lC. apply (read_item_spec TU okU f image step _ ((dt_pack TU maxs ++ dt_pack T edge) ++ flat_map (dt_pack T) (in_order dims g)) HU Hst).
    - unfold image, head. now rewrite <- !app_assoc.
    - intros k Hk. apply Hfh. lia. }
  assert (E3 : read_item TU f (dt_size TC + dt_size TU) = Some maxs).
  { replace (dt_size TC + dt_size TU) with (Z.of_nat (length (dt_pack TC dims ++ dt_pack TU step))) by (rewrite app_length; lia).
    apply (read_item_spec TU okU f image maxs _ (dt_pack T edge ++ flat_map (dt_pack T) (in_order dims g)) HU Hmx).
    - unfold image, head. now rewrite <- !app_assoc.
    - rewrite app_length. intros k Hk. apply Hfh. lia. }
  rewrite E1. cbn [obind]. rewrite E2. cbn [obind]. rewrite E3. reflexivity.
Qed.

(** ... at the cells in question. *)
Context (P : coord -> Prop).
Context (Hfc : forall c o, P c -> 0 <= o < dt_size T -> let i := header_length TC TU T + to_index c dims * dt_size T + o in f i = nth_error image (Z.to_nat i)).

Lemma read_streak_spec s : length (s_origin s) = S d -> s_x s < s_e s -> (forall c, in_streak s c -> in_grid dims c /\ P c) ->
  read_items T f (cell_offset TC TU T (normalize t (s_origin s) dims) dims) (Z.to_nat (s_e s - s_x s)) = Some (map g (streak_coords s)).
Proof.
  intros Hl Hx Hin. assert (Hin' : forall c, in_streak s c -> in_grid dims c) by (intros c Hc; apply Hin, Hc).
  destruct (streak_place s Hl Hx Hin') as (p & q & E & Hp). rewrite <- Hp.
  assert (Hn : Z.to_nat (s_e s - s_x s) = length (map g (streak_coords s))) by (unfold streak_coords; rewrite !map_length, zrange_length; reflexivity).
  rewrite Hn. apply (read_items_spec T f image _ HT p q E). intros k Hk. rewrite <- Hn in Hk. rewrite Z2Nat.id in Hk by lia.
  assert (Hls : length dims = S (length (s_pre s))) by (unfold s_origin in Hl; rewrite app_length in Hl; cbn in Hl; lia).
  destruct (coord_split dims (length (s_pre s)) Hls) as (dp & n & Ed & Hdp).
  assert (Ei : forall x, to_index (s_pre s ++ [x]) dims = to_index (s_pre s) dp * n + x) by (intros; rewrite Ed; apply to_index_snoc; auto).
  rewrite normalize_inside in Hp; [|lia|apply Hin'; unfold s_origin; apply in_streak_snoc; split; [reflexivity|lia]].
  unfold cell_offset, s_origin in Hp. rewrite XT, Ei in Hp. pose proof (proj1 HT) as Hs.
  set (j := k - Z.of_nat (length p)). pose proof (Z.div_mod j (dt_size T) ltac:(lia)) as Ej. pose proof (Z.mod_pos_bound j (dt_size T) Hs) as Bj.
  assert (Hj : 0 <= j / dt_size T < s_e s - s_x s) by (split; [apply Z.div_pos; lia|apply Z.div_lt_upper_bound; lia]).
  assert (Ek : k = header_length TC TU T + to_index (s_pre s ++ [s_x s + j / dt_size T]) dims * dt_size T + j mod dt_size T).
  { rewrite Ei. unfold j in *. clear - Hp Ej. set (q1 := (k - Z.of_nat (length p)) / dt_size T) in *. set (r1 := (k - Z.of_nat (length p)) mod dt_size T) in *. nia. }
  rewrite Ek. apply Hfc; [|exact Bj]. apply Hin. apply in_streak_snoc. split; [reflexivity|lia].
Qed.

Lemma read_region_spec r : rvalid d r -> (forall c, inr d r c -> in_grid dims c /\ P c) ->
  exists l, read_region TC TU T t f r = Some (edge, l) /\ (forall s cells, In (s, cells) l -> cells = map g (streak_coords s)) /\
    region_coords r = Some (flat_map (fun p => streak_coords (fst p)) l).
Proof.
  intros Hv Hr. destruct (streaks_valid d _ Hv) as (ss & Hok & Hin & Es & _).
  pose proof read_metadata_spec as Em. unfold read_metadata in Em. destruct (read_item TC f 0) as [dd|] eqn:E1; [|discriminate]. cbn [obind] in Em.
  assert (dd = dims). { destruct (read_item TU f (dt_size TC)) as [a|]; [|discriminate]. cbn [obind] in Em. destruct (read_item TU f (dt_size TC + dt_size TU)) as [b|]; [|discriminate]. cbn [obind] in Em. congruence. }
  subst dd. clear Em. unfold read_region. rewrite E1. cbn [obind].
  assert (E2 : read_item T f (header_length TC TU T - dt_ext T) = Some edge).
  { pose proof (proj1 HC) as P1. pose proof (proj1 HU) as P2. pose proof (proj1 HT) as P3. unfold header_length in *. rewrite XT, XC, XU in *.
    replace (dt_size TC + 2 * dt_size TU + dt_size T - dt_size T) with (Z.of_nat (length (dt_pack TC dims ++ dt_pack TU step ++ dt_pack TU maxs))) by (rewrite !app_length; lia).
    apply (read_item_spec T (fun _ => True) f image edge _ (flat_map (dt_pack T) (in_order dims g)) HT I).
    - unfold image, head. now rewrite <- !app_assoc.
    - rewrite !app_length. intros k Hk. apply Hfh. lia. }
  rewrite E2, Es. cbn [obind].
  assert (Hss : forall s, In s ss -> length (s_origin s) = S d /\ s_x s < s_e s /\ forall c, in_streak s c -> in_grid dims c /\ P c).
  { intros s Hs. destruct Hok as [_ Hf]. rewrite Forall_forall in Hf. destruct (Hf s Hs) as [Hp Hx]. split; [unfold s_origin; rewrite app_length; cbn; lia|]. split; [exact Hx|].
    intros c Hc. apply Hr. assert (Hl' : length c = S d) by (destruct Hc as (x & -> & _); rewrite app_length; cbn; lia). split; [exact Hl'|]. apply Hin; [exact Hl'|]. exists s. auto. }
  unfold region_coords. rewrite Es. clear Es Hok Hin Hv Hr. 
  assert (H : exists l, read_streaks TC TU T t f dims ss = Some l /\ (forall s cells, In (s, cells) l -> cells = map g (streak_coords s)) /\ map fst l = ss).
  { induction ss as [|s ss IH].
    - exists []. repeat split. intros s cells [].
    - destruct IH as (l & El & Hl & Em); [intros; apply Hss; now right|]. destruct (Hss s (or_introl eq_refl)) as (L1 & L2 & L3).
      cbn [read_streaks]. destruct (Z.ltb_spec (s_e s) (s_x s)); [lia|]. rewrite (read_streak_spec s L1 L2 L3). cbn [obind]. rewrite El. cbn [option_map].
      eexists. split; [reflexivity|]. split; [|cbn; now rewrite Em]. intros s' cells [E|Hi]; [now injection E as <- <-|now apply Hl]. }
  destruct H as (l & El & Hl & Em). rewrite El. exists l. split; [reflexivity|]. split; [exact Hl|]. rewrite <- Em. cbn [option_map]. f_equal.
  clear. induction l as [|p l IH]; [reflexivity|]. cbn. now rewrite IH.
Qed.
End Calls.

(** ** BOV *)
Section BovFacts.
Context {B A E : Type} (T : dtype B E) (t : topology) (m : A -> E) (d : nat) (dims : coord) (g : coord -> A).
Context (HT : packs T (fun _ => True)) (XT : dt_ext T = dt_size T) (Hd : allpos dims) (Hld : length dims = S d) (Hlt : length t = S d).

Definition bov_call_ok (k : wcall (A := A)) : Prop :=
  rvalid d (w_region k) /\ (forall c, inr d (w_region k) c -> in_grid dims c /\ w_get k c = g c).

Lemma flat_single {X Y} (f : X -> Y) l : flat_map (fun x => [f x]) l = map f l.
Proof. induction l as [|x l IH]; [reflexivity|]. cbn. now rewrite IH. Qed.

Lemma bov_buffer_single get s : firstn (Z.to_nat (s_e s - s_x s)) (bov_buffer (fun a => [m a]) get s) = map (fun c => m (get c)) (streak_coords s).
Proof.
  unfold bov_buffer. rewrite flat_single, map_map. apply firstn_all2. unfold streak_coords. rewrite !map_length, zrange_length. lia.
Qed.

Definition bov_image : list B := flat_map (dt_pack T) (in_order dims (fun c => m (g c))).

Lemma bov_write_facts k s : length (s_origin s) = S d -> s_x s < s_e s -> (forall c, in_streak s c -> in_grid dims c /\ w_get k c = g c) ->
  fits bov_image (bov_write T t 1 (fun a => [m a]) dims (w_get k) s) /\
  forall c o, in_streak s c -> 0 <= o < dt_size T -> covers (bov_write T t 1 (fun a => [m a]) dims (w_get k) s) (to_index c dims * dt_size T + o).
Proof.
  intros Hl Hx Hg. assert (Hin : forall c, in_streak s c -> in_grid dims c) by (intros c Hc; apply Hg, Hc).
  destruct (streak_in_order dims (fun c => m (g c)) s Hd ltac:(lia) Hx Hin) as (H0 & H1 & Eo).
  unfold bov_write. rewrite normalize_inside; [|lia|apply Hin; unfold s_origin; apply in_streak_snoc; split; [reflexivity|lia]].
  rewrite bov_buffer_single. replace (map (fun c => m (w_get k c)) (streak_coords s)) with (map (fun c => m (g c)) (streak_coords s))
    by (apply map_ext_in; intros c Hc; apply streak_coords_in in Hc; f_equal; symmetry; now apply Hg).
  rewrite XT. split.
  - unfold fits. cbn [fst snd]. unfold bov_image. rewrite Eo, !flat_map_app. eexists _, _. split; [reflexivity|].
    rewrite flat_length by exact HT. rewrite map_length, zrange_length, Z.sub_0_r, Z2Nat.id by exact H0. lia.
  - intros c o Hc Ho. unfold covers. cbn [fst snd]. rewrite flat_length by exact HT. rewrite map_length.
    assert (Hls : length dims = S (length (s_pre s))) by (unfold s_origin in Hl; rewrite app_length in Hl; cbn in Hl; lia).
    destruct (coord_split dims (length (s_pre s)) Hls) as (dp & n & Ed & Hdp). destruct Hc as (x & -> & Hxx). unfold s_origin. rewrite Ed, !to_index_snoc by auto.
    unfold streak_coords. rewrite map_length, zrange_length, Z2Nat.id by lia.
    assert (x * dt_size T + o < s_e s * dt_size T) by nia. nia.
Qed.

Lemma bov_all_writes ks : Forall bov_call_ok ks -> exists ws, bov_writes T t 1 (fun a => [m a]) dims ks = Some ws /\ Forall (fits bov_image) ws /\
  (forall k c o, In k ks -> inr d (w_region k) c -> 0 <= o < dt_size T -> exists w, In w ws /\ covers w (to_index c dims * dt_size T + o)).
Proof.
  induction 1 as [|k ks Hk Hks IH].
  - exists []. split; [reflexivity|]. split; [constructor|intros k c o []].
  - destruct IH as (ws & Ew & Hf & Hc). pose proof Hk as (Hv & Hg). destruct (streaks_valid d _ Hv) as (ss & Hok & Hin & Es & _).
    cbn [bov_writes]. rewrite Es. cbn [obind]. rewrite Ew. cbn [option_map]. eexists. split; [reflexivity|].
    assert (Hss : forall s, In s ss -> length (s_origin s) = S d /\ s_x s < s_e s /\ forall c, in_streak s c -> in_grid dims c /\ w_get k c = g c).
    { intros s Hs. destruct Hok as [_ Hfs]. rewrite Forall_forall in Hfs. destruct (Hfs s Hs) as [Hp Hx]. split; [unfold s_origin; rewrite app_length; cbn; lia|]. split; [exact Hx|].
      intros c Hc'. apply Hg. assert (Hl' : length c = S d) by (destruct Hc' as (x & -> & _); rewrite app_length; cbn; lia). split; [exact Hl'|]. apply Hin; [exact Hl'|]. exists s. auto. }
    split.
    + apply Forall_app. split; [|exact Hf]. apply Forall_forall. intros w Hw. apply in_map_iff in Hw. destruct Hw as (s & <- & Hs).
      destruct (Hss s Hs) as (L1 & L2 & L3). now apply bov_write_facts.
    + intros k' c o [<-|Hk'] Hi Ho.
      * destruct Hi as [Hl Hi]. apply Hin in Hi; [|exact Hl]. destruct Hi as (s & Hs & Hi). destruct (Hss s Hs) as (L1 & L2 & L3).
        eexists. split; [apply in_or_app; left; apply in_map_iff; eauto|]. now apply bov_write_facts.
      * destruct (Hc k' c o Hk' Hi Ho) as (w & Hw & Hcv). exists w. split; [|exact Hcv]. apply in_or_app. now right.
Qed.
End BovFacts.
