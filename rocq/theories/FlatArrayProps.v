(** Properties C246 and C247: soa_array. *)
From Verif Require Import Base ListFacts RegionSpec RegionStreaks RegionOpsModel CoordFacts GridModel GridFacts SoAModel FlatVectorProps FlatArrayModel FlatArraySpec.

Lemma each_app {A S} (f : A -> S -> option S) l1 : forall l2 s, each f (l1 ++ l2) s = obind (each f l1 s) (each f l2).
Proof. induction l1 as [|a l1 IH]; intros l2 s; [reflexivity|]. cbn [each app]. destruct (f a s) as [s'|]; [cbn [obind]; apply IH|reflexivity]. Qed.

Lemma each_map {A B S} (f : B -> S -> option S) (g : A -> B) l : forall s, each f (map g l) s = each (fun a => f (g a)) l s.
Proof. induction l as [|a l IH]; intros s; [reflexivity|]. cbn [each map]. destruct (f (g a) s) as [s'|]; [cbn [obind]; apply IH|reflexivity]. Qed.

Lemma each_prod {A B S} (f : A * B -> S -> option S) (la : list A) (lb : list B) : forall s, each (fun a => each (fun b => f (a, b)) lb) la s = each f (list_prod la lb) s.
Proof.
  induction la as [|a la IH]; intros s; [reflexivity|]. cbn [each list_prod]. rewrite each_app, each_map. destruct (each (fun b => f (a, b)) lb s) as [s'|]; [cbn [obind]; apply IH|reflexivity].
Qed.

Lemma each_ext {A S} (f g : A -> S -> option S) l : (forall a s, f a s = g a s) -> forall s, each f l s = each g l s.
Proof. intros H. induction l as [|a l IH]; intros s; [reflexivity|]. cbn [each]. rewrite H. destruct (g a s); [cbn [obind]; apply IH|reflexivity]. Qed.

(** Values which are written one by one *)
Lemma write_spec {K V} (f : K -> Z) (h : K -> option V) L : forall d,
  (forall k, In k L -> 0 <= f k < Z.of_nat (length d) /\ exists v, h k = Some v) -> (forall k k', In k L -> In k' L -> f k = f k' -> h k = h k') ->
  exists d', each (fun k d => obind (h k) (vec_set d (f k))) L d = Some d' /\ length d' = length d /\
  (forall k, In k L -> vec_get d' (f k) = h k) /\ (forall j, (forall k, In k L -> f k <> j) -> vec_get d' j = vec_get d j).
Proof.
  induction L as [|a L IH]; intros d H Hg; [exists d; repeat split; auto; intros ? []|].
  destruct (H a (or_introl eq_refl)) as (H1 & v & H2). destruct (vec_set_spec d (f a) v H1) as (d1 & E1 & L1 & G1).
  destruct (IH d1) as (d' & E & Ld & G & G'). { intros k Hk. rewrite L1. apply H. now right. } { intros k k' Hk Hk'. apply Hg; now right. }
  exists d'. cbn [each]. rewrite H2. cbn [obind]. rewrite E1. cbn [obind]. split; [exact E|]. split; [lia|]. split.
  - intros k [<-|Hk]; [|now apply G]. destruct (in_dec Z.eq_dec (f a) (map f L)) as [Hd|Hd].
    + apply in_map_iff in Hd. destruct Hd as (b & Eb & Hb). rewrite <- Eb, (G b Hb). apply Hg; [now right|now left|exact Eb].
    + rewrite G', G1, Z.eqb_refl; [now symmetry|]. intros b Hb Eb. apply Hd. apply in_map_iff. eauto.
  - intros j Hj. rewrite G' by (intros b Hb; apply Hj; now right). rewrite G1. destruct (Z.eqb_spec (f a) j); [|reflexivity]. exfalso. now apply (Hj a (or_introl eq_refl)).
Qed.

Lemma slot_inj size m i m' i' : 0 <= i < size -> 0 <= i' < size -> slot size m i = slot size m' i' -> m = m' /\ i = i'.
Proof. unfold slot. intros H H' E. assert (m = m') by nia. subst. lia. Qed.

Lemma slot_range members size m i : 0 <= m < members -> 0 <= i < size -> 0 <= slot size m i < members * size.
Proof. unfold slot. intros. nia. Qed.

(** All members of consecutive elements, in any order *)
Lemma block_spec {V} members size to num (h : Z * Z -> option V) L d :
  (forall m i, In (m, i) L <-> 0 <= m < members /\ 0 <= i < num) -> 0 <= to -> to + num <= size -> Z.of_nat (length d) = members * size ->
  (forall m i, 0 <= m < members -> 0 <= i < num -> exists v, h (m, i) = Some v) ->
  exists d', each (fun k d => obind (h k) (vec_set d (slot size (fst k) (to + snd k)))) L d = Some d' /\ length d' = length d /\
  forall m j, 0 <= m < members -> 0 <= j < size -> vec_get d' (slot size m j) = if (to <=? j) && (j <? to + num) then h (m, j - to) else vec_get d (slot size m j).
Proof.
  intros HL Ht Hn Hd Hh. destruct (write_spec (fun k => slot size (fst k) (to + snd k)) h L d) as (d' & E & Ld & G & G').
  - intros [m i] Hk. apply HL in Hk. destruct Hk as [Hm Hi]. cbn [fst snd]. split; [rewrite Hd; apply slot_range; lia|now apply Hh].
  - intros [m i] [m' i'] Hk Hk' E. apply HL in Hk, Hk'. cbn [fst snd] in *. apply slot_inj in E; [|lia|lia]. destruct E as [-> E]. replace i' with i by lia. reflexivity.
  - exists d'. split; [exact E|]. split; [exact Ld|]. intros m j Hm Hj. destruct (Z.leb_spec to j), (Z.ltb_spec j (to + num)); cbn [andb].
    1: { specialize (G (m, j - to)). cbn [fst snd] in G. replace (to + (j - to)) with j in G by lia. apply G. apply HL. lia. }
    all: apply G'; intros [m' i'] Hk E'; apply HL in Hk; cbn [fst snd] in E'; apply slot_inj in E'; lia.
Qed.

Lemma put_spec {V} members size i (c : cell V) d : 0 <= i < size -> Z.of_nat (length d) = members * size ->
  exists d', put members size i c d = Some d' /\ length d' = length d /\
  forall m j, 0 <= m < members -> 0 <= j < size -> vec_get d' (slot size m j) = if j =? i then Some (c m) else vec_get d (slot size m j).
Proof.
  intros Hi Hd. destruct (block_spec members size i 1 (fun k => Some (c (fst k))) (map (fun m => (m, 0)) (zrange 0 members)) d) as (d' & E & Ld & G).
  - intros m k. rewrite in_map_iff. split; [intros (m' & E & H); injection E as -> <-; apply zrange_in in H; lia|intros (H & H'); exists m; split; [f_equal; lia|apply zrange_in; lia]].
  - lia.
  - lia.
  - exact Hd.
  - eauto.
  - exists d'. rewrite each_map in E. split; [|split; [exact Ld|]].
    + unfold put. rewrite <- E. apply each_ext. intros m s. cbn [fst snd obind]. now rewrite Z.add_0_r.
    + intros m j Hm Hj. rewrite (G m j Hm Hj). destruct (Z.leb_spec i j), (Z.ltb_spec j (i + 1)), (Z.eqb_spec j i); try lia; reflexivity.
Qed.

Lemma transfer_spec {V} members (src : array V) from num size to d : 0 <= to -> to + num <= size -> Z.of_nat (length d) = members * size ->
  (forall i m, 0 <= i < num -> 0 <= m < members -> exists v, ar_get src (from + i) m = Some v) ->
  exists d', transfer members src from num size to d = Some d' /\ length d' = length d /\
  forall m j, 0 <= m < members -> 0 <= j < size -> vec_get d' (slot size m j) = if (to <=? j) && (j <? to + num) then ar_get src (from + (j - to)) m else vec_get d (slot size m j).
Proof.
  intros Ht Hn Hd Hg. destruct (block_spec members size to num (fun k => ar_get src (from + snd k) (fst k)) (list_prod (zrange 0 members) (zrange 0 num)) d) as (d' & E & Ld & G); auto.
  - intros m i. rewrite in_prod_iff, !zrange_in. reflexivity.
  - exists d'. split; [|split; auto]. unfold transfer. rewrite <- E. apply (each_prod (fun k d => obind (ar_get src (from + snd k) (fst k)) (vec_set d (slot size (fst k) (to + snd k))))).
Qed.

Lemma get_bounds {A} (l : list A) i v : vec_get l i = Some v -> 0 <= i < Z.of_nat (length l).
Proof. unfold vec_get. destruct (Z.ltb_spec i 0); [discriminate|]. intros H'. assert (nth_error l (Z.to_nat i) <> None) as Hn by congruence. apply nth_error_Some in Hn. lia. Qed.

Lemma get_mid {A} (x q z : list A) j : 0 <= j -> vec_get (x ++ q ++ z) j =
  if (Z.of_nat (length x) <=? j) && (j <? Z.of_nat (length x) + Z.of_nat (length q)) then vec_get q (j - Z.of_nat (length x))
  else if j <? Z.of_nat (length x) then vec_get x j else vec_get z (j - Z.of_nat (length x) - Z.of_nat (length q)).
Proof.
  intros H. rewrite get_app by lia. destruct (Z.ltb_spec j (Z.of_nat (length x))), (Z.leb_spec (Z.of_nat (length x)) j); try lia; cbn [andb]; [reflexivity|].
  rewrite get_app by lia. destruct (Z.ltb_spec (j - Z.of_nat (length x)) (Z.of_nat (length q))), (Z.ltb_spec j (Z.of_nat (length x) + Z.of_nat (length q))); try lia; reflexivity.
Qed.

Lemma op_spec {V} members size (o : aop V) a l r : 0 <= members -> contains members size a l -> aspec members size o l r ->
  match r with Some l' => exists a', ar_op members o a = Done a' /\ contains members size a' l' | None => ar_op members o a = Thrown end.
Proof.
  intros HM (Hs & Hc & Hl & Hd & G) Ho. destruct Ho; cbn [ar_op].
  - (* set *) unfold ar_set. rewrite app_length in *. cbn [length] in *. destruct (put_spec members size i c (ar_data a)) as (d' & E & Ld & G'); [lia|exact Hd|].
    rewrite Hs, E. cbn [done]. eexists. split; [reflexivity|]. repeat split; cbn [ar_size ar_count ar_data]; rewrite ?app_length; cbn [length]; try lia.
    intros j c' m Hj Hm. pose proof (get_bounds _ _ _ Hj) as Hb. rewrite app_length in Hb. cbn [length] in Hb. unfold ar_get. cbn [ar_size ar_data]. rewrite G' by lia.
    specialize (G j). unfold ar_get in G. rewrite Hs in G. rewrite get_app in Hj, G by lia. destruct (Z.eqb_spec j i) as [->|Hn].
    + destruct (Z.ltb_spec i (Z.of_nat (length x))); [lia|]. rewrite H, Z.sub_diag in Hj. cbn in Hj. now injection Hj as <-.
    + apply G; [|exact Hm]. destruct (Z.ltb_spec j (Z.of_nat (length x))); [exact Hj|]. unfold vec_get in *. destruct (Z.ltb_spec (j - Z.of_nat (length x)) 0); [lia|].
      destruct (Z.to_nat (j - Z.of_nat (length x))) eqn:En; [lia|]. exact Hj.
  - (* push *) unfold ar_push. rewrite Hs, Hc. destruct (Z.leb_spec size (Z.of_nat (length l))); [lia|]. destruct (put_spec members size (Z.of_nat (length l)) c (ar_data a)) as (d' & E & Ld & G'); [lia|exact Hd|].
    rewrite E. cbn [done]. eexists. split; [reflexivity|]. repeat split; cbn [ar_size ar_count ar_data]; rewrite ?app_length; cbn [length]; try lia.
    intros j c' m Hj Hm. pose proof (get_bounds _ _ _ Hj) as Hb. rewrite app_length in Hb. cbn [length] in Hb. unfold ar_get. cbn [ar_size ar_data]. rewrite G' by lia.
    specialize (G j). unfold ar_get in G. rewrite Hs in G. rewrite get_app in Hj by lia. destruct (Z.eqb_spec j (Z.of_nat (length l))) as [->|Hn].
    + destruct (Z.ltb_spec (Z.of_nat (length l)) (Z.of_nat (length l))); [lia|]. rewrite Z.sub_diag in Hj. cbn in Hj. now injection Hj as <-.
    + destruct (Z.ltb_spec j (Z.of_nat (length l))); [|lia]. now apply G.
  - unfold ar_push. rewrite Hs, Hc. destruct (Z.leb_spec size (Z.of_nat (length l))); [reflexivity|lia].
  - (* pop *) unfold ar_pop. rewrite app_length in *. cbn [length] in *. destruct (Z.eqb_spec (ar_count a) 0); [lia|]. eexists. split; [reflexivity|]. repeat split; cbn [ar_size ar_count ar_data]; try lia.
    intros j c' m Hj Hm. pose proof (get_bounds _ _ _ Hj) as Hb. unfold ar_get in *. cbn [ar_size ar_data]. apply (G j); [|exact Hm]. rewrite get_app by lia. destruct (Z.ltb_spec j (Z.of_nat (length l))); [exact Hj|lia].
  - unfold ar_pop. rewrite Hc. reflexivity.
  - (* clear *) eexists. split; [reflexivity|]. repeat split; cbn [ar_size ar_count ar_data length]; try lia. intros j c' m Hj. apply get_bounds in Hj. cbn [length] in Hj. lia.
  - (* load *) rename H into Hsrc, H0 into Hp, H1 into Hq, H2 into Hx, H3 into Hy, H4 into Hlen. destruct Hsrc as (Ss & Sc & Sl & Sd & SG).
    assert (En : Z.max (ar_count a) (num + offset) = Z.of_nat (length (x ++ q ++ z))). { rewrite Hc, !app_length. destruct Hy as [Hy|[Hy ->]]; cbn [length]; lia. }
    unfold ar_load. rewrite En, Hs. destruct (Z.ltb_spec size (Z.of_nat (length (x ++ q ++ z)))); [lia|].
    destruct (transfer_spec members src from num size offset (ar_data a)) as (d' & E & Ld & G').
    + lia.
    + rewrite !app_length in Hlen. lia.
    + exact Hd.
    + intros i m Hi Hm. destruct (get_in q i) as (c & Ec); [lia|]. exists (c m). apply SG; [|exact Hm]. rewrite get_mid by lia.
      destruct (Z.leb_spec (Z.of_nat (length p)) (from + i)), (Z.ltb_spec (from + i) (Z.of_nat (length p) + Z.of_nat (length q))); try lia. cbn [andb]. rewrite <- Ec. f_equal. lia.
    + rewrite E. cbn [done]. eexists. split; [reflexivity|]. repeat split; cbn [ar_size ar_count ar_data]; try lia.
      intros j c m Hj Hm. pose proof (get_bounds _ _ _ Hj) as Hb. unfold ar_get. cbn [ar_size ar_data]. rewrite G' by lia. rewrite get_mid in Hj by lia. rewrite Hx, Hq in Hj.
      destruct ((offset <=? j) && (j <? offset + num)) eqn:Eb.
      * apply andb_prop in Eb. destruct Eb as [B1 B2]. apply Z.leb_le in B1. apply Z.ltb_lt in B2. apply SG; [|exact Hm]. rewrite get_mid by lia.
        destruct (Z.leb_spec (Z.of_nat (length p)) (from + (j - offset))), (Z.ltb_spec (from + (j - offset)) (Z.of_nat (length p) + Z.of_nat (length q))); try lia. cbn [andb]. rewrite <- Hj. f_equal. lia.
      * specialize (G j c m). unfold ar_get in G. rewrite Hs in G. apply G; [|exact Hm]. rewrite get_mid by lia. rewrite Hx. rewrite !app_length in Hb. destruct Hy as [Hy|[Hy ->]].
        -- rewrite Hy, Hq, Eb. exact Hj.
        -- cbn [length] in Hb. destruct (Z.ltb_spec j offset) as [Hlt|Hge].
           ++ destruct (Z.leb_spec offset j); [lia|]. cbn [andb]. exact Hj.
           ++ exfalso. apply get_bounds in Hj. cbn [length] in Hj. lia.
  - unfold ar_load. rewrite Hs. destruct (Z.ltb_spec size (Z.max (ar_count a) (num + offset))); [reflexivity|lia].
  - (* assign *) destruct H as (Ss & Sc & Sl & Sd & SG). unfold ar_assign. rewrite Hs, Sc. destruct (Z.ltb_spec size (Z.of_nat (length l'))); [lia|].
    destruct (transfer_spec members src 0 (Z.of_nat (length l')) size 0 (ar_data a)) as (d' & E & Ld & G'); [lia|lia|exact Hd| |].
    + intros i m Hi Hm. destruct (get_in l' i) as (c & Ec); [lia|]. exists (c m). now apply SG.
    + rewrite E. cbn [done]. eexists. split; [reflexivity|]. repeat split; cbn [ar_size ar_count ar_data]; try lia.
      intros j c m Hj Hm. pose proof (get_bounds _ _ _ Hj) as Hb. unfold ar_get. cbn [ar_size ar_data]. rewrite G' by lia.
      destruct (Z.leb_spec 0 j), (Z.ltb_spec j (0 + Z.of_nat (length l'))); try lia. cbn [andb]. replace (0 + (j - 0)) with j by lia. now apply SG.
  - destruct H as (Ss & Sc & _). unfold ar_assign. rewrite Hs, Sc. destruct (Z.ltb_spec size (Z.of_nat (length l'))); [reflexivity|lia].
Qed.

(** ** C246 *)

Lemma fresh_contains {V} members (junk : Z -> V) size : 0 <= members -> 0 <= size -> contains members size (mkArr size 0 (map junk (zrange 0 (members * size)))) [].
Proof.
  intros HM Hs. repeat split; cbn [ar_size ar_count ar_data length]; try lia; [rewrite map_length, zrange_length; nia|]. intros i c m H. apply get_bounds in H. cbn [length] in H. lia.
Qed.

Theorem C246_construction {V} members (junk : Z -> V) size n (c : cell V) : 0 <= members -> 0 <= n <= size ->
  exists a, ar_new members junk size n c = Done a /\ contains members size a (repeat c (Z.to_nat n)).
Proof.
  intros HM Hn. unfold ar_new. set (d := map junk (zrange 0 (members * size))). assert (Hd : Z.of_nat (length d) = members * size) by (unfold d; rewrite map_length, zrange_length; nia). clearbody d.
  destruct (block_spec members size 0 n (fun k => Some (c (fst k))) (map (fun k => (snd k, fst k)) (list_prod (zrange 0 n) (zrange 0 members))) d) as (d' & E & Ld & G).
  - intros m i. rewrite in_map_iff. split.
    + intros ([i' m'] & E & H). cbn [fst snd] in E. injection E as -> ->. apply in_prod_iff in H. destruct H as [H1 H2]. apply zrange_in in H1, H2. lia.
    + intros (H1 & H2). exists (i, m). split; [reflexivity|]. apply in_prod_iff. split; apply zrange_in; lia.
  - lia.
  - lia.
  - exact Hd.
  - eauto.
  - rewrite each_map in E. rewrite <- (each_prod (fun k d => vec_set d (slot size (snd k) (0 + fst k)) (c (snd k)))) in E. cbn [fst snd] in E.
    exists (mkArr size n d'). split.
    + match goal with |- done _ ?t = _ => assert (Et : t = Some d') end. { rewrite <- E. apply each_ext. intros i s. apply each_ext. intros m s'. now rewrite Z.add_0_l. } now rewrite Et.
    + repeat split; cbn [ar_size ar_count ar_data]; rewrite ?repeat_length; try lia. intros i c' m Hi Hm. pose proof (get_bounds _ _ _ Hi) as Hb. rewrite repeat_length in Hb.
      unfold ar_get. cbn [ar_size ar_data]. rewrite G by lia. destruct (Z.leb_spec 0 i), (Z.ltb_spec i (0 + n)); try lia. cbn [andb fst]. f_equal.
      assert (c' = c) as ->; [|reflexivity]. unfold vec_get in Hi. destruct (Z.ltb_spec i 0); [lia|]. apply nth_error_In in Hi. now apply repeat_spec in Hi.
Qed.
Print Assumptions C246_construction.

Theorem C246_conversion {V} members (junk : Z -> V) size size' (src : array V) l : 0 <= members -> 0 <= size -> contains members size' src l ->
  if Z.of_nat (length l) <=? size then exists a, ar_convert members junk size src = Done a /\ contains members size a l else ar_convert members junk size src = Thrown.
Proof.
  intros HM Hs Hc. pose proof (fresh_contains members junk size HM Hs) as Hf. unfold ar_convert. destruct (Z.leb_spec (Z.of_nat (length l)) size) as [H|H].
  - apply (op_spec members size (AAssign src) _ [] (Some l) HM Hf). eapply as_assign; eauto.
  - apply (op_spec members size (AAssign src) _ [] None HM Hf). eapply as_too_large; eauto.
Qed.
Print Assumptions C246_conversion.

Theorem C246_operations {V} members size (os : list (aop V)) a l l' ts : 0 <= members -> contains members size a l -> aspecs members size os l l' ts ->
  exists a', ar_run members os a = Some (a', ts) /\ contains members size a' l'.
Proof.
  intros HM Hc Hs. revert a Hc. induction Hs; intros a Hc.
  - exists a. split; [reflexivity|exact Hc].
  - destruct (op_spec _ _ _ _ _ _ HM Hc H) as (a1 & E & Hc1). destruct (IHHs a1 Hc1) as (a' & E' & Hc'). exists a'. cbn [ar_run]. rewrite E, E'. split; [reflexivity|exact Hc'].
  - pose proof (op_spec _ _ _ _ _ _ HM Hc H) as E. cbn beta iota in E. destruct (IHHs a Hc) as (a' & E' & Hc'). exists a'. cbn [ar_run]. rewrite E, E'. split; [reflexivity|exact Hc'].
Qed.
Print Assumptions C246_operations.

(** Two members; capacities of 3 and 4. The last push throws. *)
Definition c_of (v m : Z) : Z := 10 * v + m.
Definition src4 : array Z := mkArr 4 3 [10; 20; 30; 0; 11; 21; 31; 0].
Example C246_example :
  contains 2 4 src4 [c_of 1; c_of 2; c_of 3] /\
  aspecs 2 3 [APush (c_of 7); ALoad src4 1 2 1; APush (c_of 8)] [] [c_of 7; c_of 2; c_of 3] [false; false; true] /\
  exists a a', ar_new 2 (fun _ => 0) 3 0 (c_of 0) = Done a /\ ar_run 2 [APush (c_of 7); ALoad src4 1 2 1; APush (c_of 8)] a = Some (a', [false; false; true]) /\
    ar_data a' = [70; 20; 30; 71; 21; 31].
Proof.
  assert (H : contains 2 4 src4 [c_of 1; c_of 2; c_of 3]).
  { repeat split; try (cbn; lia). intros i c m Hi Hm. pose proof (get_bounds _ _ _ Hi) as Hb. cbn [length] in Hb.
    assert (i = 0 \/ i = 1 \/ i = 2) as [->|[->| ->]] by lia; cbn in Hi; injection Hi as <-; assert (m = 0 \/ m = 1) as [->| ->] by lia; reflexivity. }
  split; [exact H|]. split.
  - eapply ass_done; [apply (as_push 2 3 (c_of 7) []); cbn; lia|]. eapply ass_done.
    + apply (as_load 2 3 src4 4 [c_of 1] [c_of 2; c_of 3] [] 1 2 1 [c_of 7] [] []); try (cbn; lia); try reflexivity; [exact H|]. right. split; [cbn; lia|reflexivity].
    + eapply ass_thrown; [apply as_full; reflexivity|apply ass_nil].
  - eexists. eexists. split; [vm_compute; reflexivity|]. split; vm_compute; reflexivity.
Qed.

(** ** C247: more elements than the capacity *)

Theorem C247_construction_refuted : exists (size n : Z) (c : cell Z), 0 <= size < n /\
  ar_new 2 (fun _ => 0) size n c <> Thrown /\ (forall a, ar_new 2 (fun _ => 0) size n c <> Done a).
Proof. exists 3, 4, (c_of 1). split; [lia|]. split; [vm_compute; discriminate|]. intros a. vm_compute. discriminate. Qed.
Print Assumptions C247_construction_refuted.
