(** Lemmas about ReorderingUnstructuredGrid. *)
From Coq Require Import Permutation Sorted.
From Verif Require Import Base ListFacts CoordFacts RegionSpec RegionModel RegionRep RegionStreaks HaloSpec RegionIterModel RegionOpsModel RegionOps CoordModel CoordSpec PatchModel PartitionManagerModel PartitionManagerFacts ConfigFacts GridModel GridSpec GridFacts SellModel SellSpec SellFacts SellProps ReorderModel ReorderSpec.

(** ** Node sets *)

Lemma node_ids_spec r : rvalid 0 r -> exists ids, node_ids r = Some ids /\ StronglySorted Z.lt ids /\ forall x, In x ids <-> is_node r x.
Proof.
  intros Hr. destruct (region_coords_nodup 0 r Hr) as (cs & E & Hin & _). unfold node_ids. rewrite E. cbn [option_map]. eexists. split; [reflexivity|]. split.
  - assert (Hs : StronglySorted coord_lt cs).
    { destruct (streaks_valid 0 r Hr) as (l & Hok & _ & El & _). unfold region_coords in E. rewrite El in E. injection E as <-. now apply (coords_sorted 0). }
    assert (Hlen : forall c, In c cs -> length c = 1%nat) by (intros c Hc; apply Hin in Hc; exact (proj1 Hc)).
    clear - Hs Hlen. induction Hs as [|c cs Hs IH Hc]; cbn [map]; constructor; [apply IH; intros; apply Hlen; now right|].
    apply Forall_forall. intros x Hx. apply in_map_iff in Hx. destruct Hx as (c' & <- & Hc'). rewrite Forall_forall in Hc. specialize (Hc c' Hc').
    pose proof (Hlen c (or_introl eq_refl)). pose proof (Hlen c' (or_intror Hc')). destruct c as [|a [|]]; try discriminate. destruct c' as [|b [|]]; try discriminate.
    cbn in Hc |- *. destruct Hc as [?|[_ []]]. lia.
  - intros x. rewrite in_map_iff. unfold is_node. rewrite <- Hin. split.
    + intros (c & <- & Hc). assert (length c = 1%nat) by (apply Hin in Hc; exact (proj1 Hc)). destruct c as [|a [|]]; try discriminate. exact Hc.
    + intros H. now exists [x].
Qed.

Lemma sorted_lt_nodup l : StronglySorted Z.lt l -> NoDup l.
Proof. induction 1 as [|x l Hs IH Hx]; constructor; [|exact IH]. intros Hi. rewrite Forall_forall in Hx. specialize (Hx x Hi). lia. Qed.

Lemma node_count r x : rvalid 0 r -> exists b, reg_count r [x] = Some b /\ (b = true <-> is_node r x).
Proof.
  intros Hr. destruct (reg_count r [x]) as [b|] eqn:E.
  - exists b. split; [reflexivity|]. unfold is_node, inr. rewrite E. split; [intros ->; auto|]. intros [_ H]. congruence.
  - exfalso. destruct (RegionRep.count_total 0 r [x] Hr eq_refl); congruence.
Qed.

Lemma node_box r ids : rvalid 0 r -> node_ids r = Some ids -> ids <> [] ->
  exists b, bounding_box r = Some b /\ Z.of_nat (length ids) <= hd 0 (b_dim b).
Proof.
  intros Hr E Hne. destruct (bounding_box_valid 0 r Hr) as (b & Eb & Lb & Hb). exists b. split; [exact Eb|].
  destruct (node_ids_spec r Hr) as (ids' & E' & Hs & Hin). rewrite E in E'. injection E' as <-.
  assert (Hall : forall x, In x ids -> hd 0 (b_origin b) <= x < hd 0 (b_origin b) + hd 0 (b_dim b)).
  { intros x Hx. apply Hin in Hx. apply Hb in Hx. unfold in_box in Hx. destruct (b_origin b) as [|o [|]]; try discriminate.
    destruct (b_dim b) as [|n [|]]; cbn in Hx |- *; try tauto; lia. }
  assert (incl ids (zrange (hd 0 (b_origin b)) (hd 0 (b_origin b) + hd 0 (b_dim b)))) as Hi.
  { intros x Hx. apply zrange_in. now apply Hall. }
  apply NoDup_incl_length in Hi; [|now apply sorted_lt_nodup]. rewrite zrange_length in Hi.
  destruct ids as [|x ids]; [congruence|]. specialize (Hall x (or_introl eq_refl)). lia.
Qed.

(** ** Sorting within scopes *)

Lemma sort_scopes_spec S n : (1 <= S)%nat -> forall l, (length l <= n)%nat ->
  Permutation l (sort_scopes S n l) /\
  forall i j a b, (i <= j)%nat -> (i / S = j / S)%nat -> nth_error (sort_scopes S n l) i = Some a -> nth_error (sort_scopes S n l) j = Some b -> snd b <= snd a.
Proof.
  intros HS. induction n as [|n IH]; intros l Hl.
  - destruct l; [|cbn in Hl; lia]. split; [constructor|]. intros i j a b _ _ E. destruct i; discriminate.
  - destruct l as [|p l]; [split; [constructor|]; intros i j a b _ _ E; destruct i; discriminate|].
    set (l0 := p :: l) in *.
    change (sort_scopes S (Datatypes.S n) l0) with (stable_sort (fun a b => snd b <? snd a) (firstn S l0) ++ sort_scopes S n (skipn S l0)).
    assert (Hsk : (length (skipn S l0) <= n)%nat) by (rewrite skipn_length; lia).
    destruct (IH (skipn S l0) Hsk) as [P1 P2].
    set (hd := stable_sort (fun a b => snd b <? snd a) (firstn S l0)).
    assert (Ph : Permutation (firstn S l0) hd) by apply stable_sort_perm.
    assert (Sh : StronglySorted (fun a b : Z * Z => snd b <= snd a) hd) by (apply stable_sort_sorted; intros; lia).
    assert (Lh : length hd = Nat.min S (length l0)) by (rewrite <- (Permutation_length Ph); apply firstn_length).
    split.
    + rewrite <- (firstn_skipn S l0) at 1. apply Permutation_app; assumption.
    + intros i j a b Hij Eij Ea Eb. destruct (Nat.lt_ge_cases j (length hd)) as [Hj|Hj].
      * rewrite nth_error_app1 in Ea by lia. rewrite nth_error_app1 in Eb by lia. clear - Sh Ea Eb Hij. revert i j Hij Ea Eb.
        induction Sh as [|x l1 Hs IHs Hx]; intros i j Hij Ea Eb; [destruct i; discriminate|]. destruct i, j; cbn in Ea, Eb; try lia.
        -- injection Ea as <-. injection Eb as <-. lia.
        -- injection Ea as <-. apply nth_error_In in Eb. rewrite Forall_forall in Hx. now apply Hx.
        -- apply (IHs i j); [lia|assumption|assumption].
      * assert (HSj : (S <= length l0)%nat).
        { destruct (Nat.le_gt_cases S (length l0)) as [?|Hs]; [assumption|exfalso]. rewrite nth_error_app2 in Eb by lia.
          rewrite skipn_all2 in Eb by lia. destruct n; destruct (j - length hd)%nat; discriminate. }
        assert (Lh' : length hd = S) by lia. rewrite Lh' in Hj.
        assert (Hi : (S <= i)%nat).
        { destruct (Nat.le_gt_cases S i) as [?|Hs]; [assumption|exfalso]. rewrite (Nat.div_small i S Hs) in Eij.
          pose proof (Nat.div_str_pos j S). lia. }
        rewrite nth_error_app2 in Ea by lia. rewrite nth_error_app2 in Eb by lia. rewrite Lh' in Ea, Eb.
        apply (P2 (i - S)%nat (j - S)%nat); [lia| |assumption|assumption].
        assert (Hd : forall k, (S <= k)%nat -> ((k - S) / S = k / S - 1)%nat).
        { intros k Hk. pose proof (Nat.div_add (k - S) 1 S ltac:(lia)) as H. replace (k - S + 1 * S)%nat with k in H by lia. rewrite H. generalize ((k - S) / S)%nat. intros. lia. }
        rewrite !Hd by lia. now rewrite Eij.
Qed.

(** ** The tables *)

Definition tables (ids : list Z) (l2p : list (Z * Z)) (p2l : list Z) : Prop :=
  Permutation ids p2l /\ StronglySorted (fun a b : Z * Z => fst a <= fst b) l2p /\ forall x q, In (x, q) l2p <-> vec_get p2l q = Some x.

Lemma map_id_spec ids l2p p2l x : NoDup ids -> tables ids l2p p2l -> In x ids ->
  map_id l2p x = Some (Some (index_of p2l x)) /\ vec_get p2l (index_of p2l x) = Some x.
Proof.
  intros Hn (H1 & H2 & H3) Hx. assert (Hg : vec_get p2l (index_of p2l x) = Some x) by (apply index_of_get; now apply (Permutation_in _ H1)).
  split; [|exact Hg]. unfold map_id. rewrite (lower_bound_spec l2p x (index_of p2l x) H2).
  - cbn [obind fst snd]. now rewrite Z.eqb_refl.
  - now apply H3.
  - intros q Hq. apply H3 in Hq. apply (vec_get_inj p2l _ _ x); auto. now apply (Permutation_NoDup H1).
Qed.

Lemma map_id_other ids l2p p2l x y : tables ids l2p p2l -> ~ In x ids -> In y ids -> x < y -> map_id l2p x = Some None.
Proof.
  intros (H1 & H2 & H3) Hx Hy Hxy. unfold map_id, lower_bound.
  assert (Hy' : exists q, In (y, q) l2p). { exists (index_of p2l y). apply H3, index_of_get. now apply (Permutation_in _ H1). }
  destruct Hy' as (q & Hq). destruct (find (fun p => negb (fst p <? x)) l2p) as [[z p]|] eqn:E.
  - apply find_some in E. destruct E as [E1 E2]. cbn [obind fst snd] in *. destruct (Z.eqb_spec z x) as [->|]; [exfalso|reflexivity].
    apply Hx. apply H3 in E1. apply (Permutation_in _ (Permutation_sym H1)). unfold vec_get in E1. destruct (p <? 0); [discriminate|]. now apply nth_error_In in E1.
  - exfalso. pose proof (find_none _ _ E _ Hq) as F. cbn in F. lia.
Qed.

Lemma sorted_le_combine ids : StronglySorted Z.lt ids -> forall ks, StronglySorted (fun a b : Z * Z => fst a <= fst b) (combine ids ks).
Proof.
  induction 1 as [|x l Hs IH Hx]; intros [|k ks]; cbn; try constructor; auto. apply Forall_forall. intros [y q] Hy. apply in_combine_l in Hy.
  rewrite Forall_forall in Hx. specialize (Hx y Hy). cbn. lia.
Qed.

Lemma tables_initial ids : StronglySorted Z.lt ids -> tables ids (combine ids (zrange 0 (Z.of_nat (length ids)))) ids.
Proof.
  intros Hs. split; [reflexivity|]. split; [now apply sorted_le_combine|]. intros x q.
  pose proof (in_combine_range ids 0 x q) as H. rewrite Z.add_0_l, Z.sub_0_r in H. exact H.
Qed.

Lemma tables_sorted ids order : Permutation ids order ->
  tables ids (stable_sort (fun a b => fst a <? fst b) (combine order (zrange 0 (Z.of_nat (length order))))) order.
Proof.
  intros Hp. split; [exact Hp|]. split; [apply stable_sort_sorted; intros; lia|]. intros x q.
  pose proof (in_combine_range order 0 x q) as H. rewrite Z.add_0_l, Z.sub_0_r in H. rewrite <- H.
  set (l := combine _ _). pose proof (stable_sort_perm (fun a b : Z * Z => fst a <? fst b) l) as P. split; apply Permutation_in; [now apply Permutation_sym|exact P].
Qed.

(** ** Row lengths and the matrix of physical IDs *)

Definition foreign {V} (nodes : indices) (m : list (entry V)) (x : Z) : Prop :=
  is_node nodes x /\ exists e, In e m /\ e_row e = x /\ ~ is_node nodes (e_col e).

Lemma cnt_cons {V} x y (v : V) m z : cnt (((x, y), v) :: m) z = (if x =? z then 1 else 0) + cnt m z.
Proof. unfold cnt. cbn [filter]. unfold e_row at 1. cbn [fst]. destruct (x =? z); cbn [length]; lia. Qed.

Lemma foreign_cons {V} nodes x y (v : V) m z :
  foreign nodes (((x, y), v) :: m) z <-> (x = z /\ is_node nodes x /\ ~ is_node nodes y) \/ foreign nodes m z.
Proof.
  unfold foreign. split.
  - intros (Hz & e & [<-|He] & E & Hc); [left; unfold e_row, e_col in *; cbn in *; subst; auto|right; split; [auto|]; eauto].
  - intros [(-> & Hx & Hy)|(Hz & e & He & E & Hc)]; (split; [assumption|]).
    + eexists. split; [left; reflexivity|]. auto.
    + exists e. split; [now right|]. auto.
Qed.

Lemma existsb_eqb x l : existsb (Z.eqb x) l = true <-> In x l.
Proof. rewrite existsb_exists. split; [intros (y & H & E); apply Z.eqb_eq in E; now subst|]. intros H. exists x. split; [exact H|apply Z.eqb_refl]. Qed.

Lemma row_lengths_spec {V} nodes (m : list (entry V)) : rvalid 0 nodes -> forall len mask,
  (forall x, In x mask -> len x = 0) ->
  exists len' mask', row_lengths nodes m (len, mask) = Some (len', mask') /\
    (forall x, In x mask' <-> In x mask \/ foreign nodes m x) /\ (forall x, In x mask' -> len' x = 0) /\
    forall x, is_node nodes x -> ~ In x mask' -> len' x = len x + cnt m x.
Proof.
  intros Hr. induction m as [|[[x y] v] m IH]; intros len mask H0.
  - exists len, mask. split; [reflexivity|]. split; [|split; [exact H0|]].
    + intros x. split; [auto|]. intros [H|(_ & e & [] & _)]. exact H.
    + intros. unfold cnt. cbn. lia.
  - cbn [row_lengths]. destruct (node_count nodes x Hr) as (a & Ea & Ha). rewrite Ea. cbn [obind]. destruct a; cbn [negb].
    + destruct (node_count nodes y Hr) as (b & Eb & Hb). rewrite Eb. cbn [obind]. destruct (negb b || existsb (Z.eqb x) mask) eqn:Ec.
      * destruct (IH (fun_set len x 0) (x :: mask)) as (len' & mask' & E & H1 & H2 & H3).
        { intros z Hz. unfold fun_set. destruct (Z.eqb_spec z x); [reflexivity|]. apply H0. destruct Hz; [congruence|assumption]. }
        exists len', mask'. split; [exact E|]. split; [|split; [exact H2|]].
        -- intros z. rewrite H1, foreign_cons. cbn [In]. split; [|tauto]. intros [[->|?]|?]; auto.
           apply Bool.orb_true_iff in Ec. destruct Ec as [Ec|Ec]; [|left; now apply existsb_eqb]. right. left. split; [auto|]. split; [now apply Ha|].
           rewrite <- Hb. destruct b; [discriminate|]. discriminate.
        -- intros z Hz Hn. rewrite (H3 z Hz Hn), cnt_cons. unfold fun_set. destruct (Z.eqb_spec x z) as [->|Hxz].
           ++ exfalso. apply Hn, H1. left. now left.
           ++ destruct (Z.eqb_spec z x); [congruence|]. lia.
      * apply Bool.orb_false_iff in Ec. destruct Ec as [Ec1 Ec2]. destruct (IH (fun_set len x (len x + 1)) mask) as (len' & mask' & E & H1 & H2 & H3).
        { intros z Hz. unfold fun_set. destruct (Z.eqb_spec z x) as [->|]; [|auto]. apply existsb_eqb in Hz. congruence. }
        exists len', mask'. split; [exact E|]. split; [|split; [exact H2|]].
        -- intros z. rewrite H1, foreign_cons. split; [tauto|]. intros [?|[(-> & _ & Hn)|?]]; auto. exfalso. apply Hn, Hb. now destruct b.
        -- intros z Hz Hn. rewrite (H3 z Hz Hn), cnt_cons. unfold fun_set. destruct (Z.eqb_spec x z) as [->|Hxz].
           ++ rewrite Z.eqb_refl. lia.
           ++ destruct (Z.eqb_spec z x); [congruence|]. lia.
    + destruct (IH len mask H0) as (len' & mask' & E & H1 & H2 & H3). exists len', mask'. split; [exact E|].
      assert (Hx : ~ is_node nodes x) by (rewrite <- Ha; discriminate). split; [|split; [exact H2|]].
      * intros z. rewrite H1, foreign_cons. tauto.
      * intros z Hz Hn. rewrite (H3 z Hz Hn), cnt_cons. destruct (Z.eqb_spec x z) as [->|]; [contradiction|]. lia.
Qed.

Definition translate {V} (pos : Z -> Z) (e : entry V) : entry V := ((pos (e_row e), pos (e_col e)), snd e).

Lemma new_matrix_spec {V} nodes ids mask l2p p2l (m : list (entry V)) :
  rvalid 0 nodes -> NoDup ids -> tables ids l2p p2l -> (forall x, In x ids <-> is_node nodes x) ->
  (forall x, foreign nodes m x -> In x mask) ->
  exists m' keep, new_matrix nodes mask l2p m = Some m' /\ m' = map (translate (index_of p2l)) (filter keep m) /\
    (forall e, keep e = true <-> is_node nodes (e_row e) /\ ~ In (e_row e) mask) /\
    (forall e, In e m -> keep e = true -> is_node nodes (e_col e)).
Proof.
  intros Hr Hn Ht Hid. set (keep := fun e : entry V => match reg_count nodes [e_row e] with Some true => negb (existsb (Z.eqb (e_row e)) mask) | _ => false end).
  assert (Hk : forall e, keep e = true <-> is_node nodes (e_row e) /\ ~ In (e_row e) mask).
  { intros e. unfold keep. destruct (node_count nodes (e_row e) Hr) as (a & Ea & Ha). rewrite Ea, <- Ha, <- existsb_eqb. destruct a, (existsb _ _); cbn; split; intuition congruence. }
  induction m as [|[[x y] v] m IH]; intros Hf.
  - exists [], keep. split; [reflexivity|]. split; [reflexivity|]. split; [exact Hk|]. intros e [].
  - destruct IH as (m' & keep' & E & Em & Hk' & Hc); [intros z Hz; apply Hf, foreign_cons; now right|].
    assert (Ekk : forall e, keep' e = keep e). { intros e. apply Bool.eq_true_iff_eq. now rewrite Hk', Hk. }
    assert (Efl : filter keep' m = filter keep m) by (apply filter_ext; exact Ekk).
    cbn [new_matrix filter]. destruct (node_count nodes x Hr) as (a & Ea & Ha). rewrite Ea. cbn [obind].
    destruct (negb a || existsb (Z.eqb x) mask) eqn:Ec.
    + exists m', keep. split; [exact E|]. assert (Ek : keep ((x, y), v) = false).
      { unfold keep, e_row. cbn [fst]. rewrite Ea. destruct a; [|reflexivity]. cbn in Ec. now rewrite Ec. }
      rewrite Ek, <- Efl. split; [exact Em|]. split; [exact Hk|]. intros e [<-|He] Hke; [congruence|]. apply Hc; [exact He|]. now rewrite Ekk.
    + apply Bool.orb_false_iff in Ec. destruct Ec as [Ec1 Ec2]. destruct a; [|discriminate].
      assert (Hx : In x ids) by (apply Hid, Ha; reflexivity).
      assert (Hy : In y ids).
      { apply Hid. destruct (node_count nodes y Hr) as (b & Eb & Hb). destruct b; [now apply Hb|]. exfalso.
        assert (In x mask); [|apply existsb_eqb in H; congruence]. apply Hf, foreign_cons. left. split; [reflexivity|]. split; [now apply Ha|]. rewrite <- Hb. discriminate. }
      destruct (map_id_spec ids l2p p2l x Hn Ht Hx) as [Ex _]. destruct (map_id_spec ids l2p p2l y Hn Ht Hy) as [Ey _].
      rewrite Ex. cbn [obind]. rewrite Ey. cbn [obind]. rewrite E. cbn [option_map]. exists (((index_of p2l x, index_of p2l y), v) :: m'), keep.
      split; [reflexivity|]. assert (Ek : keep ((x, y), v) = true). { unfold keep, e_row. cbn [fst]. rewrite Ea. now rewrite Ec2. }
      rewrite Ek. split; [cbn [map]; rewrite Em, Efl; reflexivity|]. split; [exact Hk|]. intros e [<-|He] Hke; [now apply Hid|]. apply Hc; [exact He|]. now rewrite Ekk.
Qed.

(** The rows of the translated matrix. *)
Lemma translated_row {V} (pos : Z -> Z) keep (m : list (entry V)) (N : Z -> Prop) x :
  (forall a b, N a -> N b -> pos a = pos b -> a = b) -> (forall e, keep e = true -> N (e_row e)) -> N x ->
  (forall e, e_row e = x -> keep e = true) ->
  row_entries (map (translate pos) (filter keep m)) (pos x) = map (fun yv => (pos (fst yv), snd yv)) (row_entries m x).
Proof.
  intros Hinj HN Hx Hkx. unfold row_entries. rewrite map_map. induction m as [|e m IH]; [reflexivity|]. cbn [filter].
  destruct (Z.eqb_spec (e_row e) x) as [E|E].
  - rewrite (Hkx e E). cbn [map filter]. unfold translate at 1, e_row at 1. cbn [fst]. rewrite E, Z.eqb_refl. cbn [map]. rewrite IH. reflexivity.
  - destruct (keep e) eqn:Ek; [|exact IH]. cbn [map filter]. unfold translate at 1, e_row at 1. cbn [fst].
    destruct (Z.eqb_spec (pos (e_row e)) (pos x)) as [Ep|_]; [|exact IH]. exfalso. apply E. apply Hinj; auto.
Qed.

Lemma translated_empty {V} (pos : Z -> Z) keep (m : list (entry V)) q :
  (forall e, In e m -> keep e = true -> pos (e_row e) <> q) -> row_entries (map (translate pos) (filter keep m)) q = [].
Proof.
  intros H. unfold row_entries. rewrite filter_none; [reflexivity|]. intros e He. apply in_map_iff in He. destruct He as (e' & <- & He').
  apply filter_In in He'. destruct He' as [H1 H2]. unfold translate, e_row at 1. cbn [fst]. apply Z.eqb_neq. now apply H.
Qed.

(** ** The grid *)
Section Grid1.
Context {A V : Type} (zero : V) (dflt : A) (C SIGMA : Z) (MATRICES : nat) (srt : list (entry V) -> list (entry V)).
Context (HC : 1 <= C) (HS : 1 <= SIGMA) (Hsrt : sorting srt).
Context (nodes : indices) (ids : list Z) (Hr : rvalid 0 nodes) (Eids : node_ids nodes = Some ids) (Hne : ids <> []).

Lemma ids_in x : In x ids <-> is_node nodes x.
Proof using Hr Eids. destruct (node_ids_spec nodes Hr) as (ids' & E & _ & H). rewrite Eids in E. injection E as <-. apply H. Qed.

Lemma ids_sorted : StronglySorted Z.lt ids.
Proof using Hr Eids. destruct (node_ids_spec nodes Hr) as (ids' & E & H & _). rewrite Eids in E. injection E as <-. exact H. Qed.

Lemma ids_nodup : NoDup ids.
Proof using Hr Eids. apply sorted_lt_nodup, ids_sorted. Qed.

(** The grid holds [f] at its nodes. *)
Definition rinv (g : rgrid A V) (f : Z -> A) : Prop :=
  rg_nodes g = nodes /\ tables ids (rg_l2p g) (rg_p2l g) /\ length (rg_mats g) = MATRICES /\
  exists n F, Z.of_nat (length ids) <= n /\ rep [n] (rg_cells g) F /\ forall q x, stored_at g q x -> F (Some [q]) = f x.

Lemma allpos1 n : 1 <= n -> allpos [n].
Proof using. intros. repeat constructor; lia. Qed.

Lemma denotes1 n q : 0 <= q < n -> close_by [n] [q] /\ denotes cube1 [n] [q] = Some [q].
Proof using. intros H. split; [cbn [close_by]; lia|]. unfold cube1. cbn [denotes]. destruct (Z.leb_spec 0 q), (Z.ltb_spec q n); try lia. reflexivity. Qed.

Lemma len_pos : 1 <= Z.of_nat (length ids).
Proof using Hne. assert (length ids <> 0%nat); [|lia]. intros H. apply Hne. now apply length_zero_iff_nil. Qed.

Lemma stored_bound g q x : tables ids (rg_l2p g) (rg_p2l g) -> stored_at (A := A) (V := V) g q x -> 0 <= q < Z.of_nat (length ids).
Proof using. intros (H & _) Hq. apply vec_get_some in Hq. now rewrite (Permutation_length H). Qed.

Lemma rinv_get g f x : rinv g f -> is_node nodes x -> rg_get g x = Some (f x).
Proof using Hr Eids Hne.
  intros (H1 & H2 & H3 & n & F & Hn & HF & Hf) Hx. apply ids_in in Hx. destruct (map_id_spec ids _ _ x ids_nodup H2 Hx) as [E Hg].
  unfold rg_get. rewrite E. cbn [obind]. pose proof (stored_bound g _ x H2 Hg) as Hb. pose proof len_pos.
  destruct (denotes1 n (index_of (rg_p2l g) x) ltac:(lia)) as [Hc Hd].
  rewrite (rep_get cube1 [n] eq_refl (allpos1 n ltac:(lia)) _ F _ HF Hc), Hd. f_equal. now apply Hf.
Qed.

Lemma rinv_cells g f q x : rinv g f -> stored_at g q x -> grid_get cube1 (rg_cells g) [q] = Some (f x).
Proof using Hne.
  intros (H1 & H2 & H3 & n & F & Hn & HF & Hf) Hx. pose proof (stored_bound g _ x H2 Hx) as Hb. pose proof len_pos.
  destruct (denotes1 n q ltac:(lia)) as [Hc Hd].
  rewrite (rep_get cube1 [n] eq_refl (allpos1 n ltac:(lia)) _ F _ HF Hc), Hd. f_equal. now apply Hf.
Qed.

Lemma rinv_make d e : exists g, rg_make C MATRICES nodes d e = Some g /\ rinv g (fun _ => d).
Proof using Hr Eids Hne.
  unfold rg_make. rewrite Eids. cbn [option_map]. eexists. split; [reflexivity|]. split; [reflexivity|]. split; [apply tables_initial, ids_sorted|].
  split; [apply repeat_length|]. exists (Z.of_nat (length ids)), (fresh d e). split; [lia|]. pose proof len_pos.
  split; [apply (rep_make cube1); [reflexivity|apply allpos1; lia]|]. reflexivity.
Qed.

Lemma fun_place f q (v : A) p : upd f (Some [q]) v (Some [p]) = if q =? p then v else f (Some [p]).
Proof using. unfold upd. destruct (place_dec (Some [q]) (Some [p])) as [E|E], (Z.eqb_spec q p) as [E'|E']; congruence. Qed.

Lemma stored_unique g q q' x : tables ids (rg_l2p g) (rg_p2l g) -> stored_at (A := A) (V := V) g q x -> stored_at g q' x -> q = q'.
Proof using Hr Eids. intros (H & _) H1 H2. apply (vec_get_inj (rg_p2l g) q q' x); auto. apply (Permutation_NoDup H), ids_nodup. Qed.

Lemma rinv_set_phys g f q x v : rinv g f -> stored_at g q x ->
  exists c, grid_set cube1 (rg_cells g) [q] v = Some c /\ rinv (rg_with g c) (fun y => if x =? y then v else f y).
Proof using Hr Eids Hne.
  intros (H1 & H2 & H3 & n & F & Hn & HF & Hf) Hq. pose proof (stored_bound g _ x H2 Hq) as Hb. pose proof len_pos.
  destruct (denotes1 n q ltac:(lia)) as [Hc Hd].
  destruct (rep_set cube1 [n] eq_refl (allpos1 n ltac:(lia)) _ F _ v HF Hc) as (c & E & HR). rewrite Hd in HR.
  exists c. split; [exact E|]. split; [exact H1|]. split; [exact H2|]. split; [exact H3|]. exists n, (upd F (Some [q]) v).
  split; [exact Hn|]. split; [exact HR|]. intros p y Hp. rewrite fun_place. change (stored_at g p y) in Hp. destruct (Z.eqb_spec q p) as [<-|Hqp].
  - assert (x = y) by (unfold stored_at in *; congruence). subst y. now rewrite Z.eqb_refl.
  - destruct (Z.eqb_spec x y) as [<-|_]; [|now apply Hf]. exfalso. apply Hqp. now apply (stored_unique g q p x).
Qed.

Lemma rinv_set g f x v : rinv g f -> is_node nodes x ->
  exists g', rg_set g x v = Some g' /\ rinv g' (fun y => if x =? y then v else f y).
Proof using Hr Eids Hne.
  intros Hg Hx. pose proof Hg as (_ & H2 & _). apply ids_in in Hx. destruct (map_id_spec ids _ _ x ids_nodup H2 Hx) as [E Hq].
  destruct (rinv_set_phys g f _ x v Hg Hq) as (c & Ec & Hc). unfold rg_set. rewrite E. cbn [obind]. rewrite Ec. cbn [option_map]. eauto.
Qed.

Lemma rinv_edge g f v : rinv g f -> rinv (rg_set_edge g v) f.
Proof using.
  intros (H1 & H2 & H3 & n & F & Hn & HF & Hf). split; [exact H1|]. split; [exact H2|]. split; [exact H3|]. exists n, (upd F None v). split; [exact Hn|].
  split; [now apply rep_edge|]. intros q x Hq. unfold upd. destruct (place_dec None (Some [q])); [discriminate|]. now apply Hf.
Qed.

Lemma move_cells_spec n g f l2p p2l : rinv g f -> tables ids l2p p2l -> Z.of_nat (length ids) <= n ->
  forall todo dst F, incl todo ids -> NoDup todo -> rep [n] dst F ->
  exists dst' F', move_cells todo (rg_l2p g) l2p (rg_cells g) dst = Some dst' /\ rep [n] dst' F' /\
    forall q x, vec_get p2l q = Some x -> F' (Some [q]) = if in_dec Z.eq_dec x todo then f x else F (Some [q]).
Proof using Hr Eids Hne.
  intros Hg Ht Hn. pose proof Hg as (_ & H2 & _). pose proof len_pos as Hlen. induction todo as [|x todo IH]; intros dst F Hi Hnd HF.
  - exists dst, F. split; [reflexivity|]. split; [exact HF|]. reflexivity.
  - assert (Hx : In x ids) by (apply Hi; now left). inversion Hnd as [|? ? Hnx Hnd']. subst.
    destruct (map_id_spec ids _ _ x ids_nodup Ht Hx) as [E1 Hq1]. destruct (map_id_spec ids _ _ x ids_nodup H2 Hx) as [E2 Hq2].
    cbn [move_cells]. rewrite E1. cbn [obind]. rewrite E2. cbn [obind]. rewrite (rinv_cells g f _ x Hg Hq2). cbn [obind].
    pose proof (vec_get_some _ _ _ Hq1) as Hb. rewrite <- (Permutation_length (proj1 Ht)) in Hb. destruct (denotes1 n (index_of p2l x) ltac:(lia)) as [Hc Hd].
    destruct (rep_set cube1 [n] eq_refl (allpos1 n ltac:(lia)) _ F _ (f x) HF Hc) as (c & Ec & HR). rewrite Ec. cbn [obind]. rewrite Hd in HR.
    destruct (IH c _ ltac:(intros z Hz; apply Hi; now right) Hnd' HR) as (dst' & F' & E & HF' & Hall). exists dst', F'. split; [exact E|]. split; [exact HF'|].
    intros q y Hy. rewrite (Hall q y Hy). destruct (in_dec Z.eq_dec y todo) as [Hin|Hin].
    + destruct (in_dec Z.eq_dec y (x :: todo)) as [_|Hc']; [reflexivity|]. exfalso. apply Hc'. now right.
    + rewrite fun_place. destruct (Z.eqb_spec (index_of p2l x) q) as [<-|Hq].
      * assert (x = y) by congruence. subst y. destruct (in_dec Z.eq_dec x (x :: todo)) as [_|Hc']; [reflexivity|]. exfalso. apply Hc'. now left.
      * destruct (in_dec Z.eq_dec y (x :: todo)) as [[<-|Hc']|_]; [|contradiction|reflexivity]. exfalso. apply Hq.
        apply (vec_get_inj p2l _ _ x); auto. apply (Permutation_NoDup (proj1 Ht)), ids_nodup.
Qed.

Lemma set_weights_spec g f k m : rinv g f -> 0 <= k < Z.of_nat MATRICES ->
  exists g' s, rg_set_weights zero dflt C SIGMA MATRICES srt g k m = Some g' /\ rinv g' f /\ vec_get (rg_mats g') k = Some s /\
    forall q x, stored_at g' q x -> exists l, sell_row C s q = Some l /\ StronglySorted (fun a b => fst a <= fst b) l /\
      (complete nodes m x -> Permutation (map (fun yv => (index_of (rg_p2l g') (fst yv), snd yv)) (row_entries m x)) l) /\
      (~ complete nodes m x -> l = []).
Proof using HC HS Hsrt Hr Eids Hne.
  intros Hg Hk. pose proof Hg as (H1 & H2 & H3 & _). unfold rg_set_weights. rewrite H1.
  destruct (row_lengths_spec nodes m Hr (fun _ => 0) [] ltac:(intros x [])) as (len & mask & E1 & Hm1 & Hm2 & Hm3). rewrite E1. cbn [obind]. rewrite Eids. cbn [obind].
  set (sl := sort_scopes (Z.to_nat SIGMA) (length ids) (map (fun i => (i, len i)) ids)). set (order := map fst sl).
  set (l2p := stable_sort _ (combine order _)).
  destruct (sort_scopes_spec (Z.to_nat SIGMA) (length ids) ltac:(lia) (map (fun i => (i, len i)) ids)) as [Hp Hd]; [rewrite map_length; lia|]. fold sl in Hp, Hd.
  assert (Hpo : Permutation ids order).
  { unfold order. apply Permutation_trans with (map fst (map (fun i => (i, len i)) ids)); [|now apply Permutation_map]. rewrite map_map. cbn [fst]. now rewrite List.map_id. }
  assert (Ht : tables ids l2p order) by (apply tables_sorted; exact Hpo).
  assert (Hsl : forall i p, nth_error sl i = Some p -> snd p = len (fst p)).
  { intros i p Ep. apply nth_error_In in Ep. apply (Permutation_in _ (Permutation_sym Hp)) in Ep. apply in_map_iff in Ep. destruct Ep as (z & <- & _). reflexivity. }
  destruct (node_box nodes ids Hr Eids Hne) as (b & Eb & Hb). unfold reorder_delegate. rewrite H1, Eb. cbn [obind]. set (n := hd 0 (b_dim b)) in *.
  pose proof len_pos as Hlen.
  assert (R0 : rep [n] (fst (rg_delegate (V := V) C MATRICES n dflt dflt)) (fresh dflt dflt)).
  { apply (rep_make cube1); [reflexivity|apply allpos1; lia]. }
  destruct (move_cells_spec n g f l2p order Hg Ht Hb ids _ _ (fun z H => H) ids_nodup R0) as (cells & F & E2 & HF & Hall). rewrite E2. cbn [obind rg_mats rg_cells rg_nodes rg_l2p rg_p2l].
  assert (Hfo : forall x, foreign nodes m x -> In x mask) by (intros x Hx; apply Hm1; now right).
  destruct (new_matrix_spec nodes ids mask l2p order m Hr ids_nodup Ht ids_in Hfo) as (m' & keep & E3 & Em' & Hkeep & Hcol). rewrite E3. cbn [obind rg_delegate snd].
  destruct (vec_get_ex (repeat (sell_make (V := V) C n) MATRICES) k) as (s0 & Es0); [rewrite repeat_length; lia|].
  assert (s0 = sell_make C n). { rewrite vec_get_repeat in Es0 by lia. congruence. } subst s0. rewrite Es0. cbn [obind].
  (* facts about positions *)
  set (pos := index_of order) in *.
  assert (Hpos : forall x, is_node nodes x -> vec_get order (pos x) = Some x).
  { intros x Hx. apply index_of_get. apply (Permutation_in _ Hpo). now apply ids_in. }
  assert (Hinj : forall x y, is_node nodes x -> is_node nodes y -> pos x = pos y -> x = y).
  { intros x y Hx Hy E. pose proof (Hpos x Hx). pose proof (Hpos y Hy). congruence. }
  assert (Hord : forall q x, vec_get order q = Some x -> is_node nodes x /\ pos x = q /\ 0 <= q < Z.of_nat (length ids)).
  { intros q x Hq. assert (is_node nodes x). { apply ids_in. apply (Permutation_in _ (Permutation_sym Hpo)). unfold vec_get in Hq. destruct (q <? 0); [discriminate|]. now apply nth_error_In in Hq. }
    split; [assumption|]. split.
    - apply (vec_get_inj order _ _ x); [apply (Permutation_NoDup Hpo), ids_nodup| |exact Hq]. now apply Hpos.
    - apply vec_get_some in Hq. now rewrite (Permutation_length Hpo). }
  assert (Hrows : forall q x, vec_get order q = Some x -> (~ In x mask -> row_entries m' q = map (fun yv => (pos (fst yv), snd yv)) (row_entries m x)) /\ (In x mask -> row_entries m' q = [])).
  { intros q x Hq. destruct (Hord q x Hq) as (Hx & <- & _). rewrite Em'. split; intros Hmx.
    - apply (translated_row pos keep m (is_node nodes)); auto; [intros e He; now apply Hkeep|]. intros e <-. apply Hkeep. now split.
    - apply translated_empty. intros e He Hke E. apply Hkeep in Hke. destruct Hke as [K1 K2]. apply K2. rewrite (Hinj _ _ K1 Hx E). exact Hmx. }
  assert (Hlenq : forall q x, vec_get order q = Some x -> row_length m' q = len x).
  { intros q x Hq. destruct (Hrows q x Hq) as [K1 K2]. destruct (Hord q x Hq) as (Hx & _). unfold row_length. destruct (in_dec Z.eq_dec x mask) as [Hi|Hi].
    - rewrite (K2 Hi), (Hm2 x Hi). reflexivity.
    - rewrite (K1 Hi), map_length, (Hm3 x Hx Hi). rewrite Z.add_0_l. apply cnt_row_length. }
  assert (Hrb : rows_below n m').
  { rewrite Em'. apply Forall_forall. intros e He. apply in_map_iff in He. destruct He as (e' & <- & He'). apply filter_In in He'. destruct He' as [He' K].
    apply Hkeep in K. destruct K as [K _]. change (0 <= pos (e_row e') < n). destruct (Hord _ _ (Hpos _ K)) as (_ & _ & Hq). lia. }
  assert (Hdesc : descending SIGMA n m').
  { intros x y Hxy Hyn Exy. destruct (Z_lt_le_dec y (Z.of_nat (length ids))) as [Hy|Hy].
    - destruct (vec_get_ex order x) as (ix & Eix); [rewrite <- (Permutation_length Hpo); lia|]. destruct (vec_get_ex order y) as (iy & Eiy); [rewrite <- (Permutation_length Hpo); lia|].
      rewrite (Hlenq _ _ Eix), (Hlenq _ _ Eiy). unfold order, vec_get in Eix, Eiy. destruct (Z.ltb_spec x 0); [lia|]. destruct (Z.ltb_spec y 0); [lia|].
      rewrite nth_error_map in Eix, Eiy. destruct (nth_error sl (Z.to_nat x)) as [px|] eqn:Ex; [|discriminate]. destruct (nth_error sl (Z.to_nat y)) as [py|] eqn:Ey; [|discriminate].
      cbn in Eix, Eiy. injection Eix as <-. injection Eiy as <-. rewrite <- (Hsl _ _ Ex), <- (Hsl _ _ Ey). apply (Hd (Z.to_nat x) (Z.to_nat y)); [lia| |assumption|assumption].
      rewrite <- !Z2Nat.inj_div by lia. now rewrite Exy.
    - replace (row_length m' y) with 0; [unfold row_length; lia|]. symmetry. unfold row_length. rewrite Em', translated_empty; [reflexivity|].
      intros e He Hke E. apply Hkeep in Hke. destruct Hke as [K1 K2]. destruct (Hord _ _ (Hpos _ K1)) as (_ & _ & Hq). lia. }
  destruct (C39_get_row V zero C SIGMA srt n m' HC HS ltac:(lia) Hsrt Hrb Hdesc) as (s & Es & Hs). rewrite Es. cbn [obind].
  destruct (vec_set_spec (repeat (sell_make (V := V) C n) MATRICES) k s) as (mats & Emats & Lmats & Gmats); [rewrite repeat_length; lia|]. rewrite Emats. cbn [obind].
  eexists. exists s. split; [reflexivity|]. split; [|split].
  - split; [reflexivity|]. split; [exact Ht|]. cbn [rg_mats]. split; [rewrite Lmats; apply repeat_length|].
    exists n, F. split; [exact Hb|]. split; [exact HF|]. intros q x Hq. rewrite (Hall q x Hq). destruct (in_dec Z.eq_dec x ids) as [_|Hn]; [reflexivity|].
    exfalso. apply Hn, ids_in. now destruct (Hord q x Hq).
  - cbn [rg_mats]. rewrite Gmats. now rewrite Z.eqb_refl.
  - intros q x Hq. change (vec_get order q = Some x) in Hq. cbn [rg_p2l]. fold pos. destruct (Hord q x Hq) as (Hx & _ & Hqb).
    destruct (Hs q ltac:(lia)) as (l & El & Hl1 & Hl2). exists l. split; [exact El|]. split; [exact Hl2|]. destruct (Hrows q x Hq) as [K1 K2].
    assert (Hcm : complete nodes m x <-> ~ In x mask).
    { rewrite Hm1. split.
      - intros Hc [[]|(_ & e & He & Ee & Hn)]. apply Hn. apply (Hc (e_col e) (snd e)). unfold row_entries. apply in_map_iff. exists e. split; [reflexivity|].
        apply filter_In. split; [exact He|]. now apply Z.eqb_eq.
      - intros Hn y v Hyv. unfold row_entries in Hyv. apply in_map_iff in Hyv. destruct Hyv as (e & Ee & He). apply filter_In in He. destruct He as [He Er]. apply Z.eqb_eq in Er.
        injection Ee as <- _. destruct (node_count nodes (e_col e) Hr) as (bb & Ebb & Hbb). destruct bb; [now apply Hbb|]. exfalso. apply Hn. right. split; [exact Hx|].
        exists e. split; [exact He|]. split; [exact Er|]. rewrite <- Hbb. discriminate. }
    split.
    + intros Hc. apply Hcm in Hc. rewrite <- (K1 Hc). exact Hl1.
    + intros Hc. rewrite Hcm in Hc. destruct (in_dec Z.eq_dec x mask) as [Hi|Hi]; [|contradiction]. rewrite (K2 Hi) in Hl1. now apply Permutation_nil.
Qed.

(** ** Transfers *)

Lemma phys_streaks_spec g f xs : rinv g f -> (forall x, In x xs -> is_node nodes x) -> forall cur,
  phys_streaks (rg_l2p g) cur xs = Some (map (fun x => mkStreak [] (index_of (rg_p2l g) x) (index_of (rg_p2l g) x + 1)) xs).
Proof using Hr Eids.
  intros (_ & H2 & _). induction xs as [|x xs IH]; intros Hx cur; [reflexivity|]. cbn [phys_streaks map].
  destruct (map_id_spec ids _ _ x ids_nodup H2 (proj2 (ids_in x) (Hx x (or_introl eq_refl)))) as [E _]. rewrite E. cbn [obind]. rewrite IH; [reflexivity|]. intros; apply Hx; now right.
Qed.

Lemma one_streak q : streak_coords (mkStreak [] q (q + 1)) = [[q]].
Proof using. unfold streak_coords. cbn [s_pre s_x s_e]. rewrite (zrange_cons q (q + 1)) by lia. rewrite (zrange_nil (q + 1) (q + 1)) by lia. reflexivity. Qed.

Lemma set_one_streak n F (c : vgrid A) q v vs : rep [n] c F -> 0 <= q < n -> grid_set_streak cube1 c (mkStreak [] q (q + 1)) (v :: vs) = grid_set cube1 c [q] v.
Proof using.
  intros (Hd & _) Hq. unfold grid_set_streak. rewrite one_streak. cbn [set_cells s_origin s_pre s_x s_e app]. unfold s_origin. cbn [s_pre s_x app].
  assert (Eo : out_of_bounds cube1 [q] (g_dim c) = false). { rewrite Hd. unfold cube1. cbn [out_of_bounds]. lia. }
  destruct (box_in_bounds_streak _ _).
  - unfold grid_set. rewrite Eo. destruct (Z.ltb_spec (q + 1) q); [lia|]. replace (Z.to_nat (q + 1 - q)) with 1%nat by lia. cbn [vec_write].
    destruct (vec_set _ _ _); reflexivity.
  - destruct (grid_set cube1 c [q] v); reflexivity.
Qed.

Lemma rinv_load xs : forall g f vs, rinv g f -> (forall x, In x xs -> is_node nodes x) -> (length xs <= length vs)%nat ->
  exists c, load_streaks cube1 (rg_cells g) (map (fun x => mkStreak [] (index_of (rg_p2l g) x) (index_of (rg_p2l g) x + 1)) xs) vs = Some c /\
    rinv (rg_with g c) (fun y => fold_left (fun acc w => if fst w =? y then snd w else acc) (combine xs vs) (f y)).
Proof using Hr Eids Hne.
  induction xs as [|x xs IH]; intros g f vs Hg Hx Hv.
  - exists (rg_cells g). split; [reflexivity|]. destruct g; exact Hg.
  - destruct vs as [|v vs]; [cbn in Hv; lia|]. cbn [map load_streaks]. pose proof Hg as (_ & H2 & _ & n & F & Hn & HF & _).
    destruct (map_id_spec ids _ _ x ids_nodup H2 (proj2 (ids_in x) (Hx x (or_introl eq_refl)))) as [_ Hq].
    pose proof (stored_bound g _ x H2 Hq) as Hb. rewrite (set_one_streak n F) by (auto; lia).
    destruct (rinv_set_phys g f _ x v Hg Hq) as (c & Ec & Hc). rewrite Ec. cbn [obind].
    destruct (IH (rg_with g c) _ vs Hc (fun y Hy => Hx y (or_intror Hy))) as (c' & Ec' & Hc'); [cbn in Hv; lia|].
    cbn [s_x s_e]. set (p := index_of (rg_p2l g) x) in *. replace (Z.to_nat (p + 1 - p)) with 1%nat by lia. cbn [skipn].
    exists c'. split; [exact Ec'|]. exact Hc'.
Qed.

Lemma rinv_save g f xs : rinv g f -> (forall x, In x xs -> is_node nodes x) ->
  save_streaks cube1 (rg_cells g) (map (fun x => mkStreak [] (index_of (rg_p2l g) x) (index_of (rg_p2l g) x + 1)) xs) = Some (map f xs).
Proof using Hr Eids Hne.
  intros (_ & H2 & _ & n & F & Hn & HF & Hf) Hx. pose proof len_pos. rewrite (rep_save_streaks cube1 [n] eq_refl (allpos1 n ltac:(lia)) ltac:(discriminate) _ F _ HF).
  - f_equal. rewrite flat_map_concat_map, map_map. induction xs as [|x xs IH]; [reflexivity|]. cbn [map concat]. rewrite one_streak. cbn [app map].
    rewrite IH by (intros; apply Hx; now right). f_equal.
    destruct (map_id_spec ids _ _ x ids_nodup H2 (proj2 (ids_in x) (Hx x (or_introl eq_refl)))) as [_ Hq]. pose proof (stored_bound g _ x H2 Hq).
    destruct (denotes1 n (index_of (rg_p2l g) x) ltac:(lia)) as [_ ->]. now apply Hf.
  - apply Forall_forall. intros s Hs. apply in_map_iff in Hs. destruct Hs as (x & <- & Hxs). rewrite one_streak. split; [cbn; lia|]. constructor; [|constructor].
    destruct (map_id_spec ids _ _ x ids_nodup H2 (proj2 (ids_in x) (Hx x Hxs))) as [_ Hq]. pose proof (stored_bound g _ x H2 Hq).
    now destruct (denotes1 n (index_of (rg_p2l g) x) ltac:(lia)).
Qed.

(** ** Histories *)
Lemma rinv_op g f o : rinv g f -> uop_ok nodes MATRICES o ->
  exists g', rg_op zero dflt C SIGMA MATRICES srt g o = Some g' /\ rinv g' (fun y => fold_left (fun acc w => if fst w =? y then snd w else acc) (uop_writes o) (f y)).
Proof using HC HS Hsrt Hr Eids Hne.
  intros Hg Ho. destruct o as [x v|v|k m|r vs]; cbn [rg_op uop_writes uop_ok] in *.
  - now apply rinv_set.
  - eexists. split; [reflexivity|]. now apply rinv_edge.
  - destruct (set_weights_spec g f k m Hg Ho) as (g' & s & E & H & _). eauto.
  - destruct Ho as (V1 & Hsub & Hl). destruct (node_ids_spec r V1) as (xs & Exs & _ & Hxs). unfold rg_load. rewrite Exs. cbn [obind].
    assert (Hn : forall x, In x xs -> is_node nodes x) by (intros x Hx; apply Hsub; now apply Hxs).
    rewrite (phys_streaks_spec g f xs Hg Hn). cbn [obind]. destruct (rinv_load xs g f vs Hg Hn (Hl xs Exs)) as (c & Ec & Hc). rewrite Ec. cbn [option_map]. eauto.
Qed.

Lemma rinv_ops ops : forall g f, rinv g f -> Forall (uop_ok nodes MATRICES) ops ->
  exists g', rg_ops zero dflt C SIGMA MATRICES srt g ops = Some g' /\ rinv g' (fun y => fold_left (fun acc w => if fst w =? y then snd w else acc) (flat_map uop_writes ops) (f y)).
Proof using HC HS Hsrt Hr Eids Hne.
  induction ops as [|o ops IH]; intros g f Hg Ho; [eexists; split; [reflexivity|exact Hg]|]. inversion Ho; subst. cbn [rg_ops].
  destruct (rinv_op g f o Hg) as (g1 & E1 & R1); [assumption|]. rewrite E1. cbn [obind]. destruct (IH g1 _ R1) as (g' & E & R); [assumption|]. exists g'. split; [exact E|].
  cbn [flat_map]. destruct R as (A1 & A2 & A3 & n & F & A4 & A5 & A6). split; [exact A1|]. split; [exact A2|]. split; [exact A3|]. exists n, F. split; [exact A4|]. split; [exact A5|].
  intros q x Hq. rewrite fold_left_app. now apply A6.
Qed.
End Grid1.
