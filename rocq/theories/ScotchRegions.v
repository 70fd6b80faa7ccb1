(** Facts on the regions of the SCOTCH partitions. *)
From Verif Require Import Base RegionSpec RegionModel RegionRep RegionIterModel RegionStreaks CoordModel CoordSpec RegionOpsModel RegionOps CoordFacts
  RegionHistory RegionHist RegionReach PartitionSpec PartitionFacts StripingFacts RegionObjModel PatchModel GridModel GridFacts UpdateModel AdjacencyModel ScotchModel ScotchSpec ScotchFacts.
From Coq Require Import Lia ZifyBool ZifyNat.

(** ** Rows *)

Lemma start_length origin dims i : dims_fine dims -> length (start_coord origin dims i) = length dims.
Proof.
  intros Hd. destruct (dims_cases dims Hd) as [(Y & X & -> & _)|(W & Y & X & -> & _)]; reflexivity.
Qed.

(** A box of one row covers consecutive cells. *)
Lemma row_box origin dims start len c : dims_fine dims -> length origin = length dims -> 0 <= start -> 1 <= len -> start + len <= prod dims ->
  start / axis 0 dims = (start + len - 1) / axis 0 dims ->
  in_box (mkBox (start_coord origin dims start) (repeat 1 (length dims - 1) ++ [len])) c <-> exists j, start <= j < start + len /\ c = start_coord origin dims j.
Proof.
  intros Hd Ho Hs Hl Hp Hrow. destruct (dims_cases dims Hd) as [(Y & X & -> & HY & HX)|(W & Y & X & -> & HW & HY & HX)].
  - unfold start_coord, in_box in *. cbn [b_origin b_dim length Nat.sub repeat app Nat.eqb axis rev nth] in *.
    assert (R : forall j, start <= j < start + len -> j / X = start / X /\ j mod X = start mod X + (j - start)).
    { intros j Hj. assert (E : j / X = start / X). { pose proof (Z.div_le_mono start j X ltac:(lia) ltac:(lia)). pose proof (Z.div_le_mono j (start + len - 1) X ltac:(lia) ltac:(lia)). lia. }
      split; [exact E|]. pose proof (Z.div_mod j X ltac:(lia)) as D1. pose proof (Z.div_mod start X ltac:(lia)) as D2. rewrite E in D1. lia. }
    destruct c as [|y [|x [|]]]; cbn [inside]; try (split; [tauto|intros (j & _ & Hc); discriminate]). set (q := start / X) in *. set (r := start mod X) in *. clearbody q r. clear Hrow. split.
    + intros (H1 & H2 & _). exists (start + (x - (axis 0 origin + r))). split; [lia|]. destruct (R (start + (x - (axis 0 origin + r))) ltac:(lia)) as (-> & ->). f_equal; [lia|]. f_equal. lia.
    + intros (j & Hj & Hc). destruct (R j Hj) as (R1 & R2). rewrite R1, R2 in Hc. injection Hc as Hy Hx. subst y x. repeat split; lia.
  - unfold start_coord, in_box in *. cbn [b_origin b_dim length Nat.sub repeat app Nat.eqb axis rev nth] in *.
    destruct (split_no X Y start ltac:(lia) ltac:(lia)) as (z & y0 & x0 & Es & Hx0 & Hy0).
    assert (R : forall j, start <= j < start + len -> j = (z * Y + y0) * X + (x0 + (j - start)) /\ 0 <= x0 + (j - start) < X).
    { intros j Hj. assert (E : j / X = start / X). { pose proof (Z.div_le_mono start j X ltac:(lia) ltac:(lia)). pose proof (Z.div_le_mono j (start + len - 1) X ltac:(lia) ltac:(lia)). lia. }
      split; [lia|]. pose proof (Z.div_mod j X ltac:(lia)) as D1. pose proof (Z.mod_pos_bound j X ltac:(lia)) as D2. rewrite E in D1. rewrite Es in D1 at 1. rewrite no_div_x in D1 by assumption. rewrite Es. lia. }
    assert (C : forall j, start <= j < start + len -> j / (X * Y) = z /\ j mod (X * Y) / X = y0 /\ j mod (X * Y) mod X = x0 + (j - start)).
    { intros j Hj. destruct (R j Hj) as (E & B). set (xx := x0 + (j - start)) in *. rewrite E. rewrite no_div_xy, no_mod_xy by assumption.
      pose proof (no_mod_x X 0 0 y0 xx B) as M. pose proof (no_div_x X 0 0 y0 xx B) as D. cbn [Z.mul Z.add] in M, D. now rewrite M, D. }
    destruct (C start ltac:(lia)) as (S1 & S2 & S3). rewrite S1, S2, S3. clear S1 S2 S3 Hrow.
    destruct c as [|cz [|y [|x [|]]]]; cbn [inside]; try (split; [tauto|intros (j & _ & Hc); discriminate]). split.
    + intros (H1 & H2 & H3 & _). exists (start + (x - (axis 0 origin + x0))). split; [lia|]. destruct (C (start + (x - (axis 0 origin + x0))) ltac:(lia)) as (-> & -> & ->). f_equal; [lia|]. f_equal; [lia|]. f_equal. lia.
    + intros (j & Hj & Hc). destruct (C j Hj) as (C1 & C2 & C3). rewrite C1, C2, C3 in Hc. injection Hc as -> -> ->. repeat split; lia.
Qed.

Lemma start_shift origin dims i : dims_fine dims -> length origin = length dims -> start_coord origin dims i = zadd origin (cell_at dims i).
Proof.
  intros Hd Ho. destruct (dims_cases dims Hd) as [(Y & X & -> & _)|(W & Y & X & -> & _)]; cbn [length] in Ho.
  - destruct origin as [|a [|b [|]]]; try discriminate. unfold cell_at, start_coord. cbn [map axis rev nth app length Nat.eqb zadd]. reflexivity.
  - destruct origin as [|a [|b [|c [|]]]]; try discriminate. unfold cell_at, start_coord. cbn [map axis rev nth app length Nat.eqb zadd]. reflexivity.
Qed.

Lemma box_shift : forall dims origin c, length origin = length dims ->
  (in_box (mkBox origin dims) c <-> length c = length dims /\ in_grid dims (zsub c origin)).
Proof.
  unfold in_box, in_grid. cbn [b_origin b_dim]. induction dims as [|n dims IH]; intros [|o origin] c Hl; try discriminate.
  - destruct c; cbn; [tauto|]. split; [tauto|intros []; discriminate].
  - destruct c as [|x c]; [cbn; split; [tauto|intros []; discriminate]|]. injection Hl as Hl. cbn [inside zsub map length]. rewrite (IH origin c Hl). split.
    + intros (H1 & H2 & H3). repeat split; try lia; assumption.
    + intros (H1 & H2 & H3). repeat split; try lia; assumption.
Qed.

Lemma zsub_back : forall (origin g : coord), length g = length origin -> zsub (zadd origin g) origin = g.
Proof. induction origin as [|o origin IH]; intros [|x g] H; try discriminate; [reflexivity|]. cbn [zadd zsub]. rewrite IH by (cbn in H; lia). f_equal. lia. Qed.

Lemma zadd_back : forall (origin c : coord), length c = length origin -> zadd origin (zsub c origin) = c.
Proof. induction origin as [|o origin IH]; intros [|x c] H; try discriminate; [reflexivity|]. cbn [zadd zsub]. rewrite IH by (cbn in H; lia). f_equal. lia. Qed.

(** ** The loop *)

Lemma row_rop d origin dims start len : dims_fine dims -> length dims = S d ->
  rop_ok (S d) (InsBox (mkBox (start_coord origin dims start) (repeat 1 (length dims - 1) ++ [len]))) /\
  (rop_fuel (InsBox (mkBox (start_coord origin dims start) (repeat 1%Z (length dims - 1) ++ [len]))) <= 1)%nat.
Proof.
  intros Hd Hl. cbn [rop_ok rop_fuel b_origin b_dim]. rewrite start_length by exact Hd. rewrite removelast_last.
  destruct (dims_cases dims Hd) as [(Y & X & -> & HY & HX)|(W & Y & X & -> & HW & HY & HX)]; cbn [length Nat.sub repeat app prod rows_regular b_dim] in *; unfold rows_regular; cbn [b_dim removelast];
    (split; [split; [lia|]; split; [lia|]; split; [lia|]; repeat constructor; lia|lia]).
Qed.

Section Loop.
Context (d num : nat) (origin dims : coord) (beyond : Z) (parts : list Z).
Hypothesis (Hdims : dims_fine dims) (Hlen : length dims = S d) (Horg : length origin = S d) (Hparts : parts_ok (prod dims) num parts).

(** Cells up to [start] have been dealt with. *)
Definition done_to (start : Z) (rs : list indices) : Prop :=
  length rs = num /\
  forall k r, nth_error rs k = Some r -> reachable d r /\
    forall c, length c = S d -> (rin r c <-> exists j, 0 <= j < start /\ part_of parts j = Z.of_nat k /\ c = start_coord origin dims j).

Lemma read_in i : 0 <= i < prod dims -> read_part (Some beyond) parts i = Some (part_of parts i) /\ 0 <= part_of parts i < Z.of_nat num.
Proof.
  intros Hi. destruct Hparts as (L & F). unfold read_part, vec_get, part_of. replace (i <? 0) with false by lia.
  destruct (nth_error parts (Z.to_nat i)) as [p|] eqn:E; [|apply nth_error_None in E; lia].
  rewrite (nth_error_nth _ _ _ E). split; [reflexivity|]. rewrite Forall_forall in F. apply F. now apply nth_error_In in E.
Qed.

Lemma done_step start len rs rank : 0 <= start -> 1 <= len -> start + len <= prod dims -> start / axis 0 dims = (start + len - 1) / axis 0 dims ->
  0 <= rank < Z.of_nat num -> (forall j, start <= j < start + len -> part_of parts j = rank) -> done_to start rs ->
  exists r r' rs', vec_get rs rank = Some r /\
    reg_insert_box 1 r (mkBox (start_coord origin dims start) (repeat 1 (length dims - 1) ++ [len])) = Some r' /\
    vec_set rs rank r' = Some rs' /\ done_to (start + len) rs'.
Proof.
  intros Hs Hl Hp Hrow Hk Hsame (Hn & Hd). unfold vec_get. replace (rank <? 0) with false by lia.
  destruct (nth_error rs (Z.to_nat rank)) as [r|] eqn:Er; [|apply nth_error_None in Er; lia].
  destruct (Hd _ _ Er) as (Hr & Hc). set (b := mkBox _ _).
  destruct (row_rop d origin dims start len Hdims Hlen) as (Rok & Rf). fold b in Rok, Rf.
  destruct (run_rop_valid d r (InsBox b) 1 (reachable_valid d r Hr) Rok Rf) as (r' & E' & V' & M'). cbn [run_rop] in E'.
  destruct (vec_set_spec rs rank r' ltac:(lia)) as (rs' & Es & L' & G'). exists r, r', rs'. split; [reflexivity|]. split; [exact E'|]. split; [exact Es|].
  split; [lia|]. intros k q Hq.
  assert (Hkn : (k < num)%nat) by (assert (k < length rs')%nat by (apply nth_error_Some; congruence); lia).
  destruct (Z.eq_dec (Z.of_nat k) rank) as [Ek|Ek].
  - assert (q = r'). { specialize (G' rank). rewrite Z.eqb_refl in G'. unfold vec_get in G'. replace (rank <? 0) with false in G' by lia. rewrite <- Ek, Nat2Z.id in G'. congruence. } subst q.
    split; [eapply reach_rop with (op := InsBox b) (fuel := 1%nat); eauto|]. intros c Hlc.
    rewrite (M' c Hlc). cbn [inserts removes]. unfold b. rewrite row_box by (try assumption; lia). rewrite (Hc c Hlc). rewrite Z2Nat.id by lia. rewrite Ek. split.
    + intros [(j & Hj & ->)|((j & Hj & Hpj & ->) & _)]; exists j; (split; [lia|]); split; auto.
    + intros (j & Hj & Hpj & ->). destruct (Z.lt_ge_cases j start); [right; split; [exists j; repeat split; auto; lia|tauto]|left; exists j; split; [lia|reflexivity]].
  - assert (Eq : nth_error rs k = Some q). { specialize (G' (Z.of_nat k)). replace (rank =? Z.of_nat k) with false in G' by lia. unfold vec_get in G'. replace (Z.of_nat k <? 0) with false in G' by lia. rewrite Nat2Z.id in G'. congruence. }
    destruct (Hd k q Eq) as (Hq1 & Hq2). split; [exact Hq1|]. intros c Hlc. rewrite (Hq2 c Hlc). split.
    + intros (j & Hj & Hpj & ->). exists j. repeat split; auto; lia.
    + intros (j & Hj & Hpj & ->). exists j. split; [|auto]. destruct (Z.lt_ge_cases j start); [lia|]. exfalso. apply Ek. rewrite <- Hpj. apply Hsame. lia.
Qed.

Lemma loop_spec : forall n i start rs rank, Z.of_nat n = prod dims + 1 - i -> 0 <= start < i -> i <= prod dims ->
  rank = part_of parts start -> (forall j, start <= j < i -> part_of parts j = rank) ->
  start / axis 0 dims = (i - 1) / axis 0 dims -> done_to start rs ->
  exists rs', regions_loop (Some beyond) parts origin dims n i rank (i - 1 - start) start rs = Some rs' /\ done_to (prod dims) rs'.
Proof.
  assert (HX : 1 <= axis 0 dims). { destruct (dims_cases dims Hdims) as [(Y & X & -> & HY & HX)|(W & Y & X & -> & HW & HY & HX)]; exact HX. }
  induction n as [|n IH]; intros i start rs rank Hn Hs Hi Hr Hsame Hrow Hdone; [lia|]. cbn [regions_loop].
  destruct (Z.eq_dec i (prod dims)) as [Ei|Ei].
  - (* the last iteration *)
    assert (Eread : read_part (Some beyond) parts i = Some beyond).
    { unfold read_part. destruct Hparts as (L & _). destruct (vec_get parts i) eqn:E; [|now replace (i =? Z.of_nat (length parts)) with true by lia].
      unfold vec_get in E. destruct (i <? 0); [discriminate|]. assert (Z.to_nat i < length parts)%nat by (apply nth_error_Some; congruence). lia. }
    rewrite Eread. cbn [obind]. replace (i <? prod dims) with false by lia. rewrite andb_false_r. cbn [andb].
    destruct (done_step start (i - start) rs rank) as (r & r' & rs' & G1 & G2 & G3 & G4); try assumption; try lia.
    { replace (start + (i - start) - 1) with (i - 1) by lia. exact Hrow. }
    { subst rank. apply read_in. lia. }
    { intros j Hj. apply Hsame. lia. }
    rewrite G1. cbn [obind]. replace (i - 1 - start + 1) with (i - start) by lia. rewrite G2. cbn [obind]. rewrite G3. cbn [obind].
    assert (n = O) by lia. subst n. cbn [regions_loop]. exists rs'. split; [reflexivity|]. replace (start + (i - start)) with (prod dims) in G4 by lia. exact G4.
  - destruct (read_in i ltac:(lia)) as (-> & Hpi). cbn [obind].
    destruct ((rank =? part_of parts i) && (i <? prod dims) && negb (i mod axis 0 dims =? 0)) eqn:E.
    + replace (i - 1 - start + 1) with (i + 1 - 1 - start) by lia. apply IH; try assumption; try lia.
      * intros j Hj. destruct (Z.eq_dec j i) as [->|]; [|apply Hsame; lia]. apply andb_true_iff in E. destruct E as (E & _). apply andb_true_iff in E. lia.
      * rewrite Hrow. apply andb_true_iff in E. destruct E as (_ & E). apply negb_true_iff, Z.eqb_neq in E. replace (i + 1 - 1) with i by lia. clear - E HX Hs.
        set (X := axis 0 dims) in *. clearbody X. pose proof (Z.div_mod i X ltac:(lia)) as D. pose proof (Z.mod_pos_bound i X ltac:(lia)) as B.
        set (q := i / X) in *. set (m := i mod X) in *. clearbody q m. symmetry. apply Z.div_unique with (r := m - 1); [lia|]. lia.
    + destruct (done_step start (i - start) rs rank) as (r & r' & rs' & G1 & G2 & G3 & G4); try assumption; try lia.
      { replace (start + (i - start) - 1) with (i - 1) by lia. exact Hrow. }
      { subst rank. apply read_in. lia. }
      { intros j Hj. apply Hsame. lia. }
      rewrite G1. cbn [obind]. replace (i - 1 - start + 1) with (i - start) by lia. rewrite G2. cbn [obind]. rewrite G3. cbn [obind].
      replace 0 with (i + 1 - 1 - i) by lia. replace (start + (i - start)) with i in G4 by lia. apply IH; try assumption; try lia.
      * intros j Hj. f_equal. lia.
      * f_equal. lia.
Qed.

Lemma create_spec : exists rs, create_regions (Some beyond) parts origin dims num = Some rs /\ done_to (prod dims) rs.
Proof.
  assert (HP : 1 <= prod dims). { destruct (dims_cases dims Hdims) as [(Y & X & -> & HY & HX)|(W & Y & X & -> & HW & HY & HX)]; cbn [prod]; nia. }
  unfold create_regions. destruct (read_in 0 ltac:(lia)) as (-> & Hp0). cbn [obind].
  apply (loop_spec (Z.to_nat (prod dims)) 1 0); try lia; try reflexivity.
  - intros j Hj. f_equal. lia.
  - split; [apply repeat_length|]. intros k r Hk. assert (r = reg_empty (S d)) as ->.
    { apply nth_error_In, repeat_spec in Hk. now rewrite Hlen in Hk. }
    split; [constructor|]. intros c Hc. split; [intros H; exfalso; now apply (rin_empty d c Hc)|intros (j & Hj & _); lia].
Qed.

Lemma done_owner rs : done_to (prod dims) rs -> forall k c, (k < num)%nat ->
  (cells d (scotch_region (Some rs)) k c <-> in_box (mkBox origin dims) c /\ part_of parts (cell_no 0 dims (zsub c origin)) = Z.of_nat k).
Proof.
  intros (Hl & Hd) k c Hk. unfold cells, scotch_region. cbn [obind]. destruct (nth_error rs k) as [r|] eqn:E; [|apply nth_error_None in E; lia].
  destruct (Hd k r E) as (_ & H).
  split.
  - intros (r' & [= <-] & Hc & Hin). apply (H c Hc) in Hin. destruct Hin as (j & Hj & Hp & ->).
    destruct (cell_at_spec dims j Hdims ltac:(lia)) as (G & N). rewrite box_shift by lia. rewrite start_shift in * by (try assumption; lia).
    assert (Lg : length (cell_at dims j) = length dims) by (unfold cell_at; apply start_length; assumption).
    rewrite zsub_back by lia. rewrite N. split; [|exact Hp]. split; [lia|exact G].
  - intros (Hb & Hp). apply box_shift in Hb; [|lia]. destruct Hb as (Lc & G). exists r. split; [reflexivity|]. split; [lia|]. apply (H c ltac:(lia)).
    set (j := cell_no 0 dims (zsub c origin)) in *. pose proof (cell_no_bound dims _ Hdims G) as B. fold j in B. exists j. split; [exact B|]. split; [exact Hp|].
    rewrite start_shift by (try assumption; lia). destruct (cell_at_spec dims j Hdims B) as (G' & N').
    rewrite (cell_no_inj dims (cell_at dims j) (zsub c origin) Hdims G' G N'). symmetry. apply zadd_back. lia.
Qed.
End Loop.

(** ** Unstructured grids *)

Lemma adj_loop_spec a (nb : Z -> list Z) N : (forall i acc, 0 <= i < N -> ra_neighbors a i acc = Some (acc ++ nb i)) ->
  forall n i current vt et, 0 <= i -> i + Z.of_nat n <= N ->
  adj_loop a n i current vt et = let (v, e) := csr_loop nb n i current in Some (vt ++ v, et ++ e).
Proof.
  intros H. induction n as [|n IH]; intros i current vt et Hi HN; cbn [adj_loop csr_loop]; [now rewrite app_nil_r|].
  rewrite H by lia. cbn [obind]. rewrite IH by lia. rewrite app_length, Nat2Z.inj_add. replace (current + (Z.of_nat (length et) + Z.of_nat (length (nb i)) - Z.of_nat (length et))) with (current + Z.of_nat (length (nb i))) by lia.
  destruct (csr_loop nb n (i + 1) (current + Z.of_nat (length (nb i)))) as [v e]. now rewrite <- !app_assoc.
Qed.

Lemma coords_spec num all : forall parts i rs, all = firstn (Z.to_nat i) all ++ parts -> 0 <= i -> Z.to_nat i = length (firstn (Z.to_nat i) all) ->
  Forall (fun p => 0 <= p < Z.of_nat num) parts -> length rs = num ->
  (forall k r, nth_error rs k = Some r -> reachable 0 r /\ forall c, length c = 1%nat -> (rin r c <-> exists j, 0 <= j < i /\ part_of all j = Z.of_nat k /\ c = [j])) ->
  exists rs', coords_loop parts i rs = Some rs' /\ length rs' = num /\
  forall k r, nth_error rs' k = Some r -> reachable 0 r /\ forall c, length c = 1%nat -> (rin r c <-> exists j, 0 <= j < Z.of_nat (length all) /\ part_of all j = Z.of_nat k /\ c = [j]).
Proof.
  induction parts as [|p parts IH]; intros i rs Hall Hi Hlen Hp Hn Hd; cbn [coords_loop].
  - exists rs. split; [reflexivity|]. split; [exact Hn|]. assert (E : Z.of_nat (length all) = i) by (rewrite Hall, app_nil_r; lia). now rewrite E.
  - inversion Hp as [|? ? Hp1 Hp2]; subst. unfold vec_get. replace (p <? 0) with false by lia.
    destruct (nth_error rs (Z.to_nat p)) as [r|] eqn:Er; [|apply nth_error_None in Er; lia]. cbn [obind].
    destruct (Hd _ _ Er) as (Hr & Hc). destruct (run_rop_valid 0 r (InsCoord [i]) 0 (reachable_valid 0 r Hr) eq_refl (le_n 0)) as (r' & E' & V' & M'). cbn [run_rop] in E'. injection E' as E'.
    rewrite E'. destruct (vec_set_spec rs p r' ltac:(lia)) as (rs' & Es & L' & G'). rewrite Es. cbn [obind].
    assert (Pi : part_of all i = p). { unfold part_of. rewrite Hall, app_nth2 by lia. replace (Z.to_nat i - length (firstn (Z.to_nat i) all))%nat with O by lia. reflexivity. }
    assert (F : firstn (Z.to_nat (i + 1)) all = firstn (Z.to_nat i) all ++ [p]).
    { rewrite Hall at 1. rewrite firstn_app. rewrite <- Hlen. replace (Z.to_nat (i + 1) - Z.to_nat i)%nat with 1%nat by lia. cbn [firstn]. f_equal. apply firstn_all2. lia. }
    destruct (IH (i + 1) rs') as (rs2 & R1 & R2 & R3); try assumption; try lia.
    + rewrite F, <- app_assoc. exact Hall.
    + rewrite F, app_length. cbn [length]. lia.
    + intros k q Hq.
      assert (Hkn : (k < length rs)%nat) by (assert (k < length rs')%nat by (apply nth_error_Some; congruence); lia).
      specialize (G' (Z.of_nat k)). unfold vec_get in G'. replace (Z.of_nat k <? 0) with false in G' by lia. rewrite Nat2Z.id in G'. rewrite Hq in G'.
      destruct (Z.eqb_spec p (Z.of_nat k)) as [Ek|Ek].
      * injection G' as ->. split; [eapply reach_rop with (op := InsCoord [i]) (fuel := O); eauto; [reflexivity|cbn [run_rop]; congruence]|].
        intros c Hl. rewrite (M' c Hl). cbn [inserts removes]. rewrite (Hc c Hl). rewrite Z2Nat.id by lia. split.
        -- intros [->|((j & Hj & Hpj & ->) & _)]; [exists i; repeat split; lia|exists j; repeat split; lia].
        -- intros (j & Hj & Hpj & ->). destruct (Z.eq_dec j i) as [->|]; [left; reflexivity|right]. split; [exists j; repeat split; lia|tauto].
      * destruct (Hd k q (eq_sym G')) as (Hq1 & Hq2). split; [exact Hq1|]. intros c Hl. rewrite (Hq2 c Hl). split.
        -- intros (j & Hj & Hpj & ->). exists j. repeat split; lia.
        -- intros (j & Hj & Hpj & ->). exists j. destruct (Z.eq_dec j i) as [->|]; [lia|]. repeat split; lia.
    + exists rs2. auto.
Qed.
