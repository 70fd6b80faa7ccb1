(** Facts on CollectingWriter. *)
From Verif Require Import Base ListFacts RegionSpec RegionModel RegionRep RegionIterModel RegionStreaks RegionOpsModel RegionOps RegionObjModel HaloSpec
  CoordModel CoordSpec CoordFacts TopologyFacts PatchModel ConfigFacts SellModel AdjacencyFacts UpdateModel GridModel GridSpec GridFacts DisplacedFacts GridReach GridProps
  CollectModel CollectSpec.

Lemma zadd_zeros dim : forall c, length c = length dim -> zadd c (zeros dim) = c.
Proof. induction dim as [|n dim IH]; intros [|x c] H; try discriminate; cbn; [reflexivity|]. rewrite Z.add_0_r. f_equal. apply IH. cbn in H. lia. Qed.

Lemma list_len {A B} (R : A -> B -> Prop) a b : Forall2 R a b -> length a = length b.
Proof. induction 1; cbn; auto. Qed.

(** A region survives the transfer. *)
Lemma region_roundtrip n r : rvalid n r -> exists ss, reg_streaks r = Some ss /\ rg_idx (rg_insert_all (rg_new (S n)) ss) = r.
Proof.
  intros Hv. destruct (streaks_valid n r Hv) as (ss & Hok & Hin & E & _). exists ss. split; [exact E|].
  destruct (insert_new n ss (ok_dims _ _ Hok)) as [H1 H2]. apply (valid_ext n); [apply H1|exact Hv|].
  intros c Hc. now rewrite H2, Hin.
Qed.

Section Collect.
Context {C E : Type}.
Variables (t : topology) (correct : bool) (dflt : C) (n : nat) (dims : coord) (G : nat -> coord -> C).
Hypotheses (Ht : length t = S n) (Hdims : length dims = S n) (Hpos : allpos dims).

Notation gbox := (mkBox (zeros dims) dims).
Notation reach := (dg_reach t false gbox (zeros dims)).

Lemma collect_setup : setup_ok t false gbox (zeros dims).
Proof using Ht Hdims Hpos.
  unfold setup_ok, zeros. cbn. rewrite map_length. split; [|split; [congruence|split; [congruence|split; [exact Hpos|discriminate]]]]. intros Et. rewrite Et in Ht. discriminate.
Qed.

Lemma collect_box g : reach g -> dg_box (C := C) g = gbox.
Proof using Ht Hdims Hpos. intros Hr. destruct (dg_reach_rep _ _ _ _ _ collect_setup Hr) as [f (H1 & H2 & H3 & _)]. unfold dg_box. now rewrite H1, H3. Qed.

Lemma collect_reachable c : in_grid dims c -> reachable_coord t false gbox (zeros dims) c.
Proof using Ht Hdims Hpos.
  intros Hc. pose proof (in_grid_length _ _ Hc) as Hl. split; [congruence|]. cbn [b_dim b_origin]. rewrite zsub_zeros by exact Hl. now apply in_grid_close.
Qed.

Lemma collect_denotes c : in_grid dims c -> ddenotes t false gbox (zeros dims) c = Some c.
Proof using Ht Hdims Hpos.
  intros Hc. pose proof (in_grid_length _ _ Hc) as Hl. unfold ddenotes. cbn [b_dim b_origin]. rewrite zsub_zeros by exact Hl.
  apply denotes_self; auto. congruence.
Qed.

Lemma collect_edge g v : reach g -> reach (dg_set_edge g v) /\ g_edge (d_grid (dg_set_edge (C := C) g v)) = v /\
  forall c, in_grid dims c -> dg_get t false (dg_set_edge g v) c = dg_get t false g c.
Proof using Ht Hdims Hpos.
  intros Hr. split; [|split; [reflexivity|]].
  - apply (reach_op t false gbox (zeros dims) g (GSetEdge v)); [exact Hr|exact I|reflexivity].
  - intros c Hc. destruct (dg_reach_rep _ _ _ _ _ collect_setup Hr) as [f Hf].
    destruct (drep_op t false gbox (zeros dims) collect_setup g f (GSetEdge v) Hf I) as (g' & Eg & Hf'). cbn in Eg. injection Eg as <-.
    rewrite (drep_get t false gbox (zeros dims) collect_setup _ _ c Hf' (collect_reachable c Hc)).
    rewrite (drep_get t false gbox (zeros dims) collect_setup _ _ c Hf (collect_reachable c Hc)).
    rewrite (collect_denotes c Hc). cbn. unfold last_written. cbn. destruct (place_dec None (Some c)); [discriminate|reflexivity].
Qed.

(** Storing the cells of a call. *)
Lemma collect_load i (k : wcall C E) : call_ok t correct n dims G i k -> exists buf, saved t correct k = Some buf /\
  forall g, reach g -> exists g', dg_load t false g (k_region k) (zeros dims) buf = Some g' /\ reach g' /\
    (forall c, inr n (k_region k) c -> dg_get t false g' c = Some (G i c)) /\
    (forall c, in_grid dims c -> ~ inr n (k_region k) c -> dg_get t false g' c = dg_get t false g c) /\
    g_edge (d_grid g') = g_edge (d_grid g).
Proof using Ht Hdims Hpos dflt.
  intros (Hd & Hv & Hin & b & topo & Hs & Hr & Htr & Hget). unfold saved. rewrite Hd.
  assert (Hz : length (zeros dims) = S n) by (unfold zeros; rewrite map_length; exact Hdims).
  assert (Hin' : forall c, inr n (k_region k) c -> zadd c (zeros dims) = c).
  { intros c Hc. apply zadd_zeros. now apply in_grid_length, Hin. }
  assert (Htr2 : transfer_ok t false gbox (zeros dims) (inr n (k_region k)) (zeros dims)).
  { intros c Hc. rewrite (Hin' c Hc). unfold in_box. cbn [b_origin b_dim]. now apply Hin. }
  pose proof (fun g Hg => C37_region_transfer C n t correct b topo t false gbox (zeros dims) (k_grid k) g (k_region k) (zeros dims) (zeros dims)
                Ht Ht Hs collect_setup Hr Hg Hv Hz Hz Htr Htr2) as HT.
  destruct (HT _ (reach_make t false gbox (zeros dims) dflt dflt)) as (cs0 & buf & _ & _ & Esave & _). exists buf. split; [exact Esave|].
  intros g Hg. destruct (HT g Hg) as (cs & buf' & g' & Ecs & Esave' & Eload & Hall & Hat & Hother & Hedge).
  assert (buf' = buf) by congruence. subst buf'. exists g'. split; [exact Eload|]. split.
  - apply (reach_load t false gbox (zeros dims) g n (k_region k) (zeros dims) buf g' Hg Ht Hv Hz Htr2 Eload).
    intros cs' Ecs'. assert (cs' = cs) by congruence. subst cs'. apply Nat.eq_le_incl. exact (list_len _ _ _ Hall).
  - split; [|split; [|exact Hedge]].
    + intros c Hc. specialize (Hat c Hc). rewrite (Hin' c Hc) in Hat. rewrite Hat. now apply Hget.
    + intros c Hc Hn. apply Hother; [now apply collect_reachable|]. intros c0 Hc0. rewrite (Hin' c0 Hc0).
      rewrite !collect_denotes; [congruence|exact Hc|now apply Hin].
Qed.
End Collect.

Section Protocol.
Context {C E : Type}.
Variables (t : topology) (correct : bool) (dflt : C) (n : nat) (dims : coord) (size root cap num : nat) (calls : nat -> nat -> wcall C E) (G : nat -> coord -> C).
Hypotheses (Ht : length t = S n) (Hdims : length dims = S n) (Hpos : allpos dims) (Hroot : (root < size)%nat) (Hcap : (0 < cap)%nat)
  (Hok : calls_ok t correct n dims size root num calls G).

Notation gbox := (mkBox (zeros dims) dims).
Notation reach := (dg_reach t false gbox (zeros dims)).
Notation step := (w_step t correct dflt size root cap num calls).
Notation msg := (fun r i => message t correct (calls r i)).

Lemma collect_message i (k k' : wcall C E) : call_ok t correct n dims G i k -> k_dims k' = dims -> exists m, message t correct k = Some m /\
  forall g, reach g -> exists g', load_message t g k' m = Some g' /\ reach g' /\
    (forall c, inr n (k_region k) c -> dg_get t false g' c = Some (G i c)) /\
    (forall c, in_grid dims c -> ~ inr n (k_region k) c -> dg_get t false g' c = dg_get t false g c) /\
    g_edge (d_grid g') = g_edge (d_grid g).
Proof using Ht Hdims Hpos dflt.
  intros Hk Hd. destruct (collect_load t correct dflt n dims G Ht Hdims Hpos i k Hk) as (buf & Es & Hl).
  pose proof Hk as (_ & Hv & _). destruct (region_roundtrip n _ Hv) as (ss & Ess & Er). exists (ss, buf). unfold message. rewrite Ess, Es. split; [reflexivity|].
  intros g Hg. unfold load_message. cbn [fst snd]. rewrite Hd, Hdims, Er. now apply Hl.
Qed.

Definition received (s : wstate C E) (r : nat) : nat :=
  match w_phase s with Idle => w_call s | Receiving x => if (r <? x)%nat then S (w_call s) else w_call s end.

Definition seen (s : wstate C E) (r j : nat) : Prop :=
  (r < size)%nat /\ ((j < w_call s)%nat \/ j = w_call s /\ exists x, w_phase s = Receiving x /\ ((r < x)%nat \/ r = root)).

Definition known (s : wstate C E) : Prop := forall c v j0, in_grid dims c ->
  (exists r j, seen s r j /\ (j0 <= j)%nat /\ inr n (k_region (calls r j)) c) ->
  (forall r j, seen s r j -> (j0 <= j)%nat -> inr n (k_region (calls r j)) c -> G j c = v) ->
  dg_get t false (w_grid s) c = Some v.

Definition rootsteps (s : wstate C E) : nat :=
  (w_call s * (size + 2) + match w_phase s with Idle => 0 | Receiving x => S x end)%nat.

Record inv (m : nat) (s : wstate C E) : Prop := {
  i_phase : match w_phase s with Idle => (w_call s <= num)%nat | Receiving x => (w_call s < num)%nat /\ (x <= size)%nat end;
  i_chan : forall r, (r < size)%nat -> r <> root -> (received s r <= w_sent s r <= num)%nat /\ (length (w_chan s r) <= cap)%nat /\
    map Some (w_chan s r) = map (msg r) (seq (received s r) (w_sent s r - received s r));
  i_grid : (w_phase s = Idle /\ w_call s = O /\ b_dim (dg_box (w_grid s)) <> dims) \/ reach (w_grid s);
  i_known : known s;
  i_edge : forall x, w_phase s = Receiving x -> g_edge (d_grid (w_grid s)) = g_edge (d_grid (k_grid (calls root (w_call s))));
  i_log : Forall2 (delivers t dims root calls G) (due root calls (w_call s)) (rev (w_log s));
  i_sent : w_sent s root = O;
  i_steps : m = (list_sum (map (w_sent s) (seq 0 size)) + rootsteps s)%nat;
}.

Lemma sum_put (f : nat -> nat) r l : NoDup l -> In r l -> list_sum (map (put f r (S (f r))) l) = S (list_sum (map f l)).
Proof using.
  clear. induction 1 as [|x l Hx Hnd IH]; intros Hr; [destruct Hr|]. cbn [map list_sum fold_right]. unfold put at 1.
  change (fold_right Nat.add 0%nat) with list_sum. destruct (Nat.eqb_spec x r) as [->|Hne].
  - cbn [Nat.add]. do 3 f_equal. apply map_ext_in. intros a Ha. unfold put. destruct (Nat.eqb_spec a r); [subst; contradiction|reflexivity].
  - destruct Hr as [Hr|Hr]; [congruence|]. rewrite IH by exact Hr. lia.
Qed.

Lemma inr_dec r c : inr n r c \/ ~ inr n r c.
Proof using.
  clear. unfold inr. destruct (Nat.eq_dec (length c) (S n)); [|right; tauto]. destruct (reg_count r c) as [[]|]; [left; auto|right|right]; intros [_ H]; discriminate.
Qed.

(** Storing one more part. *)
Lemma known_store s s' r g' : known s -> w_grid s' = g' -> (r < size)%nat ->
  (forall a j, seen s' a j <-> seen s a j \/ (a = r /\ j = w_call s)) -> (forall a j, seen s a j -> (j <= w_call s)%nat) ->
  (forall c, inr n (k_region (calls r (w_call s))) c -> dg_get t false g' c = Some (G (w_call s) c)) ->
  (forall c, in_grid dims c -> ~ inr n (k_region (calls r (w_call s))) c -> (exists a j, seen s a j) -> dg_get t false g' c = dg_get t false (w_grid s) c) ->
  known s'.
Proof using.
  clear. intros Hk <- Hr Hs Hle Hat Hother c v j0 Hc (a & j & Ha & Hj & Hin) Hall.
  destruct (inr_dec (k_region (calls r (w_call s))) c) as [Hy|Hn].
  - rewrite (Hat c Hy). f_equal. apply (Hall r); [apply Hs; now right| |exact Hy].
    apply Hs in Ha. destruct Ha as [Ha|[_ ->]]; [apply Hle in Ha; lia|exact Hj].
  - apply Hs in Ha. destruct Ha as [Ha|[-> ->]]; [|contradiction]. rewrite Hother; [|exact Hc|exact Hn|eauto].
    apply (Hk c v j0 Hc); [eauto|]. intros a' j' Ha'. apply Hall. apply Hs. now left.
Qed.

Lemma seen_le s a j : seen s a j -> (j <= w_call s)%nat.
Proof using. clear. intros [_ [H|[-> _]]]; lia. Qed.

Lemma call_here i r : (i < num)%nat -> (r < size)%nat -> call_ok t correct n dims G i (calls r i).
Proof using Hok. intros H1 H2. destruct Hok as [H _]. now apply H. Qed.

Lemma init_dims : repeat 0 (S n) <> dims.
Proof using Hdims Hpos.
  clear - Hdims Hpos. intros Ed. destruct dims as [|x d]; [discriminate|]. inversion Hpos as [|? ? Hx _]. cbn in Ed. injection Ed as E0 _. lia.
Qed.

(** The root's own part. *)
Lemma collect_own s : (w_call s < num)%nat -> known s -> (w_phase s = Idle /\ w_call s = O /\ b_dim (dg_box (w_grid s)) <> dims) \/ reach (w_grid s) ->
  exists g, load_own t correct dflt (w_grid s) (calls root (w_call s)) = Some g /\ reach g /\
    g_edge (d_grid g) = g_edge (d_grid (k_grid (calls root (w_call s)))) /\
    (forall c, inr n (k_region (calls root (w_call s))) c -> dg_get t false g c = Some (G (w_call s) c)) /\
    (forall c, in_grid dims c -> ~ inr n (k_region (calls root (w_call s))) c -> (exists a j, w_phase s = Idle /\ seen s a j) -> dg_get t false g c = dg_get t false (w_grid s) c).
Proof using Ht Hdims Hpos Hroot Hcap Hok.
  intros Hc Hk Hg. pose proof (call_here (w_call s) root Hc Hroot) as Hcall. pose proof Hcall as (Hd & _ & Hin & _).
  destruct (collect_load t correct dflt n dims G Ht Hdims Hpos _ _ Hcall) as (buf & Es & Hl). unfold load_own. rewrite Es, Hd. cbn [obind].
  set (g1 := if CoordModel.coord_eqb _ _ then _ else _).
  assert (H1 : reach g1 /\ ((exists a j, w_phase s = Idle /\ seen s a j) -> g1 = w_grid s)).
  { unfold g1. destruct Hg as [(P & Z0 & Hne)|Hg].
    - destruct (CoordModel.coord_eqb _ _) eqn:Ee; [apply coord_eqb_spec in Ee; congruence|]. split; [constructor|].
      intros (a & j & _ & _ & [Hs|[_ (x & Hx & _)]]); [lia|congruence].
    - rewrite (collect_box t n dims Ht Hdims Hpos _ Hg). cbn [b_dim]. replace (CoordModel.coord_eqb dims dims) with true by (symmetry; now apply coord_eqb_spec). split; [exact Hg|reflexivity]. }
  destruct H1 as [Hr1 H1]. clearbody g1. destruct (Hl g1 Hr1) as (g2 & E2 & Hr2 & Hat & Hother & _). rewrite E2. cbn [option_map].
  destruct (collect_edge t n dims Ht Hdims Hpos g2 (g_edge (d_grid (k_grid (calls root (w_call s))))) Hr2) as (Hr3 & He & Hget).
  eexists. split; [reflexivity|]. split; [exact Hr3|]. split; [exact He|]. split.
  - intros c Hy. rewrite Hget by (now apply Hin). now apply Hat.
  - intros c Hy Hn Hex. rewrite Hget by exact Hy. rewrite Hother by assumption. now rewrite (H1 Hex).
Qed.

Lemma inv_init : inv 0 (w_init dflt (S n)).
Proof using Ht Hdims Hpos Hroot Hcap Hok.
  constructor; cbn; try reflexivity; try lia; try discriminate.
  - intros r _ _. unfold received. cbn. repeat split; try lia.
  - left. split; [reflexivity|]. split; [reflexivity|]. exact init_dims.
  - intros c v j0 _ (r & j & (_ & [H|[_ (x & Hx & _)]]) & _); [cbn in H; lia|discriminate].
  - constructor.
  - unfold rootsteps. cbn. induction (seq 0 size); cbn; auto.
Qed.

Lemma inv_send m s r : inv m s -> (r < size)%nat -> r <> root -> (w_sent s r < num)%nat -> (length (w_chan s r) < cap)%nat ->
  exists s', step s (Send r) = Next s' /\ inv (S m) s'.
Proof using Ht Hdims Hpos Hroot Hcap Hok.
  intros [Hp Hch Hg Hk He Hl Hsr Hst] Hr Hne Hs Hc. unfold w_step.
  replace ((r <? size)%nat && negb (r =? root)%nat && (w_sent s r <? num)%nat && (length (w_chan s r) <? cap)%nat) with true
    by (symmetry; repeat (apply andb_true_iff; split); try (apply Nat.ltb_lt; assumption); destruct (Nat.eqb_spec r root); [congruence|reflexivity]).
  destruct (collect_message (w_sent s r) (calls r (w_sent s r)) (calls r (w_sent s r)) (call_here _ r Hs Hr) (proj1 (call_here _ r Hs Hr))) as (x & Ex & _).
  rewrite Ex. eexists. split; [reflexivity|]. constructor; cbn [w_phase w_call w_sent w_chan w_grid w_log]; auto.
  - intros r' Hr' Hne'. specialize (Hch r' Hr' Hne').
    change (received (mkW (put (w_sent s) r (S (w_sent s r))) (put (w_chan s) r (w_chan s r ++ [x])) (w_call s) (w_phase s) (w_grid s) (w_log s)) r') with (received s r').
    unfold put. destruct (Nat.eqb_spec r' r) as [->|_]; [|exact Hch]. destruct Hch as (H1 & H2 & H3). split; [lia|]. split; [rewrite app_length; cbn; lia|].
    rewrite map_app, H3. replace (S (w_sent s r) - received s r)%nat with (S (w_sent s r - received s r)) by lia. rewrite seq_S, map_app. cbn [map].
    replace (received s r + (w_sent s r - received s r))%nat with (w_sent s r) by lia. now rewrite Ex.
  - unfold put. destruct (Nat.eqb_spec root r); [congruence|exact Hsr].
  - rewrite sum_put; [|apply seq_NoDup|apply in_seq; lia]. unfold rootsteps in *. cbn [w_phase w_call]. lia.
Qed.

Lemma due_S i : due root calls (S i) = if k_last (calls root i) then due root calls i ++ [i] else due root calls i.
Proof using. clear. unfold due. rewrite seq_S, filter_app. cbn. destruct (k_last (calls root i)); [reflexivity|apply app_nil_r]. Qed.

Lemma inv_root m s : inv m s -> (w_call s < num)%nat ->
  (exists s', step s Root = Next s' /\ inv (S m) s') \/
  (step s Root = Blocked /\ exists r, (r < size)%nat /\ r <> root /\ (w_sent s r < num)%nat /\ (length (w_chan s r) < cap)%nat).
Proof using Ht Hdims Hpos Hroot Hcap Hok.
  intros Hinv Hnum. pose proof Hinv as [Hp Hch Hg Hk He Hl Hsr Hst]. unfold w_step. destruct (w_phase s) as [|x] eqn:Ep.
  - left. destruct (Nat.ltb_spec (w_call s) num); [|lia].
    destruct (collect_own s Hnum Hk) as (g & Eg & Hr & Hedge & Hat & Hother). { rewrite Ep. exact Hg. }
    rewrite Eg. eexists. split; [reflexivity|]. constructor; cbn [w_phase w_call w_sent w_chan w_grid w_log]; auto.
    + split; lia.
    + intros r Hr' Hne. specialize (Hch r Hr' Hne). unfold received in *. cbn [w_phase w_call]. rewrite Ep in Hch. cbn. exact Hch.
    + apply known_store with (s := s) (r := root) (g' := g); [exact Hk|reflexivity|exact Hroot| |apply seen_le|exact Hat|].
      * intros a j. unfold seen. cbn [w_phase w_call]. rewrite Ep. split.
        -- intros (Ha & [Hj|[-> (y & Ey & Hy)]]); [left; auto|]. injection Ey as <-. destruct Hy as [Hy|Hy]; [lia|right; auto].
        -- intros [(Ha & [Hj|[_ (y & Ey & _)]])|[-> ->]]; [auto|discriminate|]. split; [exact Hroot|]. right. split; [reflexivity|]. exists O. auto.
      * intros c Hc Hn (a & j & Ha). apply Hother; auto. exists a, j. auto.
    + unfold rootsteps in *. cbn [w_phase w_call]. rewrite Ep in Hst. lia.
  - destruct Hp as [_ Hx]. destruct Hg as [(Hg & _)|Hg]; [discriminate|]. destruct (Nat.ltb_spec x size) as [Hxs|Hxs].
    + destruct (Nat.eqb_spec x root) as [->|Hne].
      * left. eexists. split; [reflexivity|]. constructor; cbn [w_phase w_call w_sent w_chan w_grid w_log]; auto.
        -- intros r Hr Hne. specialize (Hch r Hr Hne). unfold received in *. cbn [w_phase w_call]. rewrite Ep in Hch.
           destruct (Nat.ltb_spec r root); destruct (Nat.ltb_spec r (S root)); try lia; exact Hch.
        -- intros c v j0 Hc (a & j & Ha & Hj) Hall.
           assert (Hs : forall a j, seen (mkW (w_sent s) (w_chan s) (w_call s) (Receiving (S root)) (w_grid s) (w_log s)) a j <-> seen s a j).
           { intros a' j'. unfold seen. cbn [w_phase w_call]. rewrite Ep. split; intros (H1 & [H2|[H2 (y & Ey & Hy)]]); split; auto; right; (split; [exact H2|]); injection Ey as <-; eexists; (split; [reflexivity|]); lia. }
           apply (Hk c v j0 Hc); [exists a, j; split; [now apply Hs|exact Hj]|]. intros a' j' Ha'. apply Hall. now apply Hs.
        -- intros y Ey. now apply (He root).
        -- unfold rootsteps in *. cbn [w_phase w_call]. rewrite Ep in Hst. lia.
      * pose proof (Hch x Hxs Hne) as (H1 & H2 & H3). unfold received in H1, H3. rewrite Ep in H1, H3. destruct (Nat.ltb_spec x x); [lia|].
        destruct (w_chan s x) as [|ms mss] eqn:Ec.
        { right. split; [reflexivity|]. exists x. rewrite Ec. split; [exact Hxs|]. split; [exact Hne|]. split; [|cbn; lia].
          destruct (w_sent s x - w_call s)%nat eqn:Ed; [lia|]. cbn in H3. discriminate. }
        left. destruct (w_sent s x - w_call s)%nat as [|d] eqn:Ed; [discriminate|]. cbn [map seq] in H3. injection H3 as Em Etail.
        destruct (collect_message (w_call s) (calls x (w_call s)) (calls root (w_call s)) (call_here _ x Hnum Hxs) (proj1 (call_here _ root Hnum Hroot)))
          as (m0 & Em0 & Hld). assert (m0 = ms) by congruence. subst m0. destruct (Hld (w_grid s) Hg) as (g & Eg & Hr & Hat & Hother & Hedge).
        rewrite Eg. eexists. split; [reflexivity|]. constructor; cbn [w_phase w_call w_sent w_chan w_grid w_log]; auto.
        -- intros r Hr' Hne'. specialize (Hch r Hr' Hne'). unfold received in *. cbn [w_phase w_call]. rewrite Ep in Hch. unfold put.
           destruct (Nat.eqb_spec r x) as [->|Hrx].
           ++ destruct (Nat.ltb_spec x (S x)); [|lia]. split; [lia|]. split; [cbn in H2; lia|]. rewrite Etail. do 2 f_equal. lia.
           ++ destruct (Nat.ltb_spec r x); destruct (Nat.ltb_spec r (S x)); try lia; exact Hch.
        -- apply known_store with (s := s) (r := x) (g' := g); [exact Hk|reflexivity|exact Hxs| |apply seen_le|exact Hat|].
           ++ intros a j. unfold seen. cbn [w_phase w_call]. rewrite Ep. split.
              ** intros (Ha & [Hj|[-> (y & Ey & Hy)]]); [left; auto|]. injection Ey as <-. destruct (Nat.eq_dec a x) as [->|Hax]; [right; auto|].
                 left. split; [exact Ha|]. right. split; [reflexivity|]. exists x. split; [reflexivity|]. lia.
              ** intros [(Ha & [Hj|[Hj (y & Ey & Hy)]])|[-> ->]]; [auto| |].
                 --- split; [exact Ha|]. right. split; [exact Hj|]. injection Ey as <-. eexists. split; [reflexivity|]. lia.
                 --- split; [exact Hxs|]. right. split; [reflexivity|]. eexists. split; [reflexivity|]. lia.
           ++ intros c Hc Hn _. now apply Hother.
        -- intros y Ey. rewrite Hedge. now apply (He x).
        -- unfold rootsteps in *. cbn [w_phase w_call]. rewrite Ep in Hst. lia.
    + left. assert (x = size) by lia. subst x. eexists. split; [reflexivity|].
      assert (Hs : forall a j, seen s a j <-> (a < size)%nat /\ (j <= w_call s)%nat).
      { intros a j. unfold seen. rewrite Ep. split; [intros (Ha & [Hj|[-> _]]); lia|]. intros [Ha Hj]. split; [exact Ha|].
        destruct (Nat.eq_dec j (w_call s)); [right|left; lia]. split; [assumption|]. eexists. split; [reflexivity|]. now left. }
      constructor; cbn [w_phase w_call w_sent w_chan w_grid w_log]; auto; try discriminate.
      * intros r Hr Hne. specialize (Hch r Hr Hne). unfold received in *. cbn [w_phase w_call]. rewrite Ep in Hch. destruct (Nat.ltb_spec r size); [exact Hch|lia].
      * intros c v j0 Hc (a & j & (Ha & [Hj0|[_ (y & Ey & _)]]) & Hj) Hall; cbn [w_call w_phase] in *; [|discriminate].
        apply (Hk c v j0 Hc); [exists a, j; split; [apply Hs; lia|exact Hj]|]. intros a' j' Ha'. apply Hall. apply Hs in Ha'. split; [lia|]. left. cbn. lia.
      * rewrite due_S. destruct (k_last (calls root (w_call s))) eqn:Elast; [|exact Hl]. cbn [rev]. apply Forall2_app; [exact Hl|]. constructor; [|constructor].
        split; [apply (collect_box t n dims Ht Hdims Hpos _ Hg)|]. split; [|split; [now apply (He size)|split; reflexivity]]. cbn [dl_grid].
        destruct Hok as [_ Hfull]. destruct (Hfull _ Hnum Elast) as (i0 & Hi0 & Hconst & Hcov).
        intros c Hc. apply (Hk c _ i0 Hc).
        -- destruct (Hcov c Hc) as (j & r & Hj & Hr & Hin). exists r, j. split; [apply Hs; lia|]. split; [lia|exact Hin].
        -- intros r j Hrj Hj _. apply Hs in Hrj. apply Hconst; [lia|exact Hc].
      * unfold rootsteps in *. cbn [w_phase w_call]. rewrite Ep in Hst. lia.
Qed.

Lemma inv_next m s e s' : inv m s -> step s e = Next s' -> inv (S m) s'.
Proof using Ht Hdims Hpos Hroot Hcap Hok.
  intros Hi Es. destruct e as [r|].
  - pose proof Es as Es'. unfold w_step in Es'. destruct ((r <? size)%nat && negb (r =? root)%nat && (w_sent s r <? num)%nat && (length (w_chan s r) <? cap)%nat) eqn:Eb; [|discriminate].
    clear Es'. repeat (apply andb_true_iff in Eb; destruct Eb as [Eb ?]). destruct (inv_send m s r Hi) as (s2 & E2 & H2).
    + now apply Nat.ltb_lt.
    + intros ->. rewrite Nat.eqb_refl in *. discriminate.
    + now apply Nat.ltb_lt.
    + now apply Nat.ltb_lt.
    + assert (s2 = s') by congruence. now subst.
  - assert (Hn : (w_call s < num)%nat).
    { pose proof (i_phase _ _ Hi) as Hp. unfold w_step in Es. destruct (w_phase s); [|lia]. destruct (Nat.ltb_spec (w_call s) num); [assumption|discriminate]. }
    destruct (inv_root m s Hi Hn) as [(s2 & E2 & H2)|[E2 _]]; [|congruence]. assert (s2 = s') by congruence. now subst.
Qed.

Lemma inv_execution m s : execution t correct dflt size root cap num calls (S n) m s -> inv m s.
Proof using Ht Hdims Hpos Hroot Hcap Hok. induction 1; [exact inv_init|eapply inv_next; eauto]. Qed.

Lemma inv_crash m s e : inv m s -> step s e <> Crash.
Proof using Ht Hdims Hpos Hroot Hcap Hok.
  intros Hi. destruct e as [r|].
  - destruct ((r <? size)%nat && negb (r =? root)%nat && (w_sent s r <? num)%nat && (length (w_chan s r) <? cap)%nat) eqn:Eb; [|unfold w_step; rewrite Eb; discriminate].
    repeat (apply andb_true_iff in Eb; destruct Eb as [Eb ?]). destruct (inv_send m s r Hi) as (s2 & -> & H2); try discriminate.
    + now apply Nat.ltb_lt.
    + intros ->. rewrite Nat.eqb_refl in *. discriminate.
    + now apply Nat.ltb_lt.
    + now apply Nat.ltb_lt.
  - destruct (Nat.lt_ge_cases (w_call s) num) as [Hn|Hn].
    + destruct (inv_root m s Hi Hn) as [(s2 & -> & _)|[-> _]]; discriminate.
    + pose proof (i_phase _ _ Hi) as Hp. unfold w_step. destruct (w_phase s); [|lia]. destruct (Nat.ltb_spec (w_call s) num); [lia|discriminate].
Qed.

Lemma inv_progress m s : inv m s -> (w_call s < num)%nat -> exists e s', step s e = Next s'.
Proof using Ht Hdims Hpos Hroot Hcap Hok.
  intros Hi Hn. destruct (inv_root m s Hi Hn) as [(s2 & E2 & _)|[_ (r & H1 & H2 & H3 & H4)]]; [eauto|].
  destruct (inv_send m s r Hi H1 H2 H3 H4) as (s2 & E2 & _). eauto.
Qed.

Lemma sum_bound (f : nat -> nat) b l : (forall r, In r l -> f r <= b)%nat -> (list_sum (map f l) <= length l * b)%nat.
Proof using. clear. induction l as [|x l IH]; cbn; intros H; [lia|]. pose proof (H x (or_introl eq_refl)). specialize (IH ltac:(auto)). unfold list_sum in IH. lia. Qed.

Lemma inv_bound m s : inv m s -> (m <= num * (2 * size + 2))%nat.
Proof using Ht Hdims Hpos Hroot Hcap Hok.
  intros Hi. pose proof (i_steps _ _ Hi) as ->. assert (H1 : (list_sum (map (w_sent s) (seq 0 size)) <= length (seq 0 size) * num)%nat).
  { apply sum_bound. intros r Hr. apply in_seq in Hr. destruct (Nat.eq_dec r root) as [->|Hne]; [rewrite (i_sent _ _ Hi); lia|].
    destruct (i_chan _ _ Hi r ltac:(lia) Hne) as [H _]. lia. }
  rewrite seq_length in H1. pose proof (i_phase _ _ Hi) as Hp. unfold rootsteps.
  assert ((w_call s * (size + 2) + match w_phase s with Idle => 0 | Receiving x => S x end <= num * (size + 2))%nat) by (destruct (w_phase s); nia).
  nia.
Qed.
End Protocol.
