(** C148: simulations on unstructured meshes *)
From Coq Require Import Sorted QArith.
From Verif Require Import Base ListFacts CoordModel CoordSpec CoordFacts RegionOpsModel GridModel GridFacts ArrayModel ArraySpec ArrayFacts ParamModel GridSpec BoxModel BoxSpec BoxFacts SoAProps
  MesherModel MesherSpec MesherFacts MesherProps MultiModel MultiSpec MultiFacts MultiProps MeshRunSpec.
From Coq Require Import Lia.
Open Scope Z_scope.

Lemma one_member {V} (kinds : list kind) n cap i (k : kernel V) : kinds = [Keyed] -> typed kinds n k -> spawns_back cap i k.
Proof.
  intros ->. induction k as [v| |m id k IH|m c k IH|m k IH|m v k IH]; cbn [typed spawns_back]; auto; try tauto; try (intros (_ & H); auto; fail).
  - intros (_ & _ & H); auto.
  - intros (E & _). destruct m as [|[|m]]; discriminate E.
Qed.

Lemma eval_agree {V} P (S : nodes V) v w (k : kernel V) : asks P S k -> (forall id, P id -> see_id w 0 id = S id) -> fst (eval w k) = fst (eval (whole S v) k) /\ snd (eval w k) = [].
Proof.
  induction k as [x| |m id k IH|m c k IH|m k IH|m x k IH]; cbn [asks eval]; intros Ha Hw; try (now split); try tauto.
  destruct Ha as (-> & Hp & Ha). rewrite (Hw id Hp). cbn [see_id whole]. now apply IH.
Qed.

Lemma near_moore n : forall c d, length c = n -> near (repeat 1 n) d c -> exists rel, moore n rel /\ zadd c rel = d.
Proof.
  induction n as [|n IH]; intros c d L H.
  - destruct c; [|discriminate]. destruct d; [|destruct H]. exists []. split; [now split|reflexivity].
  - destruct c as [|x c]; [discriminate|]. cbn [repeat near] in H. destruct d as [|y d]; [destruct H|]. destruct H as [H1 H2]. destruct (IH c d ltac:(cbn in L; lia) H2) as (rel & [M1 M2] & E).
    exists (y - x :: rel). split; [split; [cbn; lia|constructor; [lia|exact M2]]|]. cbn [zadd]. rewrite E. f_equal. lia.
Qed.

Lemma zadd_zero n c : length c = n -> zadd c (diagonal n 0) = c.
Proof. intros <-. unfold diagonal. induction c as [|x c IH]; cbn; [reflexivity|]. rewrite IH. f_equal. lia. Qed.

Lemma near_refl n : forall c, length c = n -> near (repeat 1 n) c c.
Proof. induction n as [|n IH]; intros [|x c] L; try discriminate; cbn; [exact I|]. split; [lia|]. apply IH. cbn in L. lia. Qed.

Lemma grid_pos dim : forall c, in_grid dim c -> allpos dim.
Proof.
  unfold in_grid. induction dim as [|m dim IH]; intros [|x c] H; cbn in *; try tauto; try constructor; try lia. apply (IH c). tauto.
Qed.

Lemma combine_in {V} (items : list (Z * V)) : forall (vs : list V) f, map Some vs = map f (map snd items) -> forall id v, In (id, v) (combine (map fst items) vs) <-> exists e, In (id, e) items /\ f e = Some v.
Proof.
  induction items as [|[k x] items IH]; intros [|y vs] f E id v; cbn in E; try discriminate; cbn [map fst combine In].
  - split; [intros []|intros (e & [] & _)].
  - injection E as E1 E2. rewrite (IH vs f E2 id v). split.
    + intros [H|(e & H & Hf)]; [exists x; split; [left|]; congruence|exists e; auto].
    + intros (e & [H|H] & Hf); [left; congruence|right; eauto].
Qed.

Lemma sorted_keys {V W} (a : list (Z * V)) : forall (b : list (Z * W)), map fst a = map fst b -> StronglySorted (fun x y => fst x < fst y) a -> StronglySorted (fun x y => fst x < fst y) b.
Proof.
  induction a as [|x a IH]; intros [|y b] E H; try discriminate; [constructor|]. cbn in E. injection E as E1 E2. inversion H as [|? ? H1 H2]; subst. constructor; [now apply IH|].
  apply Forall_forall. intros z Hz. rewrite <- E1. apply (in_map fst) in Hz. rewrite <- E2 in Hz. apply in_map_iff in Hz as (u & Eu & Hu). rewrite Forall_forall in H2. rewrite <- Eu. now apply H2.
Qed.

(** The container's new content. *)
Lemma proper_new {N V} (c : ccell V) items mem (vs : list V) : proper c items -> same_frame (@MContainer N V c) mem -> elements mem = Some vs -> length vs = length items ->
  exists c', mem = MContainer c' /\ proper c' (combine (map fst items) vs).
Proof.
  intros Hp Hf He Lv. pose proof (proper_crep c items Hp) as (_ & Hnum & pad & padc & E1 & E2 & L1 & L2). pose proof Hp as (_ & Hs & _ & HL).
  destruct mem as [c'|b|x]; cbn in Hf; try tauto. destruct Hf as (F1 & F2 & F3). exists c'. split; [reflexivity|]. cbn [elements] in He. pose proof He as He'. apply vec_read_some in He' as [G1 G2]; [|lia]. rewrite F2, Hnum, Nat2Z.id in G1.
  assert (Lf : length (map fst items) = length vs) by (rewrite map_length; lia). unfold proper. rewrite combine_length, Lf, Nat.min_id.
  split; [|split; [|split]].
  - unfold cc_items. rewrite He. rewrite F1, F2, Hnum, Nat2Z.id, E1. rewrite <- (map_length fst items). change (map fst items ++ pad) with ([] ++ map fst items ++ pad). rewrite (vec_read_app (map fst items) [] pad 0) by reflexivity. reflexivity.
  - apply (sorted_keys items); [|exact Hs]. now rewrite map_fst_combine.
  - rewrite F2, Hnum. lia.
  - rewrite F1, F3. exact HL.
Qed.

Section Step.
Context {N V : Type}.
Variable points : list (list Q).
Variable neighbors : list (list Z).
Variable n : nat.
Hypothesis Hn : (1 <= n <= 3)%nat.
Hypothesis Hmesh : mesh_ok n points neighbors.
Hypothesis Hspread : spread n points neighbors.
Variable m : @mesher Q.
Hypothesis Hm : mesher_make exact n points neighbors = Some m.
Variable t : topology.
Hypothesis Ht : length t = n.
Variable A : arith N.
Variable pos : V -> list N.
Variable cap : nat -> option nat.
Variable kern : nat -> nat -> V -> kernel V.
Variable key : V -> Z.
Variable v0 : V.
Hypothesis Htyped : forall nano v, typed [Keyed] n (kern O nano v).

Let dim := me_logical m.
Let place_of id x := exists p, vec_get points id = Some p /\ logical_coord exact m p = Some x.

Lemma mesher_facts : length dim = n /\
  (forall id p, vec_get points id = Some p -> exists x, place_of id x /\ in_grid dim x) /\
  (forall i j ns x y, vec_get neighbors i = Some ns -> In j ns -> place_of i x -> place_of j y -> near (repeat 1 n) y x).
Proof using Hn Hmesh Hspread Hm.
  destruct (C144_mesher n points neighbors Hmesh Hspread) as (m' & E & L & _ & H1 & H2 & _). rewrite Hm in E. injection E as <-. split; [exact L|]. split.
  - intros id p E. destruct (H1 p (vec_get_In _ _ _ E)) as (x & Ex & Hx). exists x. split; [now exists p|exact Hx].
  - intros i j ns x y Ei Hj (p & Ep & Ex) (q & Eq & Ey). apply (H2 p q x y); auto. unfold vec_get in Ei, Ep. destruct (Z.ltb_spec i 0); [discriminate|]. exists (Z.to_nat i), ns, j. auto.
Qed.

Lemma place_unique id x y : place_of id x -> place_of id y -> x = y.
Proof using. intros (p & E1 & E2) (q & E3 & E4). congruence. Qed.

Lemma hood_of g (S : nodes V) x rel : stores (N := N) points m g S -> in_grid dim x -> moore n rel -> exists c items, g (cell_hood t dim x rel) = [MContainer c] /\ proper c items /\
  forall id v, In (id, v) items -> S id = Some v.
Proof using Hn Hmesh Hspread Hm Ht.
  intros [(c & Ec & Hc) Hg] Hx Hr. destruct mesher_facts as (L & _). unfold cell_hood. destruct (denotes t dim (zadd x rel)) as [y|] eqn:D.
  - apply denotes_inside in D; [|exact (eq_trans Ht (eq_sym L))|now apply (grid_pos dim x)]. destruct (Hg y D) as (c' & items & E & Hp & Hi). exists c', items. split; [exact E|]. split; [exact Hp|]. intros id v H. now apply Hi.
  - exists c, []. split; [exact Ec|]. split; [exact Hc|]. intros id v [].
Qed.

Lemma step_layout g (S : nodes V) x : stores (N := N) points m g S -> in_grid dim x -> layout g (cell_hood t dim x) n [Keyed].
Proof using Hn Hmesh Hspread Hm Ht.
  intros Hg Hx rel Hr. destruct (hood_of g S x rel Hg Hx Hr) as (c & items & E & Hp & _). rewrite E. split; [reflexivity|]. intros [|[|i]] c' E'; try discriminate E'. injection E' as <-. now exists items.
Qed.

Lemma step_cell g S nano x : well_behaved points neighbors key (kern O nano) S -> stores points m g S -> in_grid dim x ->
  exists c items, multi_update g (cell_hood t dim x) n A pos cap kern nano = Some (Done [MContainer c]) /\ proper c items /\
    forall id v, In (id, v) items <-> advance (kern O nano) S id = Some v /\ place_of id x.
Proof using Hn Hmesh Hspread Hm Ht Htyped v0.
  intros Hwell Hg Hx. pose proof (step_layout g S x Hg Hx) as Hlay. destruct mesher_facts as (L & Hpl & Hnear).
  pose proof (grid_pos dim x Hx) as Hpos. assert (Lx : length x = n) by (rewrite <- L; now apply in_grid_length).
  assert (Hself : cell_hood t dim x (diagonal n 0) = Some x) by (unfold cell_hood; rewrite zadd_zero by exact Lx; apply denotes_self; [exact (eq_trans Ht (eq_sym L))|exact Hpos|exact Hx]).
  pose proof Hg as [Hedge Hcells].
  destruct (Hcells x Hx) as (c & items & Ec & Hp & Hitems).
  (* a view *)
  assert (Hun : unambiguous g (cell_hood t dim x) n).
  { intros i id r1 c1 l1 v1 r2 c2 l2 v2 M1 E1 I1 H1 M2 E2 I2 H2.
    destruct (hood_of g S x r1 Hg Hx M1) as (d1 & k1 & G1 & P1 & Q1). destruct (hood_of g S x r2 Hg Hx M2) as (d2 & k2 & G2 & P2 & Q2). rewrite G1 in E1. rewrite G2 in E2.
    destruct i as [|[|i]]; try discriminate E1. injection E1 as <-. injection E2 as <-. pose proof P1 as (W1 & _). pose proof P2 as (W2 & _). assert (l1 = k1) as -> by congruence. assert (l2 = k2) as -> by congruence.
    apply Q1 in H1. apply Q2 in H2. congruence. }
  assert (Hview : exists w, sees g (cell_hood t dim x) n w) by (now apply (view_of g (cell_hood t dim x) n [Keyed] v0)).
  (* neighbors are seen *)
  assert (Hreach : forall w, sees g (cell_hood t dim x) n w -> forall id j, (exists v, In (id, v) items) -> within_reach neighbors id j -> see_id w 0 j = S j).
  { intros w Hw id j (v & Hin) Hj. apply Hitems in Hin as [Hid Hplace].
    assert (Hone : forall u, see_id w 0 j = Some u <-> S j = Some u).
    { intros u. split.
      - intros Hu. apply Hw in Hu. destruct Hu as (rel & c' & l & Hr & E & I & Hin). destruct (hood_of g S x rel Hg Hx Hr) as (d & k & G & P & R). rewrite G in E. injection E as <-. pose proof P as (W & _). assert (l = k) as -> by congruence. now apply R.
      - intros Hu. destruct (Hwell j u Hu) as (_ & (q & Eq) & _). destruct (Hpl j q Eq) as (y & Hy & Hyin).
        assert (Hny : near (repeat 1 n) y x).
        { destruct Hj as [->|(ns & Ens & Hjn)]; [rewrite (place_unique id x y Hplace Hy); apply near_refl; rewrite <- L; now apply in_grid_length|]. exact (Hnear id j ns x y Ens Hjn Hplace Hy). }
        destruct (near_moore n x y Lx Hny) as (rel & Hrel & Erel). destruct (Hcells y Hyin) as (d & k & G & P & R). apply Hw. exists rel, d, k. split; [exact Hrel|].
        unfold cell_hood. rewrite Erel, (denotes_self t dim y) by (auto; lia). rewrite G. split; [reflexivity|]. split; [apply P|]. apply R. now split. }
    destruct (see_id w 0 j) as [u|] eqn:E1; [symmetry; now apply Hone|]. destruct (S j) as [u|] eqn:E2; [|reflexivity]. now apply Hone. }
  (* the update *)
  assert (Hcore : forall w, sees g (cell_hood t dim x) n w -> exists c' items', multi_update g (cell_hood t dim x) n A pos cap kern nano = Some (Done [MContainer c']) /\ proper c' items' /\
    forall id v, In (id, v) items' <-> advance (kern O nano) S id = Some v /\ place_of id x).
  { intros w Hw. assert (Hown : carried g (cell_hood t dim x) n A pos nano 0 = map snd items) by (unfold carried; rewrite Hself, Ec; cbn [nth_error]; now rewrite (proj1 Hp)).
    assert (Hev : forall id v, In (id, v) items -> fst (eval w (kern O nano v)) = advance (kern O nano) S id /\ snd (eval w (kern O nano v)) = [] /\ exists v', fst (eval w (kern O nano v)) = Some v').
    { intros id v Hin. pose proof (proj1 (Hitems id v) Hin) as [Hid _]. destruct (Hwell id v Hid) as (_ & _ & Hask & v' & Hv' & _).
      destruct (eval_agree _ S v w _ Hask) as [E1 E2]; [intros j Hj; apply (Hreach w Hw id j); [now exists v|exact Hj]|]. unfold advance. rewrite Hid. split; [exact E1|]. split; [exact E2|]. exists v'. now rewrite E1. }
    destruct (C147_update N V g (cell_hood t dim x) n [Keyed] w A pos cap kern nano Hn Hlay Hw) as (r & Er & Hr).
    { intros i v Hi. cbn in Hi. assert (i = O) as -> by lia. split; [apply Htyped|]. apply (one_member [Keyed] n); [reflexivity|apply Htyped]. }
    assert (Hno : spawned g (cell_hood t dim x) n w A pos kern nano 0 = []).
    { unfold spawned. rewrite Hself, Ec. cbn [length seq flat_map]. rewrite app_nil_r, Hown. apply BoxFacts.flat_map_nil. intros e He. apply in_map_iff in He as ([id v] & <- & Hin). cbn [snd]. destruct (Hev id v Hin) as (_ & -> & _). reflexivity. }
    destruct r as [new|new].
    - destruct Hr as [Ln Hall]. destruct (Hall O (MContainer c)) as (mem & vs & E1 & Hf & He & Hvs); [rewrite Hself, Ec; reflexivity|]. rewrite Hno, app_nil_r in He. rewrite Hown in Hvs.
      pose proof (f_equal (@length _) Hvs) as Lv. rewrite !map_length in Lv. destruct (proper_new c items mem vs Hp Hf He Lv) as (c' & -> & Hp'). exists c', (combine (map fst items) vs).
      destruct new as [|mem' [|]]; try discriminate. cbn in E1. injection E1 as ->. split; [exact Er|]. split; [exact Hp'|]. intros id v. rewrite (combine_in items vs _ Hvs). split.
      + intros (e & Hin & Hev'). destruct (Hev id e Hin) as (E & _). split; [congruence|]. now apply (Hitems id e).
      + intros [Ha Hpid]. assert (exists e, S id = Some e) as (e & He') by (unfold advance in Ha; destruct (S id) as [e|]; [now exists e|discriminate]). exists e.
        assert (Hin : In (id, e) items) by (apply Hitems; now split). split; [exact Hin|]. destruct (Hev id e Hin) as (E & _). congruence.
    - exfalso. destruct Hr as [(i & e & Hin & He)|(i & k & Hb & _)].
      + destruct i as [|i]; [|unfold carried in Hin; rewrite Hself, Ec in Hin; cbn in Hin; destruct i; destruct Hin]. rewrite Hown in Hin. apply in_map_iff in Hin as ([id v] & E & Hin). cbn in E. subst v.
        destruct (Hev id e Hin) as (_ & _ & v' & E). congruence.
      + destruct i as [|[|i]]; discriminate. }
  destruct Hview as (w & Hw). now apply (Hcore w).
Qed.
End Step.

(** C148: storing the nodes of a mesh in ContainerCells, placed by an
    UnstructuredGridMesher, is as good as simulating the mesh itself: nodes find
    all their neighbors, and the update of the grid updates all nodes at once. *)
Theorem C148_step : forall N V points neighbors n m t (A : arith N) pos cap kern (key : V -> Z) nano g S,
  (1 <= n <= 3)%nat -> mesh_ok n points neighbors -> spread n points neighbors -> mesher_make exact n points neighbors = Some m -> length t = n ->
  inhabited V -> (forall k v, typed [Keyed] n (kern O k v)) ->
  well_behaved points neighbors key (kern O nano) S -> stores points m g S ->
  (exists g', cells_step t (me_logical m) A pos cap kern nano g g') /\
  forall g', cells_step t (me_logical m) A pos cap kern nano g g' -> stores points m g' (advance (kern O nano) S).
Proof.
  intros N V points neighbors n m t A pos cap kern key nano g S Hn Hmesh Hspread Hm Ht [v0] Htyped Hwell Hg.
  pose proof (step_cell points neighbors n Hn Hmesh Hspread m Hm t Ht A pos cap kern key v0 Htyped g S nano) as Hcell. cbn zeta in Hcell.
  destruct (mesher_facts points neighbors n Hn Hmesh Hspread m Hm) as (L & _). unfold cells_step. rewrite L. split.
  - exists (fun p => match p with Some x => match multi_update g (cell_hood t (me_logical m) x) n A pos cap kern nano with Some (Done l) => l | _ => [] end | None => g None end).
    split; [reflexivity|]. intros x Hx. destruct (Hcell x Hwell Hg Hx) as (c & items & E & _). now rewrite E.
  - intros g' [He Hall]. pose proof Hg as [Hedge _]. split; [now rewrite He|]. intros x Hx. destruct (Hcell x Hwell Hg Hx) as (c & items & E & Hp & Hi). rewrite (Hall x Hx) in E. injection E as E.
    exists c, items. split; [exact E|]. split; [exact Hp|exact Hi].
Qed.
Print Assumptions C148_step.

(** The same for any number of steps. *)
Theorem C148_mesh : forall N V points neighbors n m t (A : arith N) pos cap kern (key : V -> Z) nanos g S,
  (1 <= n <= 3)%nat -> mesh_ok n points neighbors -> spread n points neighbors -> mesher_make exact n points neighbors = Some m -> length t = n ->
  inhabited V -> (forall k v, typed [Keyed] n (kern O k v)) ->
  (forall past nano rest, nanos = past ++ nano :: rest -> well_behaved points neighbors key (kern O nano) (advance_all (kern O) past S)) -> stores points m g S ->
  (exists g', cells_run t (me_logical m) A pos cap kern nanos g g') /\
  forall g', cells_run t (me_logical m) A pos cap kern nanos g g' -> stores points m g' (advance_all (kern O) nanos S).
Proof.
  intros N V points neighbors n m t A pos cap kern key nanos. induction nanos as [|nano nanos IH]; intros g S Hn Hmesh Hspread Hm Ht Hi Htyped Hwell Hg; cbn [cells_run advance_all].
  - split; [now exists g|]. now intros g' ->.
  - destruct (C148_step N V points neighbors n m t A pos cap kern key nano g S Hn Hmesh Hspread Hm Ht Hi Htyped (Hwell [] nano nanos eq_refl) Hg) as [(g1 & H1) Hst].
    assert (Hrest : forall past nano' rest, nanos = past ++ nano' :: rest -> well_behaved points neighbors key (kern O nano') (advance_all (kern O) past (advance (kern O nano) S))).
    { intros past nano' rest ->. exact (Hwell (nano :: past) nano' rest eq_refl). }
    split.
    + destruct (IH g1 (advance (kern O nano) S) Hn Hmesh Hspread Hm Ht Hi Htyped Hrest (Hst g1 H1)) as [(g' & H') _]. exists g', g1. now split.
    + intros g' (g2 & H2 & H'). exact (proj2 (IH g2 (advance (kern O nano) S) Hn Hmesh Hspread Hm Ht Hi Htyped Hrest (Hst g2 H2)) g' H').
Qed.
Print Assumptions C148_mesh.

(** The mesh of four points from above, each node has its ID and a number. Nodes add their
    neighbors' numbers to their own. *)
Fixpoint ex_sum (ids : list Z) (id acc : Z) : kernel (Z * Z) :=
  match ids with
  | [] => KDone (id, acc)
  | j :: ids' => KId 0 j (fun r => match r with Some v => ex_sum ids' id (acc + snd v) | None => KRaise end)
  end.
Definition ex_node (i nano : nat) (v : Z * Z) : kernel (Z * Z) := ex_sum (nth (Z.to_nat (fst v)) ex_neighbors []) (fst v) (snd v).
Definition ex_values (a b c d : Z) : list (Z * Z) := [(0, a); (1, b); (2, c); (3, d)].

Lemma ex_ids id : id < 0 \/ id = 0 \/ id = 1 \/ id = 2 \/ id = 3 \/ 4 <= id.
Proof. lia. Qed.

Lemma ex_value a b c d id : vec_get (ex_values a b c d) id = if id =? 0 then Some (0, a) else if id =? 1 then Some (1, b) else if id =? 2 then Some (2, c) else if id =? 3 then Some (3, d) else None.
Proof.
  destruct (ex_ids id) as [H|[->|[->|[->|[->|H]]]]]; try reflexivity.
  - unfold vec_get. rewrite (proj2 (Z.ltb_lt id 0)) by lia. now rewrite !(proj2 (Z.eqb_neq _ _)) by lia.
  - unfold vec_get. rewrite (proj2 (Z.ltb_ge id 0)) by lia. rewrite !(proj2 (Z.eqb_neq _ _)) by lia. apply nth_error_None. cbn. lia.
Qed.

Lemma ex_well S a b c d : (forall id, S id = vec_get (ex_values a b c d) id) -> well_behaved ex_points ex_neighbors fst (ex_node 0 0) S /\
  forall id, advance (ex_node 0 0) S id = vec_get (ex_values (a + b) (b + a + c + d) (c + b) d) id.
Proof.
  intros HS. assert (S0 : S 0 = Some (0, a)) by (rewrite HS; reflexivity). assert (S1 : S 1 = Some (1, b)) by (rewrite HS; reflexivity).
  assert (S2 : S 2 = Some (2, c)) by (rewrite HS; reflexivity). assert (S3 : S 3 = Some (3, d)) by (rewrite HS; reflexivity). split.
  - intros id v Hv. rewrite HS, ex_value in Hv.
    destruct (Z.eqb_spec id 0) as [->|]; [|destruct (Z.eqb_spec id 1) as [->|]; [|destruct (Z.eqb_spec id 2) as [->|]; [|destruct (Z.eqb_spec id 3) as [->|]; [|discriminate]]]];
      assert (Ev := f_equal (fun o => match o with Some x => x | None => v end) Hv); cbn in Ev; subst v; (split; [reflexivity|]); (split; [eexists; reflexivity|]).
    + change (ex_node 0 0 (0, a)) with (ex_sum [1] 0 a). cbn -[Z.add]. rewrite ?S0, ?S1, ?S2, ?S3. cbn -[Z.add]. rewrite ?S0, ?S1, ?S2, ?S3. cbn -[Z.add]. split; [|eexists; split; reflexivity]. repeat split. right. exists [1]. cbn. tauto.
    + change (ex_node 0 0 (1, b)) with (ex_sum [0; 2; 3] 1 b). cbn -[Z.add]. rewrite ?S0, ?S1, ?S2, ?S3. cbn -[Z.add]. rewrite ?S0, ?S1, ?S2, ?S3. cbn -[Z.add]. rewrite ?S0, ?S1, ?S2, ?S3. cbn -[Z.add]. split; [|eexists; split; reflexivity]. repeat split; right; exists [0; 2; 3]; cbn; tauto.
    + change (ex_node 0 0 (2, c)) with (ex_sum [1] 2 c). cbn -[Z.add]. rewrite ?S0, ?S1, ?S2, ?S3. cbn -[Z.add]. rewrite ?S0, ?S1, ?S2, ?S3. cbn -[Z.add]. split; [|eexists; split; reflexivity]. repeat split. right. exists [1]. cbn. tauto.
    + change (ex_node 0 0 (3, d)) with (ex_sum [] 3 d). cbn -[Z.add]. split; [exact I|eexists; split; reflexivity].
  - intros id. unfold advance. rewrite HS, !ex_value.
    destruct (Z.eqb_spec id 0) as [->|]; [|destruct (Z.eqb_spec id 1) as [->|]; [|destruct (Z.eqb_spec id 2) as [->|]; [|destruct (Z.eqb_spec id 3) as [->|]; [|reflexivity]]]];
      change (ex_node 0 0 (0, a)) with (ex_sum [1] 0 a); change (ex_node 0 0 (1, b)) with (ex_sum [0; 2; 3] 1 b); change (ex_node 0 0 (2, c)) with (ex_sum [1] 2 c); change (ex_node 0 0 (3, d)) with (ex_sum [] 3 d); cbn -[Z.add]; rewrite ?S0, ?S1, ?S2, ?S3; cbn -[Z.add]; rewrite ?S0, ?S1, ?S2, ?S3; cbn -[Z.add]; rewrite ?S0, ?S1, ?S2, ?S3; cbn -[Z.add]; reflexivity.
Qed.

Definition ex_grid (p : place) : list (member Q (Z * Z)) :=
  [MContainer match p with
   | Some [0; 0] => mkCC [0; 9] [(0, 5); (9, 9)] 1
   | Some [1; 1] => mkCC [1; 9] [(1, 6); (9, 9)] 1
   | Some [2; 0] => mkCC [2; 9] [(2, 7); (9, 9)] 1
   | Some [0; 1] => mkCC [3; 9] [(3, 8); (9, 9)] 1
   | _ => mkCC [9; 9] [(9, 9); (9, 9)] 0
   end].

Example ex_C148 : exists m, mesher_make exact 2 ex_points ex_neighbors = Some m /\ me_logical m = [3; 2] /\
  (forall k v, typed [Keyed] 2 (ex_node 0 k v)) /\
  stores ex_points m ex_grid (vec_get (ex_values 5 6 7 8)) /\
  (forall past nano rest, [0; 0]%nat = past ++ nano :: rest -> well_behaved ex_points ex_neighbors fst (ex_node 0 nano) (advance_all (ex_node 0) past (vec_get (ex_values 5 6 7 8)))) /\
  (forall id, advance_all (ex_node 0) [0; 0]%nat (vec_get (ex_values 5 6 7 8)) id = vec_get (ex_values 37 58 39 8) id).
Proof.
  destruct (mesher_make exact 2 ex_points ex_neighbors) as [m|] eqn:Em; [|vm_compute in Em; discriminate]. exists m. split; [reflexivity|]. vm_compute in Em. injection Em as <-. split; [reflexivity|]. split.
  { intros k v. unfold ex_node. generalize (nth (Z.to_nat (fst v)) ex_neighbors []) (snd v). intros ids. induction ids as [|j ids IH]; intros acc; cbn; [exact I|]. split; [reflexivity|]. intros [x|]; [apply IH|exact I]. }
  destruct (ex_well (vec_get (ex_values 5 6 7 8)) 5 6 7 8 (fun _ => eq_refl)) as [W1 A1]. destruct (ex_well (advance (ex_node 0 0) (vec_get (ex_values 5 6 7 8))) 11 26 13 8 A1) as [W2 A2]. split; [|split].
  - split; [eexists; split; [reflexivity|]; repeat split; constructor|]. intros x Hx. cbn in Hx. destruct x as [|x [|y [|]]]; try tauto. destruct Hx as (Hx & Hy & _).
    assert (Hxy : (x = 0 \/ x = 1 \/ x = 2) /\ (y = 0 \/ y = 1)) by lia.
    destruct Hxy as [[->|[->| ->]] [->| ->]]; eexists; eexists; (split; [reflexivity|]); (split; [repeat split; repeat constructor|]); intros id v; rewrite ex_value.
    all: split; [intros H; cbn in H; repeat (destruct H as [H|H]; [injection H as <- <-; split; [reflexivity|eexists; split; vm_compute; reflexivity]|]); destruct H|].
    all: intros [Hv (p & Ep & El)]; destruct (Z.eqb_spec id 0) as [->|]; [|destruct (Z.eqb_spec id 1) as [->|]; [|destruct (Z.eqb_spec id 2) as [->|]; [|destruct (Z.eqb_spec id 3) as [->|]; [|discriminate]]]].
    all: injection Hv as <-; cbn in Ep; injection Ep as <-; vm_compute in El; try discriminate El; now left.
  - intros past nano rest E. destruct past as [|? [|? [|]]]; try discriminate E; injection E; intros; subst; [exact W1|exact W2].
  - exact A2.
Qed.
