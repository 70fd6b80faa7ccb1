(** Simulations on top of HPX: invariant of nodes and links. *)
From Coq Require Import Permutation.
From Verif Require Import Base ListFacts PatchModel PatchSpec PatchFacts LinkSpec AdapterModel ScheduleFacts StepperModel HpxLinkModel HpxLinkFacts HpxSimModel StepperFacts.

Lemma nth_ex {A} (l : list A) i : (i < length l)%nat -> exists x, nth_error l i = Some x.
Proof. intros H. destruct (nth_error l i) eqn:E; eauto. apply nth_error_None in E. lia. Qed.

Lemma nth_lt {A} (l : list A) i x : nth_error l i = Some x -> (i < length l)%nat.
Proof. intros H. apply nth_error_Some. congruence. Qed.

(** ** Orders *)

Lemma order_perm n ord : is_order n ord = true -> Permutation (seq 0 n) ord.
Proof.
  unfold is_order. intros H. apply andb_prop in H. destruct H as [H1 H2]. apply Nat.eqb_eq in H1. rewrite forallb_forall in H2.
  apply NoDup_Permutation_bis; [apply seq_NoDup|rewrite seq_length; lia|].
  intros i Hi. specialize (H2 i Hi). apply existsb_exists in H2. destruct H2 as (x & Hx & E). apply Nat.eqb_eq in E. now subst.
Qed.

Lemma order_lt n ord i : is_order n ord = true -> In i ord -> (i < n)%nat.
Proof. intros H Hi. apply order_perm in H. rewrite <- H in Hi. apply in_seq in Hi. lia. Qed.

Lemma permute_map {A B} (f : A -> B) ord l : permute ord (map f l) = map f (permute ord l).
Proof.
  unfold permute. induction ord as [|i ord IH]; cbn [flat_map]; [reflexivity|]. rewrite map_app, IH, nth_error_map. now destruct (nth_error l i).
Qed.

Lemma permute_nth {A} (d : A) ord l : (forall i, In i ord -> (i < length l)%nat) -> permute ord l = map (fun i => nth i l d) ord.
Proof.
  unfold permute. induction ord as [|i ord IH]; intros H; cbn [flat_map map]; [reflexivity|].
  rewrite (nth_error_nth' l d) by (apply H; now left). cbn [app]. f_equal. apply IH. intros j Hj. apply H. now right.
Qed.

Lemma nth_seq_id {A} (d : A) l : map (fun i => nth i l d) (seq 0 (length l)) = l.
Proof.
  induction l as [|x l IH]; cbn [length seq map nth]; [reflexivity|]. f_equal. rewrite <- seq_shift, map_map. exact IH.
Qed.

Lemma permute_perm {A} ord (l : list A) : is_order (length l) ord = true -> Permutation l (permute ord l).
Proof.
  intros H. destruct l as [|d l0] eqn:El.
  - apply order_perm in H. cbn in H. apply Permutation_nil in H. subst. reflexivity.
  - rewrite <- El in *. rewrite (permute_nth d) by (intros i Hi; eapply order_lt; eauto).
    rewrite <- (nth_seq_id d l) at 1. apply Permutation_map. now apply order_perm.
Qed.

Lemma nth_index ord i d : In i ord -> (index i ord < length ord)%nat /\ nth (index i ord) ord d = i.
Proof.
  induction ord as [|x ord IH]; [intros []|]. intros H. cbn [index]. destruct (Nat.eqb_spec i x) as [->|Hne]; cbn [length nth]; [split; [lia|reflexivity]|].
  destruct H as [->|H]; [contradiction|]. destruct (IH H). split; [lia|auto].
Qed.

Lemma permute_inverse {A} ord (l : list A) : is_order (length l) ord = true -> permute (inverse ord) (permute ord l) = l.
Proof.
  intros H. pose proof (permute_perm ord l H) as Hp. pose proof (order_perm _ _ H) as Ho. destruct l as [|d l0] eqn:El.
  - cbn in Ho. apply Permutation_nil in Ho. now subst.
  - rewrite <- El in *. assert (Hlt : forall i, In i ord -> (i < length l)%nat) by (intros i Hi; eapply order_lt; eauto).
    assert (Elen : length ord = length l) by (apply Permutation_length in Ho; rewrite seq_length in Ho; lia).
    rewrite (permute_nth d (inverse ord)).
    + unfold inverse. rewrite map_map, (permute_nth d ord) by exact Hlt. rewrite Elen.
      etransitivity; [|apply (nth_seq_id d l)]. apply map_ext_in. intros i Hi.
      assert (Hio : In i ord) by (rewrite <- Ho; exact Hi). destruct (nth_index ord i O Hio) as [H1 H2].
      rewrite (nth_indep _ d (nth O l d)) by (rewrite map_length; lia). rewrite (map_nth (fun i => nth i l d)). now rewrite H2.
    + intros i Hi. rewrite <- (Permutation_length Hp). unfold inverse in Hi. apply in_map_iff in Hi. destruct Hi as (k & <- & Hk).
      rewrite Elen in Hk. assert (Hio : In k ord) by (rewrite <- Ho; exact Hk). destruct (nth_index ord k O Hio). lia.
Qed.

Section Facts.
Context {C : Type} (upd : nat -> coord -> list C -> C) (nb : coord -> list (option coord)) (edge : C) (nanos : nat).
Hypothesis Hnanos : (1 <= nanos)%nat.
Context (I : coord -> Prop) (steerers : list (adapter * @action C)) (ser : nat -> grid C) (T0 w N : nat).
Hypothesis Hw : (1 <= w)%nat.
Hypothesis Hst : Forall (adapter_ok nanos T0) steerers.
Hypothesis Hser : forall k c, I c -> ser (S k) c = new_cell upd nb edge (Nat.modulo (T0 + k) nanos) (st steerers ser T0 k) c.
Hypothesis Hact : forall ord, is_order (length steerers) ord = true -> forall k c x,
  act_at (permute ord steerers) T0 k c x = act_at steerers T0 k c x.

Notation node_inv := (node_inv nanos steerers ser T0 w N).
Notation cfg_ok := (cfg_ok nb I steerers w).
Notation sent := (sent w).
Notation mu := (mu w).
Notation hnode_step := (hnode_step upd nb edge nanos steerers).

(** *** Steerers in another order *)

Lemma inv_reorder ss ss' ord cf m nd : (forall k c x, act_at ss T0 k c x = act_at ss' T0 k c x) ->
  (forall k, permute ord (stos_at ss T0 k) = stos_at ss' T0 k) ->
  StepperFacts.node_inv nanos ss ser T0 w N cf m nd -> StepperFacts.node_inv nanos ss' ser T0 w N cf m (reorder ord nd).
Proof.
  intros Ha Hs Hi. assert (Est : forall k c, st ss ser T0 k c = st ss' ser T0 k c).
  { intros k c. unfold st, act. destruct k; auto. }
  unfold StepperFacts.node_inv in *. cbn [reorder n_pc n_step n_nano n_valid n_old n_new n_rim n_ker n_sg n_si n_log n_left].
  destruct (n_pc nd) as [|gh rem|gh rem].
  - destruct Hi as (k & H1 & H2 & H3 & H4 & H5 & H6 & H7 & H8). exists k. rewrite H4, H5, !Hs.
    do 5 (split; [auto|]). split; [intros c Hc; rewrite <- Est; now apply H6|]. split; [|exact H8].
    intros E c Hc. rewrite <- Est. now apply H7.
  - destruct Hi as ((G1 & G2 & G3 & G4 & G5) & H). split; [|exact H].
    unfold ghost_inv. cbn [reorder n_pc n_step n_nano n_valid n_old n_new n_rim n_ker n_sg n_si n_log n_left]. rewrite G3, G4, !Hs. auto.
  - destruct Hi as ((G1 & G2 & G3 & G4 & G5) & H). split; [|exact H].
    unfold ghost_inv. cbn [reorder n_pc n_step n_nano n_valid n_old n_new n_rim n_ker n_sg n_si n_log n_left]. rewrite G3, G4, !Hs. auto.
Qed.

Section Order.
Context (ord : list nat).
Hypothesis Hord : is_order (length steerers) ord = true.

Let ss := permute ord steerers.

Lemma stos_order k : permute ord (stos_at steerers T0 k) = stos_at ss T0 k.
Proof. unfold stos_at, ss. apply permute_map. Qed.

Lemma stos_back k : permute (inverse ord) (stos_at ss T0 k) = stos_at steerers T0 k.
Proof. rewrite <- stos_order. apply permute_inverse. unfold stos_at. now rewrite map_length. Qed.

Lemma inv_there cf m nd : node_inv cf m nd -> StepperFacts.node_inv nanos ss ser T0 w N cf m (reorder ord nd).
Proof. apply inv_reorder; [intros; symmetry; now apply Hact|apply stos_order]. Qed.

Lemma inv_back cf m nd : StepperFacts.node_inv nanos ss ser T0 w N cf m nd -> node_inv cf m (reorder (inverse ord) nd).
Proof. apply inv_reorder; [now apply Hact|apply stos_back]. Qed.

Lemma cfg_order cf : cfg_ok cf -> StepperFacts.cfg_ok nb I ss w cf.
Proof.
  intros []. split; auto. intros Hne. apply co_keep0. intros E. apply Hne. unfold ss. rewrite E in Hord |- *.
  apply order_perm in Hord. cbn in Hord. apply Permutation_nil in Hord. now rewrite Hord.
Qed.

Lemma st_order : Forall (adapter_ok nanos T0) ss.
Proof. unfold ss. eapply Permutation_Forall; [apply permute_perm; exact Hord|exact Hst]. Qed.

Lemma ser_order k c : I c -> ser (S k) c = new_cell upd nb edge (Nat.modulo (T0 + k) nanos) (st ss ser T0 k) c.
Proof.
  intros Hc. rewrite (Hser k c Hc). apply new_cell_ext. intros c' _. unfold st, act. destruct k; [reflexivity|]. symmetry. now apply Hact.
Qed.

Lemma order_update1 cf m nd : cfg_ok cf -> node_inv cf m nd -> n_pc nd = PStep -> n_left nd <> O ->
  exists nd', in_order steerers ord (fun ss => update1 upd nb edge nanos ss cf) nd = Ok nd' /\ n_left nd' = (n_left nd - 1)%nat /\
    (n_pc nd' = PStep /\ node_inv cf m nd' \/ exists gh, n_pc nd' = PRecv gh (cf_in cf) /\ gh_t gh = O /\ node_inv cf (S m) nd').
Proof.
  intros Hcf Hi Hpc Hl. unfold in_order.
  destruct (update1_ok upd nb edge nanos Hnanos I ss ser T0 w N Hw st_order ser_order cf m (reorder ord nd) (cfg_order cf Hcf) (inv_there cf m nd Hi) Hpc Hl)
    as (nd' & E & H1 & H2). fold ss. rewrite E. exists (reorder (inverse ord) nd'). split; [reflexivity|]. split; [exact H1|].
  destruct H2 as [[H2 H3]|(gh & H2 & H3 & H4)]; [left|right; exists gh]; auto using inv_back.
Qed.

Lemma order_rim cf m nd gh : cfg_ok cf -> node_inv cf m nd -> n_pc nd = PRecv gh [] ->
  exists nd' gh', in_order steerers ord (fun ss nd => update_rim upd nb edge nanos ss cf nd gh) nd = Ok nd' /\ node_inv cf m nd' /\
    n_pc nd' = PSend gh' (cf_out cf) /\ gh_t gh' = gh_t gh /\ n_left nd' = n_left nd.
Proof.
  intros Hcf Hi Hpc. unfold in_order.
  destruct (update_rim_ok upd nb edge nanos Hnanos I ss ser T0 w N Hw st_order ser_order cf m (reorder ord nd) gh (cfg_order cf Hcf) (inv_there cf m nd Hi) Hpc)
    as (nd' & gh' & E & H1 & H2 & H3 & H4). fold ss. rewrite E. exists (reorder (inverse ord) nd'), gh'. split; [reflexivity|]. auto using inv_back.
Qed.

Lemma order_finish cf m nd gh : cfg_ok cf -> node_inv cf m nd -> n_pc nd = PSend gh [] -> S (gh_t gh) = w ->
  exists nd', in_order steerers ord (fun ss nd => finish_ghost nanos ss cf nd gh) nd = Ok nd' /\ node_inv cf m nd' /\
    n_left nd' = n_left nd /\ n_pc nd' = PStep.
Proof.
  intros Hcf Hi Hpc Ht. unfold in_order.
  destruct (finish_ghost_ok upd nb edge nanos Hnanos I ss ser T0 w N Hw st_order ser_order cf m (reorder ord nd) gh (cfg_order cf Hcf) (inv_there cf m nd Hi) Hpc Ht)
    as (nd' & E & H1 & H2 & H3). fold ss. rewrite E. exists (reorder (inverse ord) nd'). split; [reflexivity|]. auto using inv_back.
Qed.

End Order.

(** ** Links *)

(** [a] messages have been sent, [b] received; message [k] has the values of
    step [S k * w]. *)
Definition hlrel (cs : list coord) (a b : nat) (l : hlink C) : Prop :=
  exists snt, length snt = a /\ hrel cs (T0 + w) w None snt b l /\
    forall k x, nth_error snt k = Some x -> forall c, In c cs -> snd x c = ser (S k * w) c.

Lemma hdue_sto cs a b l t : hlrel cs a b l -> due_at (hl_sto l) t = Nat.eqb (T0 + S b * w) t.
Proof.
  intros (snt & _ & R & _). rewrite (hr_sto _ _ _ _ _ _ _ R), due_none. cbn [due_at]. unfold link_step_no. f_equal. lia.
Qed.

Lemma hdue_req cs a b l t : hlrel cs a b l -> due_at (hl_req l) t = Nat.eqb (T0 + S a * w) t.
Proof.
  intros (snt & <- & R & _). rewrite (hr_req _ _ _ _ _ _ _ R), due_none. cbn [due_at]. unfold link_step_no. f_equal. lia.
Qed.

Lemma hget cs a b l g : hlrel cs a b l ->
  (hlink_get cs l g (T0 + S b * w) = LWait /\ (a = b \/ hl_net l <> [])) \/
  (exists l' g', hlink_get cs l g (T0 + S b * w) = LDone (l', g') /\ hlrel cs a (S b) l' /\ hl_net l' = hl_net l /\
     (forall c, In c cs -> g' c = ser (S b * w) c) /\ (forall c, ~ In c cs -> g' c = g c)).
Proof.
  intros (snt & Ea & R & Hv). pose proof (get_spec cs (T0 + w) w None Hw snt b l g (T0 + S b * w) R) as H.
  assert (Et : (T0 + S b * w)%nat = link_step_no (T0 + w) w b) by (unfold link_step_no; lia).
  destruct (hlink_get cs l g (T0 + S b * w)) as [[l' g']| |] eqn:Eg.
  - right. exists l', g'. split; [reflexivity|]. destruct H as [(_ & _ & _ & [H|H])|(_ & _ & _ & src & Hn & R' & En & H1 & H2)].
    + exfalso. rewrite Et in H. lia.
    + now rewrite due_none in H.
    + split; [exists snt; auto|]. split; [exact En|]. split; [|exact H2]. intros c Hc. rewrite (H1 c Hc). apply (Hv b _ Hn c Hc).
  - left. split; [reflexivity|]. destruct H as (_ & _ & [H|(m & H & _)]); [left; lia|right]. intros E. now rewrite E in H.
  - exfalso. destruct H as [_ H]. rewrite Et in H. lia.
Qed.

Lemma hput cs a b l g : hlrel cs a b l -> (forall c, In c cs -> g c = ser (S a * w) c) ->
  exists l', hlink_put cs l g (T0 + S a * w) = LDone l' /\ length (hl_net l') = S (length (hl_net l)) /\ forall b', hlrel cs a b' l -> hlrel cs (S a) b' l'.
Proof.
  intros R0 Hg. pose proof R0 as (snt & Ea & R & Hv). pose proof (put_spec cs (T0 + w) w None Hw snt b l g (T0 + S a * w) R) as H.
  assert (Et : (T0 + S a * w)%nat = link_step_no (T0 + w) w (length snt)) by (unfold link_step_no; lia).
  destruct (hlink_put cs l g (T0 + S a * w)) as [l'| |] eqn:Ep; [|contradiction|exfalso; destruct H as [_ H]; rewrite Et in H; lia].
  destruct H as [(_ & _ & [H|H])|(_ & R' & _ & _ & _ & En & _)]; [exfalso; rewrite Et in H; lia|now rewrite due_none in H|].
  exists l'. split; [reflexivity|]. split; [rewrite En, app_length; cbn [length]; lia|].
  intros b' (snt' & Ea' & Rb & Hv'). pose proof (put_spec cs (T0 + w) w None Hw snt' b' l g (T0 + S a * w) Rb) as H. rewrite Ep in H.
  assert (Et' : (T0 + S a * w)%nat = link_step_no (T0 + w) w (length snt')) by (unfold link_step_no; lia).
  destruct H as [(_ & _ & [H|H])|(_ & Rb' & _)]; [exfalso; rewrite Et' in H; lia|now rewrite due_none in H|].
  exists (snt' ++ [((T0 + S a * w)%nat, g)]). split; [rewrite app_length; cbn [length]; lia|]. split; [exact Rb'|].
  intros k x Hk c Hc. destruct (Nat.lt_ge_cases k (length snt')) as [Hl|Hl]; [rewrite nth_error_app1 in Hk by auto; now apply (Hv' k x)|].
  rewrite nth_error_app2 in Hk by auto. destruct (k - length snt')%nat as [|j] eqn:Ej; cbn in Hk; [|destruct j; discriminate].
  injection Hk as <-. cbn [snd]. replace k with a by lia. now apply Hg.
Qed.

(** ** A step of a node *)

Inductive hlink_change (cf : node_cfg) (i m m' : nat) (nd nd' : node C) (ls : hlinks C) : hlinks C -> Prop :=
| hc_none :
    (forall j cs, In (j, cs) (cf_in cf) -> recvd m' nd' j = recvd m nd j) ->
    (forall j cs, In (j, cs) (cf_out cf) -> sent m' nd' j = sent m nd j) ->
    hlink_change cf i m m' nd nd' ls ls
| hc_recv j cs l :
    In (j, cs) (cf_in cf) ->
    (forall j' cs', In (j', cs') (cf_in cf) -> j' <> j -> recvd m' nd' j' = recvd m nd j') ->
    (forall j' cs', In (j', cs') (cf_out cf) -> sent m' nd' j' = sent m nd j') ->
    (forall a, hlrel cs a (recvd m nd j) (ls j i) -> hlrel cs a (recvd m' nd' j) l) ->
    (length (hl_net l) <= S (length (hl_net (ls j i))))%nat ->
    hlink_change cf i m m' nd nd' ls (set_hlink ls j i l)
| hc_send j cs l :
    In (j, cs) (cf_out cf) ->
    (forall j' cs', In (j', cs') (cf_out cf) -> j' <> j -> sent m' nd' j' = sent m nd j') ->
    (forall j' cs', In (j', cs') (cf_in cf) -> recvd m' nd' j' = recvd m nd j') ->
    (forall b, hlrel cs (sent m nd j) b (ls i j) -> hlrel cs (sent m' nd' j) b l) ->
    (length (hl_net l) <= S (length (hl_net (ls i j))))%nat ->
    hlink_change cf i m m' nd nd' ls (set_hlink ls i j l).

Definition hblocked (cf : node_cfg) (i m k : nat) (ord : list nat) (ls : hlinks C) (nd : node C) : Prop :=
  is_order (length steerers) ord = false \/ (n_pc nd = PStep /\ n_left nd = O) \/ k <> O \/
  (exists j cs, In (j, cs) (cf_in cf) /\ S (recvd m nd j) = m /\
     forall a, hlrel cs a (recvd m nd j) (ls j i) -> a = recvd m nd j \/ hl_net (ls j i) <> []).

Lemma waiting_perm j rem rem' x : Permutation rem (x :: rem') -> waiting j rem = (Nat.eqb (fst x) j || waiting j rem').
Proof.
  intros H. change (Nat.eqb (fst x) j || waiting j rem') with (waiting j (x :: rem')). revert H. generalize (x :: rem'). intros l H.
  unfold waiting. induction H; cbn [existsb]; auto; [now rewrite IHPermutation| |congruence].
  destruct (Nat.eqb (fst x0) j), (Nat.eqb (fst y) j); reflexivity.
Qed.

Lemma hnode_step_ok cf i k ord ls nd m : cfg_ok cf -> node_inv cf m nd ->
  (forall j cs, In (j, cs) (cf_in cf) -> exists a, hlrel cs a (recvd m nd j) (ls j i)) ->
  (forall j cs, In (j, cs) (cf_out cf) -> exists b, hlrel cs (sent m nd j) b (ls i j)) ->
  (hnode_step cf i k ord ls nd = Wait /\ hblocked cf i m k ord ls nd) \/
  (exists nd' ls' m', hnode_step cf i k ord ls nd = Ok (nd', ls') /\ node_inv cf m' nd' /\
     hlink_change cf i m m' nd nd' ls ls' /\ (mu cf nd' < mu cf nd)%nat).
Proof.
  intros Hcf Hinv Hin Hout. unfold HpxSimModel.hnode_step.
  destruct (is_order (length steerers) ord) eqn:Hord; cbn [negb]; [|left; split; [reflexivity|left; exact Hord]].
  destruct (n_pc nd) as [|gh rem|gh rem] eqn:Hpc.
  - (* kernel *)
    destruct (Nat.eqb_spec (n_left nd) 0) as [El|El]; [left; split; [reflexivity|]; right; left; auto|]. right.
    destruct (order_update1 ord Hord cf m nd Hcf Hinv Hpc El) as (nd' & E & Hl & Hcase). rewrite E.
    destruct Hcase as [[Hpc' Hinv']|(gh & Hpc' & Hgt & Hinv')].
    + exists nd', ls, m. split; [reflexivity|]. split; [exact Hinv'|]. split.
      * apply hc_none; intros; unfold recvd, StepperFacts.sent; now rewrite Hpc, Hpc'.
      * unfold StepperFacts.mu. rewrite Hpc, Hpc', Hl. cbn [mu_pc]. nia.
    + exists nd', ls, (S m). split; [reflexivity|]. split; [exact Hinv'|]. split.
      * apply hc_none; intros; unfold recvd, StepperFacts.sent; rewrite Hpc, Hpc'; [|reflexivity].
        rewrite Hgt. cbn [Nat.eqb andb pred]. erewrite waiting_in; eauto.
      * unfold StepperFacts.mu. rewrite Hpc, Hpc', Hl. cbn [mu_pc]. rewrite Hgt. set (P := (length (cf_in cf) + length (cf_out cf) + 2)%nat).
        assert (length (cf_in cf) + length (cf_out cf) + 2 + (w - 0 - 1) * P = w * P)%nat by (unfold P; nia).
        set (X := (w * P + 1)%nat). assert (Hx : ((n_left nd - 1) * X + X = n_left nd * X)%nat) by nia. lia.
  - destruct rem as [|x0 rem0].
    + (* rim *)
      right. destruct (order_rim ord Hord cf m nd gh Hcf Hinv Hpc) as (nd' & gh' & E & Hinv' & Hpc' & Et & El). rewrite E. exists nd', ls, m.
      split; [reflexivity|]. split; [exact Hinv'|]. split.
      * apply hc_none; intros j cs Hj; unfold recvd, StepperFacts.sent; rewrite Hpc, Hpc'; [now rewrite andb_false_r|].
        erewrite waiting_in by eauto. now rewrite andb_false_r.
      * unfold StepperFacts.mu. rewrite Hpc, Hpc', El. cbn [mu_pc]. rewrite Et. cbn [length]. lia.
    + (* receive *)
      set (rem := x0 :: rem0) in *. destruct (take_nth k rem) as [[[j cs] rem']|] eqn:Etk.
      2:{ left. split; [reflexivity|]. right. right. left. intros ->. discriminate Etk. }
      pose proof (take_nth_perm _ _ _ _ Etk) as Hperm. clear Etk. clearbody rem. clear x0 rem0.
      unfold StepperFacts.node_inv in Hinv. rewrite Hpc in Hinv. destruct Hinv as (G & Hincl & Hnd & H0 & H1). pose proof G as (Ht & Hgi & Hsi & Hsg & Hgl & Hcg & Hcl & Hb1 & Hb2 & Hl & HN).
      assert (Hjr : In (j, cs) rem) by (rewrite Hperm; now left).
      assert (Hsub : forall x, In x rem' -> In x rem) by (intros x Hx; rewrite Hperm; now right).
      assert (Hj : In (j, cs) (cf_in cf)) by (apply Hincl; exact Hjr).
      assert (Hnd0 : NoDup (map fst ((j, cs) :: rem'))) by (eapply Permutation_NoDup; [apply Permutation_map, Hperm|exact Hnd]).
      cbn [map fst] in Hnd0. inversion Hnd0 as [|x y Hnj Hnd']; subst x y.
      assert (Hlen : length rem = S (length rem')) by (apply Permutation_length in Hperm; exact Hperm).
      destruct (Hin j cs Hj) as (a & R). rewrite (fst_clock _ _ _ _ _ Hcl), (hdue_sto cs a _ _ _ R).
      assert (Hrec : recvd m nd j = if Nat.eqb (gh_t gh) 0 then pred m else m).
      { unfold recvd. rewrite Hpc. erewrite waiting_in by (exact Hjr). now rewrite andb_true_r. }
      destruct (Nat.eqb_spec (T0 + S (recvd m nd j) * w) (T0 + (m * w + gh_t gh))) as [E|E].
      * assert (Et : gh_t gh = O /\ S (recvd m nd j) = m).
        { rewrite Hrec in E |- *. destruct (Nat.eqb_spec (gh_t gh) 0) as [Ez|Ez]; [|nia]. split; [exact Ez|]. destruct m; [nia|reflexivity]. }
        destruct Et as [Et Em]. rewrite <- E.
        destruct (hget cs a (recvd m nd j) (ls j i) (n_old nd) R) as [[E1 Ea]|(l & g & E1 & R1 & En & K1 & K2)].
        -- left. rewrite E1. split; [reflexivity|]. right. right. right. exists j, cs. split; [exact Hj|]. split; [exact Em|].
           intros a' R'. destruct (hget cs a' (recvd m nd j) (ls j i) (n_old nd) R') as [[_ Ea']|(l' & g' & E1' & _)]; [exact Ea'|congruence].
        -- right. rewrite E1. do 2 eexists. exists m. split; [reflexivity|]. split; [|split].
           ++ unfold StepperFacts.node_inv. cbn [set_pc set_old n_pc]. split; [exact G|]. split; [intros x Hx; apply Hincl; now apply Hsub|]. split; [exact Hnd'|].
              split; [|rewrite Et; lia]. intros _ c Hc Hm. cbn [set_pc set_old n_old].
              destruct (in_dec (list_eq_dec Z.eq_dec) c cs) as [Hi|Hi]; [rewrite K1 by exact Hi; now rewrite Em|]. rewrite K2 by auto. apply H0; auto.
              destruct Hm as [Hm|Hm]; [auto|]. right. intros j' cs' Hx. rewrite Hperm in Hx. destruct Hx as [Hx|Hx]; [now injection Hx as <- <-|now apply (Hm j' cs')].
           ++ apply (hc_recv _ _ _ _ _ _ _ j cs l).
              ** exact Hj.
              ** intros j' cs' _ Hne. unfold recvd. rewrite Hpc. cbn [set_pc n_pc]. rewrite (waiting_perm j' _ _ _ Hperm). cbn [fst].
                 now rewrite (proj2 (Nat.eqb_neq j j')) by auto.
              ** intros j' cs' _. unfold StepperFacts.sent. now rewrite Hpc.
              ** intros a' R'. unfold recvd at 1. cbn [set_pc n_pc]. rewrite waiting_out by auto. rewrite andb_false_r.
                 destruct (hget cs a' (recvd m nd j) (ls j i) (n_old nd) R') as [[E1' Ea']|(l' & g' & E1' & R1' & _)]; [congruence|].
                 rewrite E1 in E1'. injection E1' as <- <-. rewrite Em in R1'. exact R1'.
              ** rewrite En. lia.
           ++ unfold StepperFacts.mu. rewrite Hpc. cbn [set_pc set_old n_left n_pc mu_pc length]. lia.
      * right. do 2 eexists. exists m. split; [reflexivity|]. split; [|split].
        -- unfold StepperFacts.node_inv. cbn [set_pc n_pc]. split; [exact G|]. split; [intros x Hx; apply Hincl; now apply Hsub|]. split; [exact Hnd'|].
           split; [|exact H1]. intros Et c Hc Hm. cbn [set_pc n_old]. apply H0; auto. left. rewrite Hrec, Et in E. cbn [Nat.eqb] in E. destruct m; [reflexivity|].
           cbn [pred] in E. rewrite Nat.add_0_r in E. now elim E.
        -- assert (Hone : (if Nat.eqb (gh_t gh) 0 then pred m else m) = m).
           { rewrite Hrec in E. destruct (Nat.eqb_spec (gh_t gh) 0) as [Ez|Ez]; [|reflexivity]. destruct m; [reflexivity|]. cbn [pred] in E. lia. }
           apply hc_none; intros j' cs' Hj'; unfold recvd, StepperFacts.sent; rewrite Hpc; cbn [set_pc n_pc]; [|reflexivity].
           destruct (Nat.eqb (gh_t gh) 0); [|reflexivity]. cbn [andb]. rewrite Hone. destruct (waiting j' rem), (waiting j' rem'); reflexivity.
        -- unfold StepperFacts.mu. rewrite Hpc. cbn [set_pc n_left n_pc mu_pc length]. lia.
  - destruct rem as [|x0 rem0].
    + (* end of the loop's body *)
      pose proof Hinv as Hinv0. unfold StepperFacts.node_inv in Hinv. rewrite Hpc in Hinv. destruct Hinv as (G & _ & _ & H0 & H1). pose proof G as (Ht & Hgi & Hsi & Hsg & Hgl & Hcg & Hcl & Hb1 & Hb2 & Hl & HN).
      right. rewrite (co_w _ _ _ _ cf Hcf). destruct (Nat.ltb_spec (gh_t gh + 1) w) as [Hlt|Hge].
      * do 2 eexists. exists m. split; [reflexivity|]. split; [|split].
        -- unfold StepperFacts.node_inv. cbn [set_pc n_pc gh_t]. rewrite Nat.add_1_r. split; [|split; [apply incl_refl|split; [apply (co_in_nodup _ _ _ _ cf Hcf)|split; [discriminate|]]]].
           ++ unfold ghost_inv. cbn [gh_t gh_gl gh_step gh_nano gh_init set_pc n_step n_nano n_rim n_ker n_sg n_si n_log n_left]. repeat (split; [assumption || lia|]). assumption.
           ++ intros _. exact (conj H0 H1).
        -- apply hc_none; intros j cs Hj; unfold recvd, StepperFacts.sent; rewrite Hpc; cbn [set_pc n_pc gh_t]; rewrite ?Nat.add_1_r.
           ++ reflexivity.
           ++ destruct (Nat.eqb_spec (S (gh_t gh)) w); [lia|]. reflexivity.
        -- unfold StepperFacts.mu. rewrite Hpc. cbn [set_pc n_left n_pc mu_pc gh_t length]. set (P := (length (cf_in cf) + length (cf_out cf) + 2)%nat).
           assert ((w - gh_t gh - 1) * P = P + (w - (gh_t gh + 1) - 1) * P)%nat by nia. unfold P in *. lia.
      * assert (Et : S (gh_t gh) = w) by lia. destruct (order_finish ord Hord cf m nd gh Hcf Hinv0 Hpc Et) as (nd' & E & Hinv' & El & Hpc').
        rewrite E. exists nd', ls, m. split; [reflexivity|]. split; [exact Hinv'|]. split.
        -- apply hc_none; intros j cs Hj; unfold recvd, StepperFacts.sent; rewrite Hpc, Hpc'; [reflexivity|]. rewrite Et, Nat.eqb_refl. reflexivity.
        -- unfold StepperFacts.mu. rewrite Hpc, Hpc', El. cbn [mu_pc length]. lia.
    + (* send *)
      set (rem := x0 :: rem0) in *. destruct (take_nth k rem) as [[[j cs] rem']|] eqn:Etk.
      2:{ left. split; [reflexivity|]. right. right. left. intros ->. discriminate Etk. }
      pose proof (take_nth_perm _ _ _ _ Etk) as Hperm. clear Etk. clearbody rem. clear x0 rem0.
      unfold StepperFacts.node_inv in Hinv. rewrite Hpc in Hinv. destruct Hinv as (G & Hincl & Hnd & H0 & H1). pose proof G as (Ht & Hgi & Hsi & Hsg & Hgl & Hcg & Hcl & Hb1 & Hb2 & Hl & HN).
      assert (Hjr : In (j, cs) rem) by (rewrite Hperm; now left).
      assert (Hsub : forall x, In x rem' -> In x rem) by (intros x Hx; rewrite Hperm; now right).
      assert (Hj : In (j, cs) (cf_out cf)) by (apply Hincl; exact Hjr).
      assert (Hnd0 : NoDup (map fst ((j, cs) :: rem'))) by (eapply Permutation_NoDup; [apply Permutation_map, Hperm|exact Hnd]).
      cbn [map fst] in Hnd0. inversion Hnd0 as [|x y Hnj Hnd']; subst x y.
      assert (Hlen : length rem = S (length rem')) by (apply Permutation_length in Hperm; exact Hperm).
      destruct (Hout j cs Hj) as (b & R). rewrite (hdue_req cs _ b _ _ R), Hgl.
      assert (Hsent : sent m nd j = m).
      { unfold StepperFacts.sent. rewrite Hpc. erewrite waiting_in by (exact Hjr). now rewrite andb_false_r. }
      rewrite Hsent in R. rewrite Hsent. right. destruct (Nat.eqb_spec (T0 + S m * w) (T0 + m * w + S (gh_t gh))) as [E|E].
      * assert (Et : S (gh_t gh) = w) by nia. rewrite <- E.
        assert (Hmsg : forall c, In c cs -> n_old nd c = ser (S m * w) c).
        { intros c Hc. rewrite H0; [f_equal; lia|]. rewrite Et. apply (co_out _ _ _ _ cf Hcf j cs c Hj Hc). }
        destruct (hput cs m b (ls i j) (n_old nd) R Hmsg) as (l & E1 & En & R1). rewrite E1. do 2 eexists. exists m. split; [reflexivity|]. split; [|split].
        -- unfold StepperFacts.node_inv. cbn [set_pc n_pc]. split; [exact G|]. split; [intros x Hx; apply Hincl; now apply Hsub|]. split; [exact Hnd'|]. exact (conj H0 H1).
        -- apply (hc_send _ _ _ _ _ _ _ j cs l).
           ++ exact Hj.
           ++ intros j' cs' _ Hne. unfold StepperFacts.sent. rewrite Hpc. cbn [set_pc n_pc]. rewrite (waiting_perm j' _ _ _ Hperm). cbn [fst].
              now rewrite (proj2 (Nat.eqb_neq j j')) by auto.
           ++ intros j' cs' _. unfold recvd. now rewrite Hpc.
           ++ intros b' R'. unfold StepperFacts.sent at 1. cbn [set_pc n_pc]. rewrite waiting_out by auto. rewrite Et, Nat.eqb_refl. cbn [negb andb].
              rewrite Hsent in R'. now apply R1.
           ++ lia.
        -- unfold StepperFacts.mu. rewrite Hpc. cbn [set_pc n_left n_pc mu_pc length]. lia.
      * do 2 eexists. exists m. split; [reflexivity|]. split; [|split].
        -- unfold StepperFacts.node_inv. cbn [set_pc n_pc]. split; [exact G|]. split; [intros x Hx; apply Hincl; now apply Hsub|]. split; [exact Hnd'|]. exact (conj H0 H1).
        -- assert (Hneq : Nat.eqb (S (gh_t gh)) w = false) by (apply Nat.eqb_neq; nia).
           apply hc_none; intros j' cs' Hj'; unfold recvd, StepperFacts.sent; rewrite Hpc; cbn [set_pc n_pc]; [reflexivity|]. now rewrite Hneq.
        -- unfold StepperFacts.mu. rewrite Hpc. cbn [set_pc n_left n_pc mu_pc length]. lia.
Qed.

(** ** All nodes *)

Context (cfs : list node_cfg).
Hypothesis Hcfs : forall i cf, nth_error cfs i = Some cf -> cfg_ok cf.
Hypothesis Hmatch : forall i j cfi cfj cs, nth_error cfs i = Some cfi -> nth_error cfs j = Some cfj ->
  (In (j, cs) (cf_out cfi) <-> In (i, cs) (cf_in cfj)).
Hypothesis Hout_peer : forall i cf j cs, nth_error cfs i = Some cf -> In (j, cs) (cf_out cf) -> j <> i /\ (j < length cfs)%nat.
Hypothesis Hin_peer : forall i cf j cs, nth_error cfs i = Some cf -> In (j, cs) (cf_in cf) -> j <> i /\ (j < length cfs)%nat.

Notation hsim_step := (hsim_step upd nb edge nanos steerers cfs).

Record hsim_inv (ms : nat -> nat) (st : hsim C) : Prop := {
  hi_len : length (hs_nodes st) = length cfs;
  hi_node : forall i cf nd, nth_error cfs i = Some cf -> nth_error (hs_nodes st) i = Some nd -> node_inv cf (ms i) nd;
  hi_link : forall i j cf ndi ndj cs, nth_error cfs i = Some cf -> nth_error (hs_nodes st) i = Some ndi -> nth_error (hs_nodes st) j = Some ndj ->
    In (j, cs) (cf_out cf) -> hlrel cs (sent (ms i) ndi j) (recvd (ms j) ndj i) (hs_links st i j);
  hi_net : forall i j, hl_net (hs_links st i j) <> [] -> exists cf cs, nth_error cfs i = Some cf /\ In (j, cs) (cf_out cf)
}.

Let sum_bump' := sum_bump upd nb edge nanos Hnanos I steerers ser T0 w Hw Hser cfs Hcfs Hmatch Hout_peer Hin_peer.
Let sum_drop' := sum_drop upd nb edge nanos Hnanos I steerers ser T0 w Hw Hser cfs Hcfs Hmatch Hout_peer Hin_peer.
Let nodes_drop' := nodes_drop upd nb edge nanos Hnanos I steerers ser T0 w Hw Hser cfs Hcfs Hmatch Hout_peer Hin_peer.

Definition hmeasure (st : hsim C) : nat :=
  (2 * sum (node_measure w cfs (hs_nodes st)) (length cfs) +
   sum (fun i => sum (fun j => length (hl_net (hs_links st i j))) (length cfs)) (length cfs))%nat.

Lemma set_hlink_same (ls : hlinks C) i j l : set_hlink ls i j l i j = l.
Proof. unfold set_hlink. now rewrite !Nat.eqb_refl. Qed.

Lemma set_hlink_other (ls : hlinks C) i j l a b : a <> i \/ b <> j -> set_hlink ls i j l a b = ls a b.
Proof.
  unfold set_hlink. destruct (Nat.eqb_spec a i), (Nat.eqb_spec b j); auto. intros []; contradiction.
Qed.

Lemma nets_bump (ls : hlinks C) i j l d n : (length (hl_net l) <= length (hl_net (ls i j)) + d)%nat ->
  (sum (fun a => sum (fun b => length (hl_net (set_hlink ls i j l a b))) n) n <=
   sum (fun a => sum (fun b => length (hl_net (ls a b))) n) n + d)%nat.
Proof.
  intros H. apply (sum_bump' _ _ i).
  - intros a Ha. apply Nat.eq_le_incl. unfold sum. induction (seq 0 n) as [|b s IH]; [reflexivity|]. cbn [fold_right].
    f_equal; [|exact IH]. now rewrite set_hlink_other by auto.
  - apply (sum_bump' _ _ j); [|now rewrite set_hlink_same]. intros b Hb. now rewrite set_hlink_other by auto.
Qed.

Lemma nets_drop (ls : hlinks C) i j l d n : (i < n)%nat -> (j < n)%nat -> (length (hl_net l) + d <= length (hl_net (ls i j)))%nat ->
  (sum (fun a => sum (fun b => length (hl_net (set_hlink ls i j l a b))) n) n + d <=
   sum (fun a => sum (fun b => length (hl_net (ls a b))) n) n)%nat.
Proof.
  intros Hi Hj H. apply (sum_drop' _ _ i); [exact Hi| |].
  - intros a Ha. unfold sum. induction (seq 0 n) as [|b s IH]; [reflexivity|]. cbn [fold_right].
    f_equal; [|exact IH]. now rewrite set_hlink_other by auto.
  - apply (sum_drop' _ _ j); [exact Hj| |now rewrite set_hlink_same]. intros b Hb. now rewrite set_hlink_other by auto.
Qed.

Lemma hlinks_of_node ms st i cf nd : hsim_inv ms st -> nth_error cfs i = Some cf -> nth_error (hs_nodes st) i = Some nd ->
  (forall j cs, In (j, cs) (cf_in cf) -> exists a, hlrel cs a (recvd (ms i) nd j) (hs_links st j i)) /\
  (forall j cs, In (j, cs) (cf_out cf) -> exists b, hlrel cs (sent (ms i) nd j) b (hs_links st i j)).
Proof.
  intros Hi Hcf Hnd. split; intros j cs Hj.
  - destruct (Hin_peer i cf j cs Hcf Hj) as [_ Hlt]. destruct (nth_ex cfs j Hlt) as (cfj & Hcfj).
    destruct (nth_ex (hs_nodes st) j) as (ndj & Hndj); [rewrite (hi_len _ _ Hi); exact Hlt|].
    exists (sent (ms j) ndj i). apply (hi_link _ _ Hi j i cfj); auto. apply (Hmatch j i cfj cf cs Hcfj Hcf). exact Hj.
  - destruct (Hout_peer i cf j cs Hcf Hj) as [_ Hlt].
    destruct (nth_ex (hs_nodes st) j) as (ndj & Hndj); [rewrite (hi_len _ _ Hi); exact Hlt|].
    exists (recvd (ms j) ndj i). now apply (hi_link _ _ Hi i j cf).
Qed.

Lemma hsim_step_ok ms st e : hsim_inv ms st ->
  match hsim_step st e with
  | Ok st' => exists ms', hsim_inv ms' st' /\ (hmeasure st' < hmeasure st)%nat
  | Wait => True
  | Fail => False
  end.
Proof.
  intros Hi. destruct e as [i k ord|i j k]; cbn [HpxSimModel.hsim_step].
  - destruct (nth_error cfs i) as [cf|] eqn:Hcf; [|exact Logic.I]. destruct (nth_error (hs_nodes st) i) as [nd|] eqn:Hnd; [|exact Logic.I].
    destruct (hlinks_of_node ms st i cf nd Hi Hcf Hnd) as [L1 L2].
    destruct (hnode_step_ok cf i k ord (hs_links st) nd (ms i) (Hcfs i cf Hcf) (hi_node _ _ Hi i cf nd Hcf Hnd) L1 L2)
      as [[E _]|(nd' & ls' & m' & E & Hinv' & Hch & Hmu)]; rewrite E; [exact Logic.I|].
    pose proof (nth_lt _ _ _ Hnd) as Hlt. exists (fset ms i m').
    assert (Hnth : forall a, nth_error (set_nth (hs_nodes st) i nd') a = if Nat.eqb i a then Some nd' else nth_error (hs_nodes st) a).
    { intros a. now apply nth_set_nth. }
    assert (Hfs : fset ms i m' i = m') by (unfold fset; now rewrite Nat.eqb_refl).
    assert (Hfo : forall a, a <> i -> fset ms i m' a = ms a).
    { intros a Ha. unfold fset. now rewrite (proj2 (Nat.eqb_neq a i) Ha). }
    split; [split|]; cbn [hs_nodes hs_links].
    + rewrite set_nth_length. apply (hi_len _ _ Hi).
    + intros a cfa nda Hcfa Hnda. rewrite Hnth in Hnda. destruct (Nat.eqb_spec i a) as [<-|Hne].
      * injection Hnda as <-. rewrite Hfs. congruence.
      * rewrite Hfo by auto. now apply (hi_node _ _ Hi).
    + intros a b cfa nda ndb cs Hcfa Hnda Hndb Hab. rewrite Hnth in Hnda, Hndb. destruct (Hout_peer a cfa b cs Hcfa Hab) as [Hne Hblt].
      destruct (Nat.eqb_spec i a) as [<-|Hia]; [|destruct (Nat.eqb_spec i b) as [<-|Hib]].
      * injection Hnda as <-. rewrite Hcf in Hcfa. injection Hcfa as <-. rewrite (proj2 (Nat.eqb_neq i b)) in Hndb by auto.
        rewrite Hfs, Hfo by auto. pose proof (hi_link _ _ Hi i b cf nd ndb cs Hcf Hnd Hndb Hab) as R.
        destruct Hch as [Hr Hs|j cs' l Hj Hr Hs Hl _|j cs' l Hj Hs Hr Hl _].
        -- now rewrite (Hs b cs Hab).
        -- rewrite (Hs b cs Hab). rewrite set_hlink_other; [exact R|]. left. intros ->. destruct (Hin_peer j cf j cs' Hcf Hj). now auto.
        -- destruct (Nat.eq_dec b j) as [->|Hbj].
           ++ rewrite set_hlink_same. assert (cs' = cs) by (eapply pairs_unique; [apply (co_out_nodup _ _ _ _ cf (Hcfs i cf Hcf))|exact Hj|exact Hab]). subst cs'. now apply Hl.
           ++ rewrite (Hs b cs Hab Hbj). rewrite set_hlink_other by auto. exact R.
      * injection Hndb as <-. rewrite Hfs, Hfo by auto.
        pose proof (hi_link _ _ Hi a i cfa nda nd cs Hcfa Hnda Hnd Hab) as R. pose proof (proj1 (Hmatch a i cfa cf cs Hcfa Hcf) Hab) as Hba.
        destruct Hch as [Hr Hs|j cs' l Hj Hr Hs Hl _|j cs' l Hj Hs Hr Hl _].
        -- now rewrite (Hr a cs Hba).
        -- destruct (Nat.eq_dec a j) as [->|Haj].
           ++ rewrite set_hlink_same. assert (cs' = cs) by (eapply pairs_unique; [apply (co_in_nodup _ _ _ _ cf (Hcfs i cf Hcf))|exact Hj|exact Hba]). subst cs'. now apply Hl.
           ++ rewrite (Hr a cs Hba Haj). rewrite set_hlink_other by auto. exact R.
        -- rewrite (Hr a cs Hba). rewrite set_hlink_other by auto. exact R.
      * rewrite !Hfo by auto. pose proof (hi_link _ _ Hi a b cfa nda ndb cs Hcfa Hnda Hndb Hab) as R.
        destruct Hch as [Hr Hs|j cs' l Hj Hr Hs Hl _|j cs' l Hj Hs Hr Hl _]; [exact R|rewrite set_hlink_other; auto|rewrite set_hlink_other; auto].
    + intros a b Hf. destruct Hch as [Hr Hs|j cs' l Hj Hr Hs Hl Hlen|j cs' l Hj Hs Hr Hl _]; [now apply (hi_net _ _ Hi)| |].
      * destruct (Nat.eq_dec a j) as [->|Ha]; [destruct (Nat.eq_dec b i) as [->|Hb]|]; [|rewrite set_hlink_other in Hf by auto; now apply (hi_net _ _ Hi)|rewrite set_hlink_other in Hf by auto; now apply (hi_net _ _ Hi)].
        destruct (Hin_peer i cf j cs' Hcf Hj) as [_ Hjlt]. destruct (nth_ex cfs j Hjlt) as (cfj & Hcfj). exists cfj, cs'. split; [exact Hcfj|].
        now apply (Hmatch j i cfj cf cs' Hcfj Hcf).
      * destruct (Nat.eq_dec a i) as [->|Ha]; [destruct (Nat.eq_dec b j) as [->|Hb]|]; [|rewrite set_hlink_other in Hf by auto; now apply (hi_net _ _ Hi)|rewrite set_hlink_other in Hf by auto; now apply (hi_net _ _ Hi)].
        exists cf, cs'. auto.
    + unfold hmeasure. cbn [hs_nodes hs_links]. pose proof (nodes_drop' _ i nd nd' cf Hcf Hnd Hmu) as H1.
      assert (H2 : (sum (fun a => sum (fun b => length (hl_net (ls' a b))) (length cfs)) (length cfs) <=
                sum (fun a => sum (fun b => length (hl_net (hs_links st a b))) (length cfs)) (length cfs) + 1)%nat).
      { destruct Hch as [Hr Hs|j cs' l Hj Hr Hs Hl Hlen|j cs' l Hj Hs Hr Hl Hlen]; [lia| |]; apply nets_bump; lia. }
      lia.
  - destruct (hl_net (hs_links st i j)) as [|x0 net0] eqn:En.
    { unfold hlink_arrive. rewrite En. unfold take_nth. now destruct k. }
    assert (Hf : hl_net (hs_links st i j) <> []) by (rewrite En; discriminate). clear En x0 net0.
    destruct (hi_net _ _ Hi i j Hf) as (cf & cs & Hcf & Hj). destruct (Hout_peer i cf j cs Hcf Hj) as [Hne Hlt].
    destruct (nth_ex (hs_nodes st) i) as (ndi & Hndi); [rewrite (hi_len _ _ Hi); eapply nth_lt; eauto|].
    destruct (nth_ex (hs_nodes st) j) as (ndj & Hndj); [rewrite (hi_len _ _ Hi); exact Hlt|].
    destruct (hi_link _ _ Hi i j cf ndi ndj cs Hcf Hndi Hndj Hj) as (snt & Ea & R & Hv).
    pose proof (arrive_rel cs (T0 + w) w None Hw snt _ _ k R) as HA. destruct (hlink_arrive (hs_links st i j) k) as [l| |]; [|exact Logic.I|exact HA].
    destruct HA as (R' & _ & Hlen & _). exists ms.
    split; [split|]; cbn [hs_nodes hs_links].
    + apply (hi_len _ _ Hi).
    + apply (hi_node _ _ Hi).
    + intros a b cfa nda ndb cs' Hcfa Hnda Hndb Hab. pose proof (hi_link _ _ Hi a b cfa nda ndb cs' Hcfa Hnda Hndb Hab) as R0.
      destruct (Nat.eq_dec a i) as [->|Ha]; [destruct (Nat.eq_dec b j) as [->|Hb]|].
      * rewrite set_hlink_same. rewrite Hcf in Hcfa. injection Hcfa as <-.
        assert (cs' = cs) by (eapply pairs_unique; [apply (co_out_nodup _ _ _ _ cf (Hcfs i cf Hcf))|exact Hab|exact Hj]). subst cs'.
        rewrite Hndi in Hnda. injection Hnda as <-. rewrite Hndj in Hndb. injection Hndb as <-. exists snt. auto.
      * rewrite set_hlink_other by auto. exact R0.
      * rewrite set_hlink_other by auto. exact R0.
    + intros a b Hf'. destruct (Nat.eq_dec a i) as [->|Ha]; [destruct (Nat.eq_dec b j) as [->|Hb]|].
      * exists cf, cs. auto.
      * rewrite set_hlink_other in Hf' by auto. now apply (hi_net _ _ Hi).
      * rewrite set_hlink_other in Hf' by auto. now apply (hi_net _ _ Hi).
    + unfold hmeasure. cbn [hs_nodes hs_links].
      pose proof (nets_drop (hs_links st) i j l 1 (length cfs) (nth_lt _ _ _ Hcf) Hlt ltac:(lia)). lia.
Qed.

Lemma hsim_run_ok es : forall ms st, hsim_inv ms st ->
  match hsim_run upd nb edge nanos steerers cfs st es with
  | Ok st' => exists ms', hsim_inv ms' st' /\ (hmeasure st' + length es <= hmeasure st)%nat
  | Wait => True
  | Fail => False
  end.
Proof.
  induction es as [|e es IH]; intros ms st Hi; cbn [hsim_run]; [exists ms; split; [exact Hi|cbn [length]; lia]|].
  pose proof (hsim_step_ok ms st e Hi) as H1. destruct (hsim_step st e) as [st1| |]; [|exact Logic.I|exact H1].
  destruct H1 as (ms1 & Hi1 & Hm). specialize (IH ms1 st1 Hi1). destruct (hsim_run _ _ _ _ _ _ st1 es) as [st2| |]; auto.
  destruct IH as (ms2 & Hi2 & Hm2). exists ms2. split; [exact Hi2|]. cbn [length]. lia.
Qed.

(** ** No deadlock *)

Lemma is_order_seq n : is_order n (seq 0 n) = true.
Proof.
  unfold is_order. rewrite seq_length, Nat.eqb_refl. cbn [andb]. apply forallb_forall. intros i Hi. apply existsb_exists. exists i. now rewrite Nat.eqb_refl.
Qed.

Lemma hprogress ms st : hsim_inv ms st -> forall v i nd, (ms i < v)%nat -> nth_error (hs_nodes st) i = Some nd -> ~ done nd ->
  exists e st', hsim_step st e = Ok st'.
Proof.
  intros Hi. induction v as [|v IH]; intros i nd Hv Hnd Hdone; [lia|].
  destruct (nth_ex cfs i) as (cf & Hcf); [rewrite <- (hi_len _ _ Hi); eapply nth_lt; eauto|].
  pose proof (hi_node _ _ Hi i cf nd Hcf Hnd) as Hinv. destruct (hlinks_of_node ms st i cf nd Hi Hcf Hnd) as [L1 L2].
  destruct (hnode_step_ok cf i 0 (seq 0 (length steerers)) (hs_links st) nd (ms i) (Hcfs i cf Hcf) Hinv L1 L2) as [[E Hb]|(nd' & ls' & m' & E & _)].
  2:{ exists (HNode i 0 (seq 0 (length steerers))). cbn [HpxSimModel.hsim_step]. rewrite Hcf, Hnd, E. eauto. }
  pose proof (round_bound upd nb edge nanos Hnanos I steerers ser T0 w N Hw Hser cfs Hcfs Hmatch Hout_peer Hin_peer _ _ _ Hinv) as Hbound.
  destruct Hb as [Hb|[Hb|[Hb|(j & cs & Hj & Hm & Ha)]]]; [rewrite is_order_seq in Hb; discriminate|contradiction|now elim Hb|].
  destruct (Hin_peer i cf j cs Hcf Hj) as [Hne Hlt]. destruct (nth_ex cfs j Hlt) as (cfj & Hcfj).
  destruct (nth_ex (hs_nodes st) j) as (ndj & Hndj); [rewrite (hi_len _ _ Hi); exact Hlt|].
  pose proof (hi_link _ _ Hi j i cfj ndj nd cs Hcfj Hndj Hnd (proj2 (Hmatch j i cfj cf cs Hcfj Hcf) Hj)) as R.
  destruct (Ha _ R) as [Hl|Hl].
  - pose proof (sent_ge upd nb edge nanos Hnanos I steerers ser T0 w Hw Hser cfs Hcfs Hmatch Hout_peer Hin_peer (ms j) ndj i). destruct (done_dec ndj) as [Hd|Hd].
    + exfalso. pose proof (done_round upd nb edge nanos Hnanos I steerers ser T0 w N Hw Hser cfs Hcfs Hmatch Hout_peer Hin_peer _ _ _ (hi_node _ _ Hi j cfj ndj Hcfj Hndj) Hd) as Hr.
      unfold StepperFacts.sent in Hl. rewrite (proj1 Hd) in Hl. nia.
    + apply (IH j ndj); auto. lia.
  - exists (HArrive j i 0). cbn [HpxSimModel.hsim_step]. destruct R as (snt & Ea & R & Hv').
    pose proof (arrive_rel cs (T0 + w) w None Hw snt _ _ 0 R) as HA. destruct (hlink_arrive (hs_links st j i) 0) as [l| |]; [eauto| |contradiction].
    destruct (hl_net (hs_links st j i)); [now elim Hl|cbn in HA; lia].
Qed.

(** ** The initial state *)

Context (dflt : C) (start : nat) (ini : nat -> grid C).
Hypothesis HT0 : T0 = (start * nanos)%nat.
Hypothesis Hini : forall i cf, nth_error cfs i = Some cf -> igood steerers ser T0 (ini i) (fun c => inner cf w c \/ rim cf w c \/ halo cf c).

Lemma hsim_init_ok : exists st, hsim_init nanos steerers cfs dflt start N ini = Ok st /\ hsim_inv (fun _ => O) st.
Proof.
  destruct (init_nodes_ok upd nb edge nanos Hnanos I steerers ser T0 w N Hw Hst Hser cfs Hcfs Hmatch Hout_peer Hin_peer dflt start ini HT0 Hini cfs 0) as (nodes & E & Elen & Hk).
  { intros k cf H. split; [eauto|]. now apply Hini. }
  unfold hsim_init. rewrite E. eexists. split; [reflexivity|]. split; cbn [hs_nodes hs_links].
  - exact Elen.
  - intros i cf nd H1 H2. now apply (Hk i).
  - intros i j cf ndi ndj cs Hcf Hndi Hndj Hj. rewrite Hcf, (co_w _ _ _ _ cf (Hcfs i cf Hcf)).
    assert (E0 : global_step nanos start 0 = T0) by (unfold global_step; lia). rewrite E0.
    destruct (Hk i cf ndi Hcf Hndi) as (_ & gh & Hpc & Hgt).
    assert (Es : sent 0 ndi j = O) by (unfold StepperFacts.sent; now rewrite Hpc).
    assert (Er : recvd 0 ndj i = O) by (unfold recvd; destruct (n_pc ndj); auto; destruct (_ && _); auto).
    rewrite Es, Er. exists []. split; [reflexivity|]. split; [apply charge_hrel; exact Hw|]. intros [|k] x Hx; discriminate.
  - intros i j H. now elim H.
Qed.

End Facts.
