(** Facts about the CUDAStepper on a single node. *)
From Verif Require Import Base RegionModel HaloSpec PartitionSpec PartitionManagerModel PartitionManagerSpec PartitionManagerFacts PartitionManagerProps HaloFacts PatchModel PatchFacts AdapterModel
  CudaGridModel StepperModel StepperSpec StepperFacts ConfigFacts CudaStepperModel CudaStepperSpec.

Lemma copy_region_spec {C} cs (src : grid C) : forall dst,
  (forall c, In c cs -> copy_region cs src dst c = src c) /\ (forall c, ~ In c cs -> copy_region cs src dst c = dst c).
Proof.
  unfold copy_region. induction cs as [|c0 cs IH]; intros dst; cbn [fold_left]; [split; [intros c []|auto]|].
  destruct (IH (gset dst c0 (src c0))) as [H1 H2]. split.
  - intros c Hc. destruct (in_dec (list_eq_dec Z.eq_dec) c cs) as [Hi|Hi]; [now apply H1|]. rewrite H2 by auto.
    destruct Hc as [->|Hc]; [|contradiction]. unfold gset. now destruct (coord_eqb_spec c c).
  - intros c Hc. rewrite H2 by (intros H; apply Hc; now right). unfold gset. destruct (coord_eqb_spec c0 c) as [->|]; auto.
    exfalso. apply Hc. now left.
Qed.

(** The regions of a node which is on its own. *)
Record alone (I : coord -> Prop) (w : nat) (cf : node_cfg) : Prop := {
  al_w : cf_w cf = w;
  al_rim : forall t, (t <= w)%nat -> rim_at cf t = [];
  al_inner : forall t, (t <= w)%nat -> NoDup (inner_at cf t) /\ forall c, In c (inner_at cf t) <-> I c;
  al_in : cf_in cf = [];
  al_out : cf_out cf = [];
  al_vol : cf_vol cf = [];
  al_own : NoDup (cf_own cf) /\ forall c, In c (cf_own cf) <-> I c;
  al_outer : cf_outer cf = []
}.

Lemma no_elements {A} (l : list A) : (forall x, ~ In x l) -> l = [].
Proof. destruct l as [|x l]; [reflexivity|]. intros H. exfalso. apply (H x). now left. Qed.

Lemma single_alone d sp I E w part cf : setting d sp I E w -> exact_cover d 1 part I -> config_spec d I E w 1 part 0 cf -> alone I w cf.
Proof.
  intros Hset Hcover S. pose proof (setting_laws d sp I E w Hset) as L.
  assert (Hown : forall c, cells d part 0 c <-> I c).
  { intros c. destruct Hcover as (_ & _ & H). rewrite H. split; [intros; exists O; auto|]. intros (k & Hk & Hc). now replace k with O in Hc by lia. }
  assert (Hrim : forall c, ~ is_rim d I E w part 0 c).
  { intros c (_ & c0 & (H1 & H2 & _) & _). apply H2. now apply Hown. }
  assert (Hker : forall c, is_kernel d I E w part 0 c <-> I c).
  { intros c. split.
    - intros [H _]. now apply Hown.
    - intros H. split; [now apply Hown|]. intros (c0 & (H1 & H2 & _) & _). apply H2. now apply Hown. }
  assert (Hgrown : forall k (P : coord -> Prop) c, (forall c, P c <-> I c) -> (grown E k P c <-> I c)).
  { intros k P c HP. split.
    - intros (c0 & H0 & Hw). apply HP in H0. clear HP. revert c0 H0 Hw. induction k as [|k IHk]; cbn [walk]; [intros c0 H0 <-; exact H0|].
      intros c0 H0 (c1 & H1 & H2). eapply IHk; [|exact H2]. eapply sl_closed; eauto.
    - intros H. exists c. split; [now apply HP|]. eapply (walk_more d sp I E w L 0); [exact H|lia|reflexivity]. }
  split.
  - apply (cs_w _ _ _ _ _ _ _ _ S).
  - intros t Ht. apply no_elements. intros c Hc. apply (cs_rim _ _ _ _ _ _ _ _ S t c Ht) in Hc. destruct Hc as (c0 & H0 & _). exact (Hrim c0 H0).
  - intros t Ht. split; [apply (cs_nodup _ _ _ _ _ _ _ _ S t Ht)|]. intros c. fold (inner cf t c). rewrite (cs_inner _ _ _ _ _ _ _ _ S t c Ht). apply Hgrown, Hker.
  - apply no_elements. intros [j cs] H. apply (cs_in_lt _ _ _ _ _ _ _ _ S) in H. lia.
  - apply no_elements. intros [j cs] H. apply (cs_out_lt _ _ _ _ _ _ _ _ S) in H. lia.
  - apply no_elements. intros c H. apply (cs_vol _ _ _ _ _ _ _ _ S) in H. destruct H as [_ (c0 & H0 & _)]. exact (Hrim c0 H0).
  - destruct (cs_own_list _ _ _ _ _ _ _ _ S) as [H1 H2]. split; [exact H1|]. intros c. now rewrite H2.
  - apply no_elements. intros c H. apply (cs_outer_list _ _ _ _ _ _ _ _ S) in H. destruct H as [H1 H2]. apply H2. apply Hown. apply Hgrown in H1; auto.
Qed.

(** ** Steering *)

Lemma call_steerers_idle {C} (ss : list (adapter * @action C)) : forall stos cs t g, length stos = length ss -> existsb (fun s => due_at s t) stos = false ->
  call_steerers ss stos cs t g = Ok (stos, g).
Proof.
  induction ss as [|[a f] ss IH]; intros [|s stos] cs t g Hl H; try discriminate; cbn [call_steerers existsb] in *; [reflexivity|].
  apply orb_false_iff in H. destruct H as [H1 H2]. unfold notify. rewrite H1. cbn [fold_left]. rewrite IH by (auto; cbn in Hl; lia). reflexivity.
Qed.

Section Device.
Context {C : Type} (upd : nat -> coord -> list C -> C) (nb : coord -> list (option coord)) (edge : C) (nanos : nat).
Context (I : coord -> Prop) (steerers : list (adapter * @action C)) (due : nat -> bool) (ser : nat -> grid C) (T0 w N : nat) (cf : node_cfg).
Hypothesis Hnanos : (1 <= nanos)%nat.
Hypothesis Hw : (1 <= w)%nat.
Hypothesis Hst : Forall (adapter_ok nanos T0) steerers.
Hypothesis Hser : forall k c, I c -> ser (S k) c = new_cell upd nb edge (Nat.modulo (T0 + k) nanos) (st steerers ser T0 k) c.
Hypothesis Hnb : forall c c', I c -> In (Some c') (nb c) -> I c'.
Hypothesis Hcf : alone I w cf.
Hypothesis Hsize : forall t, (t <= w)%nat -> (length (inner_at cf t) <= Z.to_nat kernel_grid)%nat.

Notation stos k := (stos_at steerers T0 k).
Notation clk := (clock nanos T0).

Definition ghost_ok (nd : cnode C) (gh : ghost) (u : nat) : Prop :=
  let k := (N - u_left nd)%nat in
  (gh_t gh < w)%nat /\ gh_init gh = Nat.eqb k 0 /\ gh_gl gh = (T0 + k + u)%nat /\ clk (gh_step gh) (gh_nano gh) k /\ clk (u_step nd) (u_nano nd) (k + u) /\
  u_sg nd = stos (pred (k + u)) /\ u_si nd = stos (pred k) /\ Nat.modulo k w = O /\ forall c, I c -> u_dold nd c = ser k c.

Definition dinv (nd : cnode C) : Prop :=
  let k := (N - u_left nd)%nat in
  (u_left nd <= N)%nat /\ device_log ser T0 I due k (u_log nd) /\
  match u_pc nd with
  | PStep => clk (u_step nd) (u_nano nd) k /\ u_valid nd = (w - Nat.modulo k w)%nat /\ u_sg nd = stos (pred (S (Nat.div k w) * w)) /\ u_si nd = stos k /\
      forall c, I c -> u_dold nd c = st steerers ser T0 k c
  | PRecv gh rem => rem = [] /\ ghost_ok nd gh (gh_t gh)
  | PSend gh rem => rem = [] /\ ghost_ok nd gh (S (gh_t gh))
  end.

Lemma log_rim k log t g : device_log ser T0 I due k log -> device_log ser T0 I due k (log ++ [mkLog t true [] g]).
Proof.
  intros [H1 H2 H3 H4]. split.
  - rewrite filter_app, map_app, H1. cbn. now rewrite app_nil_r.
  - intros e He Hr. apply in_app_or in He. destruct He as [He|[<-|[]]]; [now apply H2|discriminate].
  - intros e He Hr. apply in_app_or in He. destruct He as [He|[<-|[]]]; [now apply H3|reflexivity].
  - intros e c He Hc. apply in_app_or in He. destruct He as [He|[<-|[]]]; [now apply H4|destruct Hc].
Qed.

(** Steering on the device *)
Lemma steer_device_ok nd k cs : u_si nd = stos (pred k) -> clk (u_step nd) (u_nano nd) k -> NoDup cs -> (forall c, In c cs <-> I c) ->
  (forall c, I c -> u_dold nd c = ser k c) ->
  exists nd', steer_device nanos steerers cs nd = Ok nd' /\ u_si nd' = stos k /\ (forall c, I c -> u_dold nd' c = st steerers ser T0 k c) /\
    u_step nd' = u_step nd /\ u_nano nd' = u_nano nd /\ u_valid nd' = u_valid nd /\ u_sg nd' = u_sg nd /\ u_log nd' = u_log nd /\ u_left nd' = u_left nd /\ u_pc nd' = u_pc nd.
Proof.
  intros Hsi [Hclk _] Hnd Hcs Hd. unfold steer_device. rewrite Hclk, Hsi.
  destruct (existsb (fun s => due_at s (T0 + k)) (stos (pred k))) eqn:Ed.
  - destruct (call_next upd nb edge nanos Hnanos I steerers ser T0 w N Hw Hst Hser k cs (copy_region cs (u_dold nd) (u_old nd)) Hnd) as (g' & Ec & H1 & _).
    rewrite Ec. eexists. split; [reflexivity|]. cbn. split; [reflexivity|]. split; [|tauto].
    intros c Hc. rewrite (proj1 (copy_region_spec cs g' (u_dold nd))) by (now apply Hcs). rewrite H1 by (now apply Hcs).
    rewrite (proj1 (copy_region_spec cs (u_dold nd) (u_old nd))) by (now apply Hcs). rewrite Hd by auto. reflexivity.
  - destruct (call_next upd nb edge nanos Hnanos I steerers ser T0 w N Hw Hst Hser k cs (u_dold nd) Hnd) as (g' & Ec & H1 & _).
    rewrite call_steerers_idle in Ec by (auto; unfold stos_at; now rewrite map_length).
    assert (Es : stos (pred k) = stos k) by congruence. assert (Eg : u_dold nd = g') by congruence.
    exists nd. split; [reflexivity|]. split; [congruence|]. split; [|tauto].
    intros c Hc. rewrite Eg, H1 by (now apply Hcs). rewrite Hd by auto. reflexivity.
Qed.

Lemma cupdate1_ok nd : dinv nd -> u_pc nd = PStep -> u_left nd <> O ->
  exists nd', cupdate1 upd nb edge nanos steerers due cf nd = Ok nd' /\ dinv nd' /\ u_left nd' = (u_left nd - 1)%nat /\
    match u_pc nd' with PStep => True | PRecv gh _ => gh_t gh = O | PSend _ _ => False end.
Proof.
  intros Inv Hpc Hleft. unfold dinv in Inv. rewrite Hpc in Inv. destruct Inv as (HN & Hlog & Hclk & Hval & Hsg & Hsi & Hd).
  set (k := (N - u_left nd)%nat) in *. unfold cupdate1. rewrite (al_w _ _ _ Hcf).
  assert (Hm : (Nat.modulo k w < w)%nat) by (apply Nat.mod_upper_bound; lia). set (r := Nat.modulo k w) in *.
  set (v := (u_valid nd - 1)%nat). assert (Ev : (w - v)%nat = S r) by (unfold v; lia).
  rewrite Ev. set (cs := inner_at cf (S r)).
  destruct (al_inner _ _ _ Hcf (S r) ltac:(lia)) as [Hnd Hcs]. fold cs in Hnd, Hcs.
  assert (Hk : forall c, I c -> kernel upd nb edge (u_nano nd) cs (u_dold nd) (u_dnew nd) c = ser (S k) c).
  { intros c Hc. unfold kernel. rewrite firstn_all2 by (apply Hsize; lia).
    rewrite (proj1 (update_region_spec upd nb edge (u_nano nd) cs (u_dold nd) (u_dnew nd))) by (now apply Hcs).
    rewrite Hser by auto. destruct Hclk as [Hg Hn]. rewrite <- Hg, (nano_of upd nanos Hnanos (u_step nd) (u_nano nd) Hn). apply new_cell_ext. intros c' Hc'. apply Hd. eauto. }
  set (dnew := kernel upd nb edge (u_nano nd) cs (u_dold nd) (u_dnew nd)) in *.
  pose proof (clock_tick upd nb edge nanos Hnanos I steerers ser T0 w Hw Hser (u_step nd) (u_nano nd) k Hclk) as Ht. destruct (tick nanos (u_step nd) (u_nano nd)) as [s' n'].
  unfold accept_inner.
  assert (Hlog' : forall old log', (if due (T0 + S k) then log' = u_log nd ++ [mkLog (T0 + S k)%nat false cs old] /\ (forall c, I c -> old c = ser (S k) c) else log' = u_log nd) ->
    device_log ser T0 I due (S k) log').
  { intros old log' H. destruct Hlog as [L1 L2 L3 L4].
    assert (Eseq : filter due (seq T0 (S (S k))) = filter due (seq T0 (S k)) ++ (if due (T0 + S k) then [(T0 + S k)%nat] else [])).
    { rewrite seq_S, filter_app. cbn [filter]. reflexivity. }
    destruct (due (T0 + S k)) eqn:Ed.
    - destruct H as [-> Ho]. split.
      + rewrite filter_app, map_app, L1, Eseq. reflexivity.
      + intros e He Hr. apply in_app_or in He. destruct He as [He|[<-|[]]]; [now apply L2|split; [exact Hnd|exact Hcs]].
      + intros e He Hr. apply in_app_or in He. destruct He as [He|[<-|[]]]; [now apply L3|discriminate].
      + intros e c He Hc. apply in_app_or in He. destruct He as [He|[<-|[]]]; [now apply L4|]. cbn [lg_region lg_grid lg_time] in *.
        rewrite Ho by (now apply Hcs). f_equal. lia.
    - subst log'. split; auto. now rewrite Eseq, app_nil_r. }
  destruct Ht as [Hg' Hn']. rewrite Hg'.
  assert (Hdec : (N - (u_left nd - 1))%nat = S k) by lia.
  assert (Hmod : if Nat.eqb v 0 then Nat.modulo (S k) w = O /\ Nat.div (S k) w = S (Nat.div k w) else Nat.modulo (S k) w = S r /\ Nat.div (S k) w = Nat.div k w).
  { assert (Ek : k = (w * Nat.div k w + r)%nat) by (apply Nat.div_mod; lia). set (q := Nat.div k w) in *. clearbody q. unfold v in *.
    destruct (Nat.eqb_spec (u_valid nd - 1) 0).
    - assert (E2 : S k = (S q * w)%nat) by nia. rewrite E2. rewrite Nat.mod_mul, Nat.div_mul by lia. auto.
    - assert (E2 : S k = (S r + q * w)%nat) by nia. rewrite E2, Nat.mod_add, Nat.div_add, Nat.mod_small, Nat.div_small by lia. auto. }
  match goal with |- context [let '(_, _) := ?X in _] => remember X as p eqn:Ep end.
  assert (Hp : device_log ser T0 I due (S k) (snd p)).
  { apply (Hlog' (fst p)). subst p. destruct (due (T0 + S k)); cbn [fst snd]; [|reflexivity]. split; [reflexivity|].
    intros c Hc. rewrite (proj1 (copy_region_spec cs dnew (u_new nd))) by (now apply Hcs). now apply Hk. }
  destruct p as [old log]. cbn [snd] in Hp. clear Ep.
  destruct (Nat.eqb_spec v 0) as [Ev0|Ev0].
  - eexists. split; [reflexivity|]. unfold dinv, cstart_ghost. cbn [u_step u_nano u_valid u_old u_new u_dold u_dnew u_sg u_si u_log u_left u_pc gh_t].
    rewrite Hdec. split; [|split; [reflexivity|reflexivity]]. split; [lia|]. split; [exact Hp|]. split; [apply (al_in _ _ _ Hcf)|].
    unfold ghost_ok. cbn [u_step u_nano u_valid u_old u_new u_dold u_dnew u_sg u_si u_log u_left u_pc gh_t gh_init gh_gl gh_step gh_nano]. rewrite Hdec, !Nat.add_0_r.
    split; [lia|]. split; [reflexivity|]. split; [rewrite Hg'; lia|]. split; [split; auto|]. split; [split; auto|].
    split; [|split; [|split; [apply Hmod|exact Hk]]].
    + rewrite Hsg. do 2 f_equal. assert (Ek : k = (w * Nat.div k w + r)%nat) by (apply Nat.div_mod; lia). set (q := Nat.div k w) in *. unfold v in *. nia.
    + rewrite Hsi. f_equal.
  - match goal with |- context [steer_device _ _ _ ?X] => set (nd1 := X) end.
    destruct (steer_device_ok nd1 (S k) cs) as (nd' & Es & H1 & H2 & H3 & H4 & H5 & H6 & H7 & H8 & H9); [exact Hsi|split; auto|exact Hnd|exact Hcs|exact Hk|].
    exists nd'. split; [exact Es|]. unfold dinv. rewrite H8, H9. cbn [u_left u_pc nd1]. rewrite Hdec. split; [|split; [reflexivity|exact Logic.I]].
    split; [lia|]. split; [rewrite H7; exact Hp|]. rewrite H3, H4, H5, H6. cbn [u_step u_nano u_valid u_sg nd1]. destruct Hmod as [M1 M2]. rewrite M1, M2.
    split; [split; auto|]. split; [lia|]. split; [exact Hsg|]. split; [exact H1|exact H2].
Qed.

Lemma cupdate_rim_ok nd gh : dinv nd -> u_pc nd = PRecv gh [] ->
  exists nd', cupdate_rim upd nb edge nanos steerers cf nd gh = Ok nd' /\ dinv nd' /\ u_left nd' = u_left nd /\
    exists gh', u_pc nd' = PSend gh' [] /\ gh_t gh' = gh_t gh.
Proof.
  intros Inv Hpc. unfold dinv in Inv. rewrite Hpc in Inv. destruct Inv as (HN & Hlog & _ & Hgh).
  unfold ghost_ok in Hgh. set (k := (N - u_left nd)%nat) in *. destruct Hgh as (Ht & Hi & Hgl & Hg0 & Hclk & Hsg & Hsi & Hm & Hd).
  unfold cupdate_rim. rewrite (al_rim _ _ _ Hcf (gh_t gh)), (al_rim _ _ _ Hcf (gh_t gh + 1)), (al_w _ _ _ Hcf), (al_rim _ _ _ Hcf w) by lia.
  destruct (call_next upd nb edge nanos Hnanos I steerers ser T0 w N Hw Hst Hser (k + gh_t gh) [] (u_old nd) (NoDup_nil _)) as (g' & Ec & _).
  rewrite (proj1 Hclk), Hsg, Ec. pose proof (clock_tick upd nb edge nanos Hnanos I steerers ser T0 w Hw Hser (u_step nd) (u_nano nd) (k + gh_t gh) Hclk) as Htk. destruct (tick nanos (u_step nd) (u_nano nd)) as [s' n'].
  eexists. split; [reflexivity|]. unfold dinv. cbn [u_step u_nano u_valid u_old u_new u_dold u_dnew u_sg u_si u_log u_left u_pc gh_t]. fold k.
  split; [|split; [reflexivity|]]; [|rewrite (al_out _ _ _ Hcf); eexists; split; reflexivity].
  split; [exact HN|]. split; [now apply log_rim|]. split; [apply (al_out _ _ _ Hcf)|].
  unfold ghost_ok. cbn [u_step u_nano u_valid u_old u_new u_dold u_dnew u_sg u_si u_log u_left u_pc gh_t gh_init gh_gl gh_step gh_nano]. fold k.
  split; [exact Ht|]. split; [exact Hi|]. split; [lia|]. split; [exact Hg0|]. rewrite Nat.add_succ_r. split; [exact Htk|]. split; [reflexivity|]. auto.
Qed.

Lemma cfinish_ok nd gh : dinv nd -> u_pc nd = PSend gh [] -> S (gh_t gh) = w ->
  exists nd', cfinish_ghost nanos steerers cf nd gh = Ok nd' /\ dinv nd' /\ u_left nd' = u_left nd /\ u_pc nd' = PStep.
Proof.
  intros Inv Hpc Htw. unfold dinv in Inv. rewrite Hpc in Inv. destruct Inv as (HN & Hlog & _ & Hgh).
  unfold ghost_ok in Hgh. set (k := (N - u_left nd)%nat) in *. destruct Hgh as (Ht & Hi & Hgl & Hg0 & Hclk & Hsg & Hsi & Hm & Hd).
  unfold cfinish_ghost. rewrite (al_w _ _ _ Hcf), (al_vol _ _ _ Hcf). cbn [copy_region fold_left].
  match goal with |- context [let '(_, _) := ?X in _] => destruct X as [old new] end.
  match goal with |- context [steer_device _ _ _ ?X] => set (nd1 := X) end.
  assert (Ediv : (k = w * Nat.div k w)%nat) by (rewrite (Nat.div_mod k w) at 1 by lia; lia).
  assert (Esg : u_sg nd = stos (pred (S (Nat.div k w) * w))).
  { rewrite Hsg. do 2 f_equal. rewrite Htw. set (q := Nat.div k w) in *. clearbody q. nia. }
  destruct (gh_init gh) eqn:Ei.
  - exists nd1. split; [reflexivity|]. unfold dinv. cbn [u_step u_nano u_valid u_old u_new u_dold u_dnew u_sg u_si u_log u_left u_pc nd1]. fold k.
    split; [|auto]. split; [exact HN|]. split; [exact Hlog|]. split; [exact Hg0|]. split; [lia|]. split; [exact Esg|].
    symmetry in Hi. apply Nat.eqb_eq in Hi. rewrite Hi in *. split; [exact Hsi|]. exact Hd.
  - destruct (al_inner _ _ _ Hcf w ltac:(lia)) as [Hnd Hcs].
    destruct (steer_device_ok nd1 k (inner_at cf w)) as (nd' & Es & H1 & H2 & H3 & H4 & H5 & H6 & H7 & H8 & H9); [exact Hsi|exact Hg0|exact Hnd|exact Hcs|exact Hd|].
    exists nd'. split; [exact Es|]. unfold dinv. rewrite H8, H9. cbn [u_left u_pc nd1]. fold k. split; [|auto].
    split; [exact HN|]. split; [rewrite H7; exact Hlog|]. rewrite H3, H4, H5, H6. cbn [u_step u_nano u_valid u_sg nd1]. split; [exact Hg0|]. split; [lia|]. auto.
Qed.

Definition dmu (nd : cnode C) : nat :=
  (u_left nd * (2 * w + 2) + match u_pc nd with PStep => 0 | PRecv gh _ => 2 * (w - gh_t gh) | PSend gh _ => 2 * (w - gh_t gh) - 1 end)%nat.

Lemma cnode_step_ok nd eager ls : dinv nd ->
  (u_pc nd = PStep /\ u_left nd = O /\ cnode_step upd nb edge nanos steerers due cf 0 eager ls nd = Wait) \/
  exists nd', cnode_step upd nb edge nanos steerers due cf 0 eager ls nd = Ok (nd', ls) /\ dinv nd' /\ (dmu nd' < dmu nd)%nat.
Proof.
  intros Inv. unfold cnode_step. destruct (u_pc nd) as [|gh rem|gh rem] eqn:Hpc.
  - destruct (Nat.eqb_spec (u_left nd) 0) as [E0|E0]; [left; auto|]. right.
    destruct (cupdate1_ok nd Inv Hpc E0) as (nd' & E1 & Inv' & El & Hp). rewrite E1. exists nd'. split; [reflexivity|]. split; [exact Inv'|].
    unfold dmu. rewrite Hpc, El. destruct (u_pc nd') as [|gh' rem'|gh' rem']; [nia| |destruct Hp]. rewrite Hp. nia.
  - right. pose proof Inv as Inv0. unfold dinv in Inv0. rewrite Hpc in Inv0. destruct Inv0 as (_ & _ & -> & (Ht & _)).
    destruct (cupdate_rim_ok nd gh Inv Hpc) as (nd' & E1 & Inv' & El & gh' & Hp & Hg). rewrite E1. exists nd'. split; [reflexivity|]. split; [exact Inv'|].
    unfold dmu. rewrite Hpc, Hp, El, Hg. nia.
  - right. pose proof Inv as Inv0. unfold dinv in Inv0. rewrite Hpc in Inv0. destruct Inv0 as (HN & Hlog & -> & Hgh). pose proof Hgh as (Ht & _).
    rewrite (al_w _ _ _ Hcf). destruct (Nat.ltb_spec (gh_t gh + 1) w) as [E1|E1].
    + eexists. split; [reflexivity|]. split.
      * unfold dinv, cset_pc. cbn [u_left u_log u_pc]. split; [exact HN|]. split; [exact Hlog|]. split; [apply (al_in _ _ _ Hcf)|].
        unfold ghost_ok in *. cbn [u_step u_nano u_valid u_old u_new u_dold u_dnew u_sg u_si u_log u_left u_pc gh_t gh_init gh_gl gh_step gh_nano].
        rewrite Nat.add_1_r in *. split; [exact E1|]. apply Hgh.
      * unfold dmu, cset_pc. cbn [u_left u_pc gh_t]. rewrite Hpc. nia.
    + destruct (cfinish_ok nd gh Inv Hpc ltac:(lia)) as (nd' & E2 & Inv' & El & Hp). rewrite E2. exists nd'. split; [reflexivity|]. split; [exact Inv'|].
      unfold dmu. rewrite Hpc, Hp, El. nia.
Qed.

Lemma cnode_init_ok dflt start ini : T0 = (start * nanos)%nat -> (forall c, I c -> act_at steerers T0 0 c (ini c) = ser 0%nat c) ->
  exists nd, cnode_init nanos steerers due cf dflt start N ini = Ok nd /\ dinv nd.
Proof.
  intros HT Hini. unfold cnode_init, global_step. rewrite Nat.add_0_r, <- HT, (al_outer _ _ _ Hcf), (al_w _ _ _ Hcf), (al_rim _ _ _ Hcf w) by lia.
  destruct (call_first upd nb edge nanos Hnanos I steerers ser T0 w N Hw Hst Hser [] ini (NoDup_nil _)) as (g1 & Ec & _ & H1). rewrite Ec.
  destruct (al_own _ _ _ Hcf) as [Hnd Hown].
  destruct (call_first upd nb edge nanos Hnanos I steerers ser T0 w N Hw Hst Hser (cf_own cf) g1 Hnd) as (old & Ec2 & H2 & _). rewrite Ec2.
  assert (Hold : forall c, I c -> old c = ser 0%nat c) by (intros c Hc; rewrite H2 by (now apply Hown); rewrite H1 by (intros []); now apply Hini).
  destruct (al_inner _ _ _ Hcf 0 ltac:(lia)) as [Hnd0 Hcs].
  unfold accept_inner. match goal with |- context [let '(_, _) := ?X in _] => remember X as p eqn:Ep end.
  assert (Hp : device_log ser T0 I due 0 (snd p)).
  { subst p. destruct (due T0) eqn:Ed; cbn [snd].
    - split.
      + cbn. now rewrite Ed.
      + intros e [<-|[<-|[]]] Hr; [discriminate|]. split; [exact Hnd0|exact Hcs].
      + intros e [<-|[<-|[]]] Hr; [reflexivity|discriminate].
      + intros e c [<-|[<-|[]]] Hc; cbn [lg_region lg_grid lg_time] in *; [destruct Hc|]. rewrite (proj1 (copy_region_spec _ old old)) by exact Hc.
        rewrite Hold by (now apply Hcs). now rewrite Nat.sub_diag.
    - split.
      + cbn. now rewrite Ed.
      + intros e [<-|[]] Hr; discriminate.
      + intros e [<-|[]] Hr; reflexivity.
      + intros e c [<-|[]] []. }
  destruct p as [old' log]. cbn [snd] in Hp. eexists. split; [reflexivity|]. unfold dinv, cstart_ghost.
  cbn [u_step u_nano u_valid u_old u_new u_dold u_dnew u_sg u_si u_log u_left u_pc gh_t]. rewrite Nat.sub_diag. split; [lia|]. split; [exact Hp|]. split; [apply (al_in _ _ _ Hcf)|].
  unfold ghost_ok. cbn [u_step u_nano u_valid u_old u_new u_dold u_dnew u_sg u_si u_log u_left u_pc gh_t gh_init gh_gl gh_step gh_nano]. rewrite Nat.sub_diag.
  assert (Hc0 : clk start 0 0) by (unfold clock, global_step; lia).
  split; [lia|]. split; [reflexivity|]. split; [unfold global_step; lia|]. split; [exact Hc0|]. split; [exact Hc0|]. split; [reflexivity|]. split; [reflexivity|].
  split; [apply Nat.mod_0_l; lia|exact Hold].
Qed.

(** Runs *)
Lemma csim_run_ok es : forall s nd, cs_nodes s = [nd] -> dinv nd ->
  match csim_run upd nb edge nanos steerers due [cf] s es with
  | Ok s' => exists nd', cs_nodes s' = [nd'] /\ dinv nd'
  | Wait => True
  | Fail => False
  end.
Proof.
  induction es as [|e es IH]; intros s nd Hs Inv; cbn [csim_run]; [eauto|]. unfold csim_step. destruct e as [[|i] eager|i j].
  - cbn [nth_error]. rewrite Hs. cbn [nth_error]. destruct (cnode_step_ok nd eager (cs_links s) Inv) as [(_ & _ & ->)|(nd' & -> & Inv' & _)]; [exact Logic.I|].
    eapply IH; [reflexivity|exact Inv'].
  - cbn [nth_error]. destruct i; exact Logic.I.
  - destruct (link_deliver (cs_links s i j)); [|exact Logic.I]. eapply IH; [exact Hs|exact Inv].
Qed.

Lemma csim_finish n : forall s nd, (dmu nd < n)%nat -> cs_nodes s = [nd] -> dinv nd ->
  exists es s', csim_run upd nb edge nanos steerers due [cf] s es = Ok s' /\ cfinished s'.
Proof.
  induction n as [|n IH]; intros s nd Hmu Hs Inv; [lia|].
  destruct (cnode_step_ok nd false (cs_links s) Inv) as [(Hp & Hl & _)|(nd' & E & Inv' & Hlt)].
  - exists [], s. split; [reflexivity|]. intros [|i] nd1; rewrite Hs; cbn [nth_error]; [intros E; injection E as <-; auto|destruct i; discriminate].
  - destruct (IH (mkCSim [nd'] (cs_links s)) nd') as (es & s' & Er & Hf); [lia|reflexivity|exact Inv'|].
    exists (EvNode 0 false :: es), s'. split; [|exact Hf]. cbn [csim_run csim_step nth_error]. rewrite Hs. cbn [nth_error]. rewrite E. cbn [set_nth]. exact Er.
Qed.
End Device.
