(** Distributed partitioning: the exchange. *)
From Coq Require Import Sorted.
From Verif Require Import Base RegionSpec RegionModel RegionRep RegionIterModel RegionStreaks CoordModel CoordSpec RegionOpsModel RegionOps CoordFacts
  RegionHistory RegionHist RegionReach RegionObjModel PatchModel GridModel GridFacts UpdateModel CollectFacts AdjacencyModel
  ScotchModel DistScotchModel DistScotchSpec.
From Coq Require Import Lia ZifyBool ZifyNat.

Definition is_send (d : nat) (o : xop) : bool := match o with XSend d' _ => (d' =? d)%nat | _ => false end.
Definition is_recv (s : nat) (o : xop) : bool := match o with XRecv s' _ => (s' =? s)%nat | _ => false end.
Definition phase (r : nat) (o : xop) : nat := match o with XSend j _ => j | XRecv _ _ => r end.

(** ** Lists *)

Lemma filter_flat_map {A B} (p : B -> bool) (f : A -> list B) l : filter p (flat_map f l) = flat_map (fun a => filter p (f a)) l.
Proof. induction l as [|a l IH]; [reflexivity|]. cbn [flat_map]. now rewrite filter_app, IH. Qed.

Lemma flat_map_one {B} (f : nat -> list B) d : forall m a, (forall j, j <> d -> f j = []) ->
  flat_map f (seq a m) = if (a <=? d)%nat && (d <? a + m)%nat then f d else [].
Proof.
  induction m as [|m IH]; intros a H; cbn [seq flat_map].
  - destruct ((a <=? d)%nat && (d <? a + 0)%nat) eqn:E; [lia|reflexivity].
  - rewrite (IH (S a) H). destruct (Nat.eq_dec a d) as [->|N].
    + replace ((S d <=? d)%nat) with false by lia. cbn [andb]. rewrite app_nil_r. replace ((d <=? d)%nat && (d <? d + S m)%nat) with true by lia. reflexivity.
    + rewrite (H a N). cbn [app]. replace ((S a <=? d)%nat && (d <? S a + m)%nat) with ((a <=? d)%nat && (d <? a + S m)%nat) by lia. reflexivity.
Qed.

Lemma filter_map_all {A B} (p : B -> bool) (f : A -> B) l : (forall a, p (f a) = true) -> filter p (map f l) = map f l.
Proof. intros H. induction l as [|a l IH]; [reflexivity|]. cbn [map filter]. now rewrite H, IH. Qed.

Lemma filter_map_none {A B} (p : B -> bool) (f : A -> B) l : (forall a, p (f a) = false) -> filter p (map f l) = [].
Proof. intros H. induction l as [|a l IH]; [reflexivity|]. cbn [map filter]. now rewrite H, IH. Qed.

Lemma suffix_seq {B} (f : nat -> B) : forall l1 l2 a m, l1 ++ l2 = map f (seq a m) -> (length l1 + length l2 = m)%nat /\ l2 = map f (seq (a + length l1) (length l2)).
Proof.
  induction l1 as [|x l1 IH]; intros l2 a m H; cbn [app length] in *.
  - rewrite H, map_length, seq_length, Nat.add_0_r. split; reflexivity.
  - destruct m as [|m]; [discriminate|]. cbn [seq map] in H. injection H as _ H. destruct (IH l2 (S a) m H) as (L & E). split; [lia|]. now replace (a + S (length l1))%nat with (S a + length l1)%nat by lia.
Qed.

(** ** The program *)

Lemma flat_map_nil {A B} (f : A -> list B) l : (forall a, In a l -> f a = []) -> flat_map f l = [].
Proof. induction l as [|a l IH]; intros H; [reflexivity|]. cbn [flat_map]. rewrite (H a) by now left. apply IH. intros b Hb. apply H. now right. Qed.

Lemma program_sends n r d : filter (is_send d) (xprogram n r) = if (d <? n)%nat && negb (d =? r)%nat then map (XSend d) (seq 0 n) else [].
Proof.
  unfold xprogram. rewrite filter_flat_map. rewrite (flat_map_one _ d).
  - replace ((0 <=? d)%nat && (d <? 0 + n)%nat) with (d <? n)%nat by lia. destruct (d <? n)%nat eqn:E; [|reflexivity]. cbn [andb].
    destruct (d =? r)%nat eqn:E2; cbn [negb].
    + rewrite filter_flat_map. apply flat_map_nil. intros i _. destruct (i =? d)%nat; [reflexivity|]. apply filter_map_none. reflexivity.
    + apply filter_map_all. intros k. cbn. apply Nat.eqb_refl.
  - intros j Hj. destruct (j =? r)%nat; cbn [negb].
    + rewrite filter_flat_map. apply flat_map_nil. intros i _. destruct (i =? j)%nat; [reflexivity|]. apply filter_map_none. reflexivity.
    + apply filter_map_none. intros k. cbn. now apply Nat.eqb_neq.
Qed.

Lemma program_recvs n r s : (r < n)%nat -> filter (is_recv s) (xprogram n r) = if (s <? n)%nat && negb (s =? r)%nat then map (XRecv s) (seq 0 n) else [].
Proof.
  intros Hr. unfold xprogram. rewrite filter_flat_map. rewrite (flat_map_one _ r).
  - replace ((0 <=? r)%nat && (r <? 0 + n)%nat) with true by lia. rewrite Nat.eqb_refl. cbn [negb]. rewrite filter_flat_map. rewrite (flat_map_one _ s).
    + replace ((0 <=? s)%nat && (s <? 0 + n)%nat) with (s <? n)%nat by lia. destruct (s <? n)%nat; [|reflexivity]. cbn [andb]. destruct (s =? r)%nat; [reflexivity|]. cbn [negb].
      apply filter_map_all. intros k. cbn. apply Nat.eqb_refl.
    + intros i Hi. destruct (i =? r)%nat; [reflexivity|]. apply filter_map_none. intros k. cbn. now apply Nat.eqb_neq.
  - intros j Hj. replace (j =? r)%nat with false by (symmetry; now apply Nat.eqb_neq). cbn [negb]. apply filter_map_none. reflexivity.
Qed.

Lemma sorted_app_r {A} (R : A -> A -> Prop) l1 l2 : StronglySorted R (l1 ++ l2) -> StronglySorted R l2.
Proof. induction l1 as [|x l1 IH]; intros H; [exact H|]. apply IH. now inversion H. Qed.

Lemma sorted_blocks {B} (f : nat -> list B) (ph : B -> nat) : (forall j b, In b (f j) -> ph b = j) ->
  forall m a, StronglySorted le (map ph (flat_map f (seq a m))).
Proof.
  intros H. induction m as [|m IH]; intros a; cbn [seq flat_map]; [constructor|]. rewrite map_app.
  assert (G : forall x, In x (map ph (flat_map f (seq (S a) m))) -> (a <= x)%nat).
  { intros x Hx. apply in_map_iff in Hx. destruct Hx as (b & <- & Hb). apply in_flat_map in Hb. destruct Hb as (j & Hj & Hb). rewrite (H j b Hb). apply in_seq in Hj. lia. }
  assert (E : forall x, In x (map ph (f a)) -> x = a). { intros x Hx. apply in_map_iff in Hx. destruct Hx as (b & <- & Hb). now apply H. }
  specialize (IH (S a)). induction (map ph (f a)) as [|x l IHl]; [exact IH|]. cbn [app]. constructor; [apply IHl; intros y Hy; apply E; now right|].
  rewrite (E x (or_introl eq_refl)). apply Forall_forall. intros y Hy. apply in_app_iff in Hy. destruct Hy as [Hy|Hy]; [rewrite (E y (or_intror Hy)); apply le_n|now apply G].
Qed.

Lemma program_sorted n r : StronglySorted le (map (phase r) (xprogram n r)).
Proof.
  unfold xprogram. apply sorted_blocks. intros j b Hb. destruct (j =? r)%nat eqn:E; cbn [negb] in Hb.
  - apply Nat.eqb_eq in E. subst j. apply in_flat_map in Hb. destruct Hb as (i & _ & Hb). destruct (i =? r)%nat; [contradiction|]. apply in_map_iff in Hb. destruct Hb as (k & <- & _). reflexivity.
  - apply in_map_iff in Hb. destruct Hb as (k & <- & _). reflexivity.
Qed.

Lemma program_ops n r o : (r < n)%nat -> In o (xprogram n r) -> match o with XSend d k => (d < n)%nat /\ d <> r /\ (k < n)%nat | XRecv s k => (s < n)%nat /\ s <> r /\ (k < n)%nat end.
Proof.
  intros Hr H. unfold xprogram in H. apply in_flat_map in H. destruct H as (j & Hj & H). apply in_seq in Hj. destruct (j =? r)%nat eqn:E; cbn [negb] in H.
  - apply in_flat_map in H. destruct H as (i & Hi & H). apply in_seq in Hi. destruct (i =? j)%nat eqn:E2; [contradiction|]. apply in_map_iff in H. destruct H as (k & <- & Hk). apply in_seq in Hk. lia.
  - apply in_map_iff in H. destruct H as (k & <- & Hk). apply in_seq in Hk. lia.
Qed.

Lemma In_count {A} (p : A -> bool) l : (0 < length (filter p l))%nat -> exists a, In a l /\ p a = true.
Proof. destruct (filter p l) as [|a f] eqn:E; cbn; [lia|]. intros _. exists a. apply filter_In. rewrite E. now left. Qed.

(** ** The invariant *)

Section Exchange.
Context (n : nat) (partials : nat -> list indices).
Hypothesis Hfrag : fragments n partials.

Definition msg (s k : nat) : list streak := match xmessage partials s k with Some m => m | None => [] end.
Definition sends (st : xstate) (s d : nat) : nat := length (filter (is_send d) (x_todo st s)).
Definition recvs (st : xstate) (d s : nat) : nat := length (filter (is_recv s) (x_todo st d)).

Record inv (st : xstate) : Prop := {
  inv_suffix : forall r, (r < n)%nat -> exists pre, pre ++ x_todo st r = xprogram n r;
  inv_none : forall r, (n <= r)%nat -> x_todo st r = [];
  inv_le : forall s d, (sends st s d <= recvs st d s)%nat;
  inv_chan : forall s d, x_chan st s d = map (msg s) (seq (n - recvs st d s) (recvs st d s - sends st s d));
  inv_len : forall r, (r < n)%nat -> length (x_regs st r) = n;
  inv_regs : forall r k g, (r < n)%nat -> nth_error (x_regs st r) k = Some g ->
    reachable 0 g /\ forall c, length c = 1%nat -> (rin g c <-> exists i f, (i < n)%nat /\ (i = r \/ (k < n - recvs st r i)%nat) /\ nth_error (partials i) k = Some f /\ rin f c)
}.

Lemma head_send st r d k todo : inv st -> x_todo st r = XSend d k :: todo ->
  (r < n)%nat /\ (d < n)%nat /\ d <> r /\ (k < n)%nat /\ (sends st r d + k = n)%nat.
Proof.
  intros I E. destruct (lt_dec r n) as [Hr|Hr]; [|rewrite (inv_none st I r) in E by lia; discriminate].
  destruct (inv_suffix st I r Hr) as (pre & P). assert (Hin : In (XSend d k) (xprogram n r)) by (rewrite <- P, E; apply in_app_iff; right; now left).
  pose proof (program_ops n r _ Hr Hin) as (H1 & H2 & H3). repeat split; try assumption.
  assert (F : filter (is_send d) pre ++ filter (is_send d) (x_todo st r) = map (XSend d) (seq 0 n)).
  { rewrite <- filter_app, P, program_sends. replace ((d <? n)%nat && negb (d =? r)%nat) with true by lia. reflexivity. }
  destruct (suffix_seq _ _ _ _ _ F) as (L & G). unfold sends. revert G L. rewrite E. cbn [filter is_send]. rewrite Nat.eqb_refl. cbn [length]. intros G L. cbn [seq map] in G. injection G as G _. lia.
Qed.

Lemma head_recv st r s k todo : inv st -> x_todo st r = XRecv s k :: todo ->
  (r < n)%nat /\ (s < n)%nat /\ s <> r /\ (k < n)%nat /\ (recvs st r s + k = n)%nat.
Proof.
  intros I E. destruct (lt_dec r n) as [Hr|Hr]; [|rewrite (inv_none st I r) in E by lia; discriminate].
  destruct (inv_suffix st I r Hr) as (pre & P). assert (Hin : In (XRecv s k) (xprogram n r)) by (rewrite <- P, E; apply in_app_iff; right; now left).
  pose proof (program_ops n r _ Hr Hin) as (H1 & H2 & H3). repeat split; try assumption.
  assert (F : filter (is_recv s) pre ++ filter (is_recv s) (x_todo st r) = map (XRecv s) (seq 0 n)).
  { rewrite <- filter_app, P, program_recvs by exact Hr. replace ((s <? n)%nat && negb (s =? r)%nat) with true by lia. reflexivity. }
  destruct (suffix_seq _ _ _ _ _ F) as (L & G). unfold recvs. revert G L. rewrite E. cbn [filter is_recv]. rewrite Nat.eqb_refl. cbn [length]. intros G L. cbn [seq map] in G. injection G as G _. lia.
Qed.

Lemma fragment i k : (i < n)%nat -> (k < n)%nat -> exists f, nth_error (partials i) k = Some f /\ reachable 0 f /\ xmessage partials i k = Some (msg i k) /\ rg_idx (rg_insert_all (rg_new 1) (msg i k)) = f.
Proof.
  intros Hi Hk. destruct (Hfrag i Hi) as (L & F). destruct (nth_error (partials i) k) as [f|] eqn:E; [|apply nth_error_None in E; lia].
  rewrite Forall_forall in F. pose proof (F f (nth_error_In _ _ E)) as R. destruct (region_roundtrip 0 f (reachable_valid 0 f R)) as (ss & S1 & S2).
  exists f. split; [reflexivity|]. split; [exact R|]. unfold msg, xmessage. rewrite E. cbn [obind]. rewrite S1. split; [reflexivity|exact S2].
Qed.

Lemma init_inv : inv (xinit n partials).
Proof.
  assert (S0 : forall s d, sends (xinit n partials) s d = if (s <? n)%nat && ((d <? n)%nat && negb (d =? s)%nat) then n else O).
  { intros s d. unfold sends, xinit. cbn [x_todo]. destruct (s <? n)%nat; [|reflexivity]. rewrite program_sends. cbn [andb]. destruct ((d <? n)%nat && negb (d =? s)%nat); [|reflexivity]. now rewrite map_length, seq_length. }
  assert (R0 : forall d s, recvs (xinit n partials) d s = if (d <? n)%nat && ((s <? n)%nat && negb (s =? d)%nat) then n else O).
  { intros d s. unfold recvs, xinit. cbn [x_todo]. destruct (d <? n)%nat eqn:E; [|reflexivity]. rewrite program_recvs by lia. cbn [andb]. destruct ((s <? n)%nat && negb (s =? d)%nat); [|reflexivity]. now rewrite map_length, seq_length. }
  constructor.
  - intros r Hr. exists []. cbn [app xinit x_todo]. now replace (r <? n)%nat with true by lia.
  - intros r Hr. cbn [xinit x_todo]. now replace (r <? n)%nat with false by lia.
  - intros s d. rewrite S0, R0. destruct (s <? n)%nat eqn:A; destruct (d <? n)%nat eqn:B; cbn [andb]; try lia. rewrite (Nat.eqb_sym s d). lia.
  - intros s d. rewrite S0, R0. cbn [xinit x_chan]. rewrite (Nat.eqb_sym s d). destruct (s <? n)%nat; destruct (d <? n)%nat; cbn [andb]; try (now rewrite Nat.sub_0_l); destruct (d =? s)%nat; cbn [negb]; rewrite ?Nat.sub_diag; reflexivity.
  - intros r Hr. cbn [xinit x_regs]. now apply Hfrag.
  - intros r k g Hr E. cbn [xinit x_regs] in E. destruct (Hfrag r Hr) as (L & F). rewrite Forall_forall in F. split; [apply F; eapply nth_error_In; exact E|].
    assert (Hk : (k < n)%nat) by (rewrite <- L; apply nth_error_Some; congruence).
    intros c Hc. split.
    + intros Hin. exists r, g. auto.
    + intros (i & f & Hi & [->|Hlt] & Ef & Hin); [congruence|]. rewrite R0 in Hlt. replace (r <? n)%nat with true in Hlt by lia. replace (i <? n)%nat with true in Hlt by lia. cbn [andb] in Hlt.
      destruct (i =? r)%nat eqn:Eir; cbn [negb] in Hlt; [|lia]. apply Nat.eqb_eq in Eir. subst i. congruence.
Qed.

(** What a reception does to the regions. *)
Lemma receive_spec st r s k todo : inv st -> x_todo st r = XRecv s k :: todo ->
  exists rs, xreceive (x_regs st r) k (msg s k) = Some rs /\ length rs = n /\
    forall q g, nth_error rs q = Some g -> reachable 0 g /\
      forall c, length c = 1%nat -> (rin g c <-> exists i f, (i < n)%nat /\ (i = r \/ (q < n - (if (i =? s)%nat then recvs st r i - 1 else recvs st r i))%nat) /\ nth_error (partials i) q = Some f /\ rin f c).
Proof.
  intros I E. destruct (head_recv st r s k todo I E) as (Hr & Hs & Hne & Hk & Hc). destruct (fragment s k Hs Hk) as (f & Ef & Rf & _ & If).
  pose proof (inv_len st I r Hr) as L. destruct (nth_error (x_regs st r) k) as [g|] eqn:Eg; [|apply nth_error_None in Eg; lia].
  destruct (inv_regs st I r k g Hr Eg) as (Rg & Ig).
  destruct (reg_union_assign_valid 0 g f (reachable_valid 0 g Rg) (reachable_valid 0 f Rf)) as (u & Eu & Vu & Iu).
  unfold xreceive. rewrite Eg. cbn [obind]. rewrite If, Eu. cbn [obind].
  destruct (vec_set_spec (x_regs st r) (Z.of_nat k) u ltac:(lia)) as (rs & -> & Lr & Nr). exists rs. split; [reflexivity|]. split; [lia|].
  intros q g' Eq. assert (No : nth_error rs q = if (k =? q)%nat then Some u else nth_error (x_regs st r) q).
  { specialize (Nr (Z.of_nat q)). unfold vec_get in Nr. replace (Z.of_nat q <? 0) with false in Nr by lia. rewrite !Nat2Z.id in Nr. rewrite Nr. replace (Z.of_nat k =? Z.of_nat q) with (k =? q)%nat by lia. reflexivity. } destruct (Nat.eq_dec q k) as [->|Nq].
  - rewrite Nat.eqb_refl in No. assert (g' = u) by congruence. subst g'. split; [exact (reach_union_assign 0 g f u Rg Rf Eu)|].
    intros c Hcl. rewrite (Iu c Hcl), (Ig c Hcl). split.
    + intros [(i & f' & Hi & Ho & Ef' & Hin)|Hin].
      * exists i, f'. split; [exact Hi|]. split; [|auto]. destruct Ho as [Ho|Ho]; [now left|right]. destruct (i =? s)%nat; lia.
      * exists s, f. split; [exact Hs|]. split; [right; rewrite Nat.eqb_refl; lia|auto].
    + intros (i & f' & Hi & Ho & Ef' & Hin). destruct (Nat.eq_dec i s) as [->|Ns]; [right; congruence|]. left. exists i, f'. split; [exact Hi|]. split; [|auto]. destruct Ho as [Ho|Ho]; [now left|right]. replace (i =? s)%nat with false in Ho by lia. exact Ho.
  - assert (Eo : nth_error (x_regs st r) q = Some g') by (rewrite <- Eq, No; now replace (k =? q)%nat with false by lia). destruct (inv_regs st I r q g' Hr Eo) as (R' & I'). split; [exact R'|].
    intros c Hcl. rewrite (I' c Hcl). split; intros (i & f' & Hi & Ho & Ef' & Hin); exists i, f'; (split; [exact Hi|]); (split; [|auto]); (destruct Ho as [Ho|Ho]; [now left|right]).
    + destruct (i =? s)%nat; lia.
    + destruct (i =? s)%nat eqn:Eis; [|exact Ho]. apply Nat.eqb_eq in Eis. subst i. lia.
Qed.

Lemma put_same {X} (f : nat -> X) i v : put f i v i = v.
Proof. unfold put. now rewrite Nat.eqb_refl. Qed.

Lemma put_other {X} (f : nat -> X) i v j : j <> i -> put f i v j = f j.
Proof. unfold put. intros H. now replace (j =? i)%nat with false by lia. Qed.

Lemma count_head (p : xop -> bool) o t l : l = o :: t -> length (filter p l) = ((if p o then 1 else 0) + length (filter p t))%nat.
Proof. intros ->. cbn [filter]. destruct (p o); reflexivity. Qed.

Lemma suffix_put st r0 o t : inv st -> x_todo st r0 = o :: t ->
  (forall r, (r < n)%nat -> exists pre, pre ++ put (x_todo st) r0 t r = xprogram n r) /\ (forall r, (n <= r)%nat -> put (x_todo st) r0 t r = []).
Proof.
  intros I E. split.
  - intros r Hr. destruct (inv_suffix st I r Hr) as (pre & P). destruct (Nat.eq_dec r r0) as [->|N].
    + rewrite put_same. exists (pre ++ [o]). rewrite <- app_assoc. cbn [app]. now rewrite <- E.
    + rewrite put_other by exact N. now exists pre.
  - intros r Hr. destruct (Nat.eq_dec r r0) as [->|N]; [|rewrite put_other by exact N; now apply inv_none]. rewrite (inv_none st I r0 Hr) in E. discriminate.
Qed.

Lemma buffer_inv st r : inv st -> match xstep partials st (EBuffer r) with Next s' => inv s' | Blocked => True | Crash => False end.
Proof.
  intros I. cbn [xstep]. destruct (x_todo st r) as [|[d k|s k] todo] eqn:E; [exact Logic.I| |exact Logic.I].
  destruct (head_send st r d k todo I E) as (Hr & Hd & Hne & Hk & Hc). destruct (fragment r k Hr Hk) as (f & _ & _ & -> & _).
  destruct (suffix_put st r _ _ I E) as (P1 & P2).
  set (st' := mkX _ _ _).
  assert (S1 : forall s d', sends st' s d' = if (s =? r)%nat && (d' =? d)%nat then (sends st s d' - 1)%nat else sends st s d').
  { intros s d'. unfold sends, st'. cbn [x_todo]. destruct (Nat.eq_dec s r) as [->|N].
    - rewrite put_same, Nat.eqb_refl. cbn [andb]. rewrite (count_head _ _ _ _ E). cbn [is_send]. rewrite (Nat.eqb_sym d' d). destruct (d =? d')%nat; lia.
    - rewrite put_other by exact N. now replace (s =? r)%nat with false by lia. }
  assert (R1 : forall d' s, recvs st' d' s = recvs st d' s).
  { intros d' s. unfold recvs, st'. cbn [x_todo]. destruct (Nat.eq_dec d' r) as [->|N]; [rewrite put_same, (count_head _ _ _ _ E); reflexivity|now rewrite put_other by exact N]. }
  constructor.
  - exact P1.
  - exact P2.
  - intros s d'. rewrite S1, R1. pose proof (inv_le st I s d'). destruct ((s =? r)%nat && (d' =? d)%nat); lia.
  - intros s d'. rewrite S1, R1. unfold st'. cbn [x_chan]. unfold put2. pose proof (inv_chan st I s d') as C. destruct (Nat.eq_dec s r) as [->|N].
    + rewrite put_same, Nat.eqb_refl. cbn [andb]. destruct (Nat.eq_dec d' d) as [->|N'].
      * rewrite put_same, Nat.eqb_refl, C. pose proof (inv_le st I r d) as Le.
        replace (recvs st d r - (sends st r d - 1))%nat with (S (recvs st d r - sends st r d)) by lia. rewrite seq_S, map_app. cbn [map]. do 3 f_equal.
        assert (Hrn : (recvs st d r <= n)%nat).
        { destruct (inv_suffix st I d Hd) as (pre & P). unfold recvs. assert (F : filter (is_recv r) pre ++ filter (is_recv r) (x_todo st d) = map (XRecv r) (seq 0 n)) by (rewrite <- filter_app, P, program_recvs by exact Hd; now replace ((r <? n)%nat && negb (r =? d)%nat) with true by lia).
          destruct (suffix_seq _ _ _ _ _ F) as (L & _). lia. }
        lia.
      * rewrite put_other by exact N'. replace (d' =? d)%nat with false by lia. exact C.
    + rewrite put_other by exact N. replace (s =? r)%nat with false by lia. exact C.
  - exact (inv_len st I).
  - intros r' k' g Hr' Eg. destruct (inv_regs st I r' k' g Hr' Eg) as (A & B). split; [exact A|]. intros c Hcl. rewrite (B c Hcl). split; intros (i & f' & Hi & Ho & H); exists i, f'; (split; [exact Hi|]); (split; [|exact H]); rewrite R1 in *; exact Ho.
Qed.

Lemma receive_inv st r : inv st -> match xstep partials st (EReceive r) with Next s' => inv s' | Blocked => True | Crash => False end.
Proof.
  intros I. cbn [xstep]. destruct (x_todo st r) as [|[d k|s k] todo] eqn:E; [exact Logic.I|exact Logic.I|].
  destruct (x_chan st s r) as [|m ms] eqn:Ech; [exact Logic.I|].
  destruct (head_recv st r s k todo I E) as (Hr & Hs & Hne & Hk & Hc). destruct (suffix_put st r _ _ I E) as (P1 & P2).
  pose proof (inv_chan st I s r) as C. pose proof (inv_le st I s r) as Le. rewrite Ech in C.
  destruct (recvs st r s - sends st s r)%nat as [|q] eqn:Eq; [discriminate|]. cbn [seq map] in C. injection C as Em Ems.
  replace (n - recvs st r s)%nat with k in * by lia. subst m.
  destruct (receive_spec st r s k todo I E) as (rs & -> & Lr & Nr).
  set (st' := mkX _ _ _).
  assert (R1 : forall d' s', recvs st' d' s' = if (d' =? r)%nat && (s' =? s)%nat then (recvs st d' s' - 1)%nat else recvs st d' s').
  { intros d' s'. unfold recvs, st'. cbn [x_todo]. destruct (Nat.eq_dec d' r) as [->|N].
    - rewrite put_same, Nat.eqb_refl. cbn [andb]. rewrite (count_head _ _ _ _ E). cbn [is_recv]. rewrite (Nat.eqb_sym s' s). destruct (s =? s')%nat; lia.
    - rewrite put_other by exact N. now replace (d' =? r)%nat with false by lia. }
  assert (S1 : forall s' d', sends st' s' d' = sends st s' d').
  { intros s' d'. unfold sends, st'. cbn [x_todo]. destruct (Nat.eq_dec s' r) as [->|N]; [rewrite put_same, (count_head _ _ _ _ E); reflexivity|now rewrite put_other by exact N]. }
  constructor.
  - exact P1.
  - exact P2.
  - intros s' d'. rewrite S1, R1. pose proof (inv_le st I s' d'). destruct ((d' =? r)%nat && (s' =? s)%nat) eqn:B; [|lia].
    assert (d' = r /\ s' = s) as (-> & ->) by lia. lia.
  - intros s' d'. rewrite S1, R1. unfold st'. cbn [x_chan]. unfold put2. pose proof (inv_chan st I s' d') as C. destruct (Nat.eq_dec s' s) as [->|N].
    + rewrite put_same. destruct (Nat.eq_dec d' r) as [->|N'].
      * rewrite put_same, !Nat.eqb_refl. cbn [andb]. rewrite Ems. f_equal. f_equal; lia.
      * rewrite put_other by exact N'. replace (d' =? r)%nat with false by lia. exact C.
    + rewrite put_other by exact N. replace (s' =? s)%nat with false by lia. rewrite andb_false_r. exact C.
  - intros r' Hr'. unfold st'. cbn [x_regs]. destruct (Nat.eq_dec r' r) as [->|N]; [now rewrite put_same|rewrite put_other by exact N; now apply inv_len].
  - intros r' k' g Hr' Eg. unfold st' in Eg. cbn [x_regs] in Eg. destruct (Nat.eq_dec r' r) as [->|N].
    + rewrite put_same in Eg. destruct (Nr k' g Eg) as (A & B). split; [exact A|]. intros c Hcl. rewrite (B c Hcl). split; intros (i & f' & Hi & Ho & H); exists i, f'; (split; [exact Hi|]); (split; [|exact H]); rewrite R1, Nat.eqb_refl in *; cbn [andb] in *; exact Ho.
    + rewrite put_other in Eg by exact N. destruct (inv_regs st I r' k' g Hr' Eg) as (A & B). split; [exact A|]. intros c Hcl. rewrite (B c Hcl). split; intros (i & f' & Hi & Ho & H); exists i, f'; (split; [exact Hi|]); (split; [|exact H]); rewrite R1 in *; replace (r' =? r)%nat with false in * by lia; exact Ho.
Qed.

(** Handing over is the same as buffering and receiving at once. *)
Lemma handover_inv st s r : inv st -> match xstep partials st (EHandOver s r) with Next s' => inv s' | Blocked => True | Crash => False end.
Proof.
  intros I. cbn [xstep]. destruct (x_todo st s) as [|[d k|s0 k] todo] eqn:E; [exact Logic.I| |exact Logic.I].
  destruct (x_todo st r) as [|[d0 k'|s0 k'] todo'] eqn:E'; [exact Logic.I|exact Logic.I|].
  destruct (x_chan st s r) as [|m ms] eqn:Ech; [|exact Logic.I]. destruct ((d =? r)%nat && (s0 =? s)%nat) eqn:B; [|exact Logic.I].
  assert (d = r /\ s0 = s) as (-> & ->) by lia.
  pose proof (buffer_inv st s I) as H1. cbn [xstep] in H1. rewrite E in H1. destruct (xmessage partials s k) as [m|]; [|exact H1].
  set (mid := mkX _ _ _) in H1.
  assert (Hsr : s <> r) by (intros ->; rewrite E in E'; discriminate).
  pose proof (receive_inv mid r H1) as H2. cbn [xstep] in H2. unfold mid in H2. cbn [x_todo x_chan x_regs] in H2. rewrite put_other in H2 by congruence. rewrite E' in H2.
  unfold put2 in H2 at 1. rewrite !put_same, Ech in H2. cbn [app] in H2.
  destruct (xreceive (x_regs st r) k' m) as [rs|]; [|exact H2].
  destruct H2 as [A1 A2 A3 A4 A5 A6]. constructor; try assumption.
  intros s' d'. specialize (A4 s' d'). cbn [x_chan] in *. etransitivity; [|exact A4]. unfold put2.
  destruct (Nat.eq_dec s' s) as [->|N]; [|now rewrite !put_other by exact N]. rewrite put_same. destruct (Nat.eq_dec d' r) as [->|N']; [now rewrite put_same|].
  rewrite put_other by exact N'. rewrite put_same. now rewrite put_other by exact N'.
Qed.

Lemma step_inv st e : inv st -> match xstep partials st e with Next s' => inv s' | Blocked => True | Crash => False end.
Proof. intros I. destruct e; [now apply buffer_inv|now apply receive_inv|now apply handover_inv]. Qed.

Lemma reach_inv st : xreach n partials st -> inv st.
Proof. induction 1 as [|s e s' _ IH E]; [apply init_inv|]. pose proof (step_inv s e IH) as H. now rewrite E in H. Qed.

(** ** Progress *)

Lemma todo_sorted st r o t : inv st -> x_todo st r = o :: t -> forall o', In o' (x_todo st r) -> (phase r o <= phase r o')%nat.
Proof.
  intros I E o' Hin. destruct (lt_dec r n) as [Hr|Hr]; [|rewrite (inv_none st I r) in E by lia; discriminate]. destruct (inv_suffix st I r Hr) as (pre & P).
  pose proof (program_sorted n r) as S. rewrite <- P, map_app in S. apply sorted_app_r in S. rewrite E in *. cbn [map] in S. inversion S as [|x l S1 S2]; subst.
  destruct Hin as [->|Hin]; [lia|]. rewrite Forall_forall in S2. apply S2. now apply in_map.
Qed.

Lemma min_phase st : forall m, (exists r o t, (r < n)%nat /\ x_todo st r = o :: t /\ (phase r o <= m)%nat) ->
  exists r o t, (r < n)%nat /\ x_todo st r = o :: t /\ forall r' o' t', (r' < n)%nat -> x_todo st r' = o' :: t' -> (phase r o <= phase r' o')%nat.
Proof.
  induction m as [m IH] using lt_wf_ind. intros (r & o & t & Hr & E & Hm).
  assert (D : (exists r' o' t', (r' < n)%nat /\ x_todo st r' = o' :: t' /\ (phase r' o' < phase r o)%nat) \/ ~ exists r' o' t', (r' < n)%nat /\ x_todo st r' = o' :: t' /\ (phase r' o' < phase r o)%nat).
  { generalize (phase r o) as b. clear. intros b. induction n as [|q [IHq|IHq]].
    - right. intros (r' & o' & t' & H & _). lia.
    - left. destruct IHq as (r' & o' & t' & H & H'). exists r', o', t'. split; [lia|exact H'].
    - destruct (x_todo st q) as [|o t] eqn:E.
      + right. intros (r' & o' & t' & H & H1 & H2). apply IHq. exists r', o', t'. split; [|auto]. destruct (Nat.eq_dec r' q) as [->|]; [congruence|lia].
      + destruct (lt_dec (phase q o) b) as [L|L].
        * left. exists q, o, t. auto.
        * right. intros (r' & o' & t' & H & H1 & H2). apply IHq. exists r', o', t'. split; [|auto]. destruct (Nat.eq_dec r' q) as [->|]; [|lia]. assert (o' = o) by congruence. subst. lia. }
  destruct D as [(r' & o' & t' & Hr' & E' & L)|D].
  - apply (IH (phase r' o')); [lia|]. exists r', o', t'. auto.
  - exists r, o, t. split; [exact Hr|]. split; [exact E|]. intros r' o' t' Hr' E'. destruct (le_lt_dec (phase r o) (phase r' o')) as [L|L]; [exact L|]. exfalso. apply D. exists r', o', t'. auto.
Qed.

Lemma is_send_inv d o : is_send d o = true -> exists k, o = XSend d k.
Proof. destruct o as [d' k|s k]; cbn; [|discriminate]. intros H. apply Nat.eqb_eq in H. subst. now exists k. Qed.

Lemma is_recv_inv s o : is_recv s o = true -> exists k, o = XRecv s k.
Proof. destruct o as [d' k|s' k]; cbn; [discriminate|]. intros H. apply Nat.eqb_eq in H. subst. now exists k. Qed.

Lemma receiver_moves st j i k t : inv st -> x_todo st j = XRecv i k :: t ->
  (forall o' t', x_todo st i = o' :: t' -> (j <= phase i o')%nat) -> exists e s', unavoidable e /\ xstep partials st e = Next s'.
Proof.
  intros I E Hmin. destruct (head_recv st j i k t I E) as (Hj & Hi & Hne & Hk & Hc). destruct (x_chan st i j) as [|m ms] eqn:Ech.
  - pose proof (inv_chan st I i j) as C. rewrite Ech in C. pose proof (inv_le st I i j) as Le.
    assert (Hs : sends st i j = recvs st j i). { destruct (recvs st j i - sends st i j)%nat eqn:Eq; [lia|discriminate]. }
    assert (Hpos : (0 < sends st i j)%nat) by lia. destruct (In_count _ _ Hpos) as (o & Hin & Ho). destruct (is_send_inv _ _ Ho) as (k1 & ->).
    destruct (x_todo st i) as [|o' t'] eqn:Ei; [contradiction|]. pose proof (todo_sorted st i o' t' I Ei (XSend j k1)) as L. rewrite Ei in L. specialize (L Hin). cbn [phase] in L. specialize (Hmin o' t' eq_refl).
    destruct o' as [d' k'|s' k']; cbn [phase] in *; [|lia]. assert (d' = j) by lia. subst d'.
    exists (EHandOver i j). pose proof (handover_inv st i j I) as H. cbn [xstep] in *. rewrite Ei, E, Ech, !Nat.eqb_refl in *. cbn [andb] in *.
    destruct (xmessage partials i k') as [m|]; [|contradiction]. destruct (xreceive _ _ _) as [rs|]; [|contradiction]. eexists. split; [exact Logic.I|reflexivity].
  - exists (EReceive j). pose proof (receive_inv st j I) as H. cbn [xstep] in *. rewrite E, Ech in *. destruct (xreceive _ _ _) as [rs|]; [|contradiction]. eexists. split; [exact Logic.I|reflexivity].
Qed.

Lemma progress st : inv st -> ~ xdone n st -> exists e s', unavoidable e /\ xstep partials st e = Next s'.
Proof.
  intros I Hnd.
  assert (X : exists r o t, (r < n)%nat /\ x_todo st r = o :: t).
  { clear - Hnd. unfold xdone in Hnd. induction n as [|q IH]; [exfalso; apply Hnd; intros; lia|].
    destruct (x_todo st q) as [|o t] eqn:E; [|exists q, o, t; auto]. destruct IH as (r & o & t & H & H').
    - intros H. apply Hnd. intros r Hr. destruct (Nat.eq_dec r q) as [->|]; [exact E|apply H; lia].
    - exists r, o, t. auto. }
  destruct X as (r0 & o0 & t0 & Hr0 & E0). destruct (min_phase st (phase r0 o0)) as (r & o & t & Hr & E & Hmin); [exists r0, o0, t0; auto|].
  destruct o as [j k|i k].
  - destruct (head_send st r j k t I E) as (_ & Hj & Hne & Hk & Hc). pose proof (inv_le st I r j) as Le.
    assert (Hpos : (0 < recvs st j r)%nat) by lia. destruct (In_count _ _ Hpos) as (o & Hin & Ho). destruct (is_recv_inv _ _ Ho) as (k1 & ->).
    destruct (x_todo st j) as [|o' t'] eqn:Ej; [contradiction|]. pose proof (todo_sorted st j o' t' I Ej (XRecv r k1)) as L. rewrite Ej in L. specialize (L Hin). cbn [phase] in L.
    pose proof (Hmin j o' t' Hj Ej) as M. cbn [phase] in M. destruct o' as [d' k'|i k']; cbn [phase] in *.
    + exfalso. destruct (head_send st j d' k' t' I Ej) as (_ & _ & N & _). lia.
    + apply (receiver_moves st j i k' t' I Ej). intros o' t'' Ei. destruct (head_recv st j i k' t' I Ej) as (_ & Hi & _). exact (Hmin i o' t'' Hi Ei).
  - apply (receiver_moves st r i k t I E). intros o' t'' Ei. destruct (head_recv st r i k t I E) as (_ & Hi & _). exact (Hmin i o' t'' Hi Ei).
Qed.

(** ** Termination *)

Lemma sum_put (f g : nat -> nat) r : forall m a, (a <= r < a + m)%nat -> (forall q, q <> r -> g q = f q) -> (g r < f r)%nat ->
  (list_sum (map g (seq a m)) < list_sum (map f (seq a m)))%nat.
Proof.
  induction m as [|m IH]; intros a Hr Ho Hl; [lia|]. cbn [seq map]. change (list_sum (?x :: ?l)) with (x + list_sum l)%nat.
  destruct (Nat.eq_dec a r) as [->|N].
  - assert (E : map g (seq (S r) m) = map f (seq (S r) m)) by (apply map_ext_in; intros q Hq; apply in_seq in Hq; apply Ho; lia). rewrite E. cbn [list_sum fold_right]. lia.
  - specialize (IH (S a) ltac:(lia) Ho Hl). rewrite (Ho a N). unfold list_sum in *. cbn [fold_right]. lia.
Qed.

Lemma step_decreases st e s' : inv st -> xstep partials st e = Next s' -> (remaining n s' < remaining n st)%nat.
Proof.
  intros I. assert (one : forall r o t c g, x_todo st r = o :: t -> (remaining n (mkX (put (x_todo st) r t) c g) < remaining n st)%nat).
  { intros r o t c g E. unfold remaining. cbn [x_todo]. destruct (lt_dec r n) as [Hr|Hr]; [|rewrite (inv_none st I r) in E by lia; discriminate].
    apply (sum_put _ _ r); [lia| |].
    - intros q N. now rewrite put_other by exact N.
    - rewrite put_same, E. cbn [length]. lia. }
  destruct e as [r|r|s r]; cbn [xstep].
  - destruct (x_todo st r) as [|[d k|s k] todo] eqn:E; try discriminate. destruct (xmessage partials r k); [|discriminate]. intros [= <-]. eapply one; exact E.
  - destruct (x_todo st r) as [|[d k|s k] todo] eqn:E; try discriminate. destruct (x_chan st s r); [discriminate|]. destruct (xreceive _ _ _); [|discriminate]. intros [= <-]. eapply one; exact E.
  - destruct (x_todo st s) as [|[d k|s0 k] todo] eqn:E; try discriminate. destruct (x_todo st r) as [|[d0 k'|s0 k'] todo'] eqn:E'; try discriminate. destruct (x_chan st s r); [|discriminate]. destruct (_ && _); [|discriminate].
    destruct (xmessage partials s k); [|discriminate]. destruct (xreceive _ _ _) as [rs|]; [|discriminate]. intros [= <-].
    eapply Nat.lt_trans; [|exact (one s _ _ (x_chan st) (x_regs st) E)]. unfold remaining. cbn [x_todo].
    assert (Hsr : r <> s) by (intros ->; rewrite E in E'; discriminate).
    destruct (lt_dec r n) as [Hr|Hr]; [|rewrite (inv_none st I r) in E' by lia; discriminate]. apply (sum_put _ _ r); [lia| |].
    + intros q N. now rewrite put_other by exact N.
    + rewrite put_same. rewrite put_other by exact Hsr. rewrite E'. cbn [length]. lia.
Qed.

(** ** The result *)

Lemma done_regs st : inv st -> xdone n st -> forall r, (r < n)%nat -> length (x_regs st r) = n /\ forall k g, nth_error (x_regs st r) k = Some g -> assembled n partials k g.
Proof.
  intros I D r Hr. split; [now apply inv_len|]. intros k g E. destruct (inv_regs st I r k g Hr E) as (A & B). split; [exact A|]. intros c Hc. rewrite (B c Hc).
  assert (Hk : (k < n)%nat) by (rewrite <- (inv_len st I r Hr); apply nth_error_Some; congruence).
  split; intros (i & f & H).
  - exists i, f. tauto.
  - exists i, f. destruct H as (H1 & H2). split; [exact H1|]. split; [|exact H2]. right. unfold recvs. rewrite (D r Hr). cbn. lia.
Qed.
End Exchange.
