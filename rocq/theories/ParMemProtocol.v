(** ParallelMemoryWriter: the nodes' interplay. *)
From Verif Require Import Base ListFacts RegionSpec RegionModel RegionRep RegionIterModel RegionStreaks RegionOpsModel RegionOps RegionObjModel HaloSpec
  CoordModel CoordSpec CoordFacts UpdateModel GridModel GridSpec GridFacts DisplacedFacts GridReach GridProps
  CollectModel CollectSpec CollectFacts ParMemModel ParMemSpec ParMemFacts.

Lemma nodup_concat {A} (l1 l2 : list A) : NoDup l1 -> NoDup l2 -> (forall x, In x l1 -> ~ In x l2) -> NoDup (l1 ++ l2).
Proof.
  intros H1 H2 Hd. induction H1 as [|x l1 Hx _ IH]; [exact H2|]. cbn [app]. constructor.
  - rewrite in_app_iff. intros [H|H]; [contradiction|]. now apply (Hd x (or_introl eq_refl)).
  - apply IH. intros y Hy. apply Hd. now right.
Qed.

Lemma list_sum_cons' x l : list_sum (x :: l) = (x + list_sum l)%nat.
Proof. reflexivity. Qed.

Section Pairs.
Variable size : nat.

Lemma pairs_in a b : In (a, b) (pm_pairs size) <-> (a < size)%nat /\ (b < size)%nat /\ a <> b.
Proof.
  unfold pm_pairs. rewrite filter_In, in_prod_iff, !in_seq. cbn [fst snd]. rewrite negb_true_iff, Nat.eqb_neq. lia.
Qed.

Lemma pairs_nth p a b : nth_error (pm_pairs size) p = Some (a, b) -> (a < size)%nat /\ (b < size)%nat /\ a <> b /\ (p < length (pm_pairs size))%nat.
Proof.
  intros H. assert (p < length (pm_pairs size))%nat by (apply nth_error_Some; congruence). apply nth_error_In in H. apply pairs_in in H. tauto.
Qed.

Lemma prod_nodup {A B} (l : list A) (l' : list B) : NoDup l -> NoDup l' -> NoDup (list_prod l l').
Proof.
  intros H H'. induction H as [|x l Hx _ IH]; [constructor|]. cbn [list_prod]. apply nodup_concat; [|exact IH|].
  - apply FinFun.Injective_map_NoDup; [|exact H']. intros a b E. congruence.
  - intros [a b] H1 H2. apply in_map_iff in H1. destruct H1 as (y & E & _). apply in_prod_iff in H2. destruct H2 as [H2 _]. congruence.
Qed.

Lemma pairs_unique p p' x : nth_error (pm_pairs size) p = Some x -> nth_error (pm_pairs size) p' = Some x -> p = p'.
Proof.
  intros H H'. apply (proj1 (NoDup_nth_error (pm_pairs size))); [|apply nth_error_Some; congruence|congruence].
  apply NoDup_filter, prod_nodup; apply seq_NoDup.
Qed.

Lemma pairs_pos a b : (a < size)%nat -> (b < size)%nat -> a <> b -> exists p, nth_error (pm_pairs size) p = Some (a, b).
Proof. intros H1 H2 H3. apply In_nth_error, pairs_in. tauto. Qed.
End Pairs.

Section Protocol.
Context {C E : Type}.
Variables (t : topology) (correct : bool) (dflt : C) (n : nat) (dims : coord) (size cap num : nat) (eager : bool) (calls : nat -> nat -> wcall C E)
  (G : Z -> coord -> C) (Edge : Z -> C) (finished : E -> bool) (period : Z).
Hypotheses (Ht : length t = S n) (Hdims : length dims = S n) (Hpos : allpos dims)
  (Hok : reports_ok t correct n dims size num calls G Edge finished period).

Notation gbox := (mkBox (zeros dims) dims).
Notation reach := (dg_reach t false gbox (zeros dims)).
Notation step := (pm_step t dflt size cap num eager calls).
Notation pairs := (pm_pairs size).
Notation at_step q i := (k_step (calls q i)).
Notation pstate := (pstate C).

Lemma report q i : (q < size)%nat -> (i < num)%nat -> report_ok t correct n dims G Edge (calls q i).
Proof. intros H1 H2. now apply Hok. Qed.

Lemma same_step q r i : (q < size)%nat -> (r < size)%nat -> (i < num)%nat -> at_step q i = at_step r i.
Proof. apply Hok. Qed.

(** Which reports node [q] has got *)
Definition heard (s : pstate) (q r j : nat) : Prop :=
  (j < m_call s q)%nat \/ j = m_call s q /\ (0 < m_pos s q)%nat /\ (r = q \/ exists p, nth_error pairs p = Some (r, q) /\ (S p < m_pos s q)%nat).

Definition knows (grids : nat -> Z -> dgrid C) (H : nat -> nat -> nat -> Prop) : Prop :=
  (forall q z, (q < size)%nat -> reach (grids q z) \/ b_dim (dg_box (grids q z)) <> dims /\ (forall r j, (r < size)%nat -> (j < num)%nat -> H q r j -> at_step q j <> z)) /\
  (forall q r j c, (q < size)%nat -> (r < size)%nat -> (j < num)%nat -> H q r j -> inr n (k_region (calls r j)) c ->
     dg_get t false (grids q (at_step q j)) c = Some (G (at_step q j) c)) /\
  (forall q r j, (q < size)%nat -> (r < size)%nat -> (j < num)%nat -> H q r j -> g_edge (d_grid (grids q (at_step q j))) = Edge (at_step q j)).

Lemma knows_weaken grids (H H' : nat -> nat -> nat -> Prop) : (forall q r j, (q < size)%nat -> (r < size)%nat -> H' q r j -> H q r j) -> knows grids H -> knows grids H'.
Proof.
  intros HH (K1 & K2 & K3). split; [|split].
  - intros q z Hq. destruct (K1 q z Hq) as [K|[K K']]; [now left|right]. split; [exact K|]. intros r j Hr Hj Hh. apply (K' r j Hr Hj). now apply HH.
  - intros q r j c Hq Hr Hj Hh. apply (K2 q r j c Hq Hr Hj). now apply HH.
  - intros q r j Hq Hr Hj Hh. apply (K3 q r j Hq Hr Hj). now apply HH.
Qed.

Lemma knows_put grids (H H' : nat -> nat -> nat -> Prop) q0 r0 j0 g : (q0 < size)%nat -> (r0 < size)%nat -> (j0 < num)%nat -> knows grids H ->
  (forall q r j, (q < size)%nat -> (r < size)%nat -> H' q r j -> H q r j \/ q = q0 /\ r = r0 /\ j = j0) ->
  reach g -> g_edge (d_grid g) = Edge (at_step q0 j0) ->
  (forall c, inr n (k_region (calls r0 j0)) c -> dg_get t false g c = Some (G (at_step q0 j0) c)) ->
  (reach (grids q0 (at_step q0 j0)) -> forall c, in_grid dims c -> dg_get t false g c = Some (G (at_step q0 j0) c) \/ dg_get t false g c = dg_get t false (grids q0 (at_step q0 j0)) c) ->
  knows (put_grid grids q0 (at_step q0 j0) g) H'.
Proof.
  intros Hq0 Hr0 Hj0 (K1 & K2 & K3) HH R He Hn Ho. unfold put_grid. split; [|split].
  - intros q z Hq. destruct (Nat.eqb_spec q q0) as [->|Nq]; cbn [andb]; [destruct (Z.eqb_spec z (at_step q0 j0)) as [->|Nz]; [now left|]|].
    + destruct (K1 q0 z Hq) as [K|[K K']]; [now left|right]. split; [exact K|]. intros r j Hr Hj Hh. destruct (HH q0 r j Hq Hr Hh) as [Hx|(_ & _ & ->)]; [now apply (K' r j)|congruence].
    + destruct (K1 q z Hq) as [K|[K K']]; [now left|right]. split; [exact K|]. intros r j Hr Hj Hh. destruct (HH q r j Hq Hr Hh) as [Hx|(-> & _)]; [now apply (K' r j)|congruence].
  - intros q r j c Hq Hr Hj Hh Hc. destruct (Nat.eqb_spec q q0) as [->|Nq]; cbn [andb].
    + destruct (Z.eqb_spec (at_step q0 j) (at_step q0 j0)) as [Ez|Nz].
      * rewrite Ez. destruct (HH q0 r j Hq Hr Hh) as [Hx|(_ & -> & ->)]; [|now apply Hn].
        destruct (K1 q0 (at_step q0 j0) Hq) as [K|[_ K']]; [|exfalso; now apply (K' r j)].
        assert (Hi : in_grid dims c) by (destruct (report r j Hr Hj) as (_ & _ & Hi & _); now apply Hi).
        destruct (Ho K c Hi) as [Q|Q]; [exact Q|]. rewrite Q, <- Ez. now apply (K2 q0 r j c).
      * destruct (HH q0 r j Hq Hr Hh) as [Hx|(_ & _ & ->)]; [now apply (K2 q0 r j c)|congruence].
    + destruct (HH q r j Hq Hr Hh) as [Hx|(-> & _)]; [now apply (K2 q r j c)|congruence].
  - intros q r j Hq Hr Hj Hh. destruct (Nat.eqb_spec q q0) as [->|Nq]; cbn [andb].
    + destruct (Z.eqb_spec (at_step q0 j) (at_step q0 j0)) as [Ez|Nz]; [now rewrite Ez|].
      destruct (HH q0 r j Hq Hr Hh) as [Hx|(_ & _ & ->)]; [now apply (K3 q0 r j)|congruence].
    + destruct (HH q r j Hq Hr Hh) as [Hx|(-> & _)]; [now apply (K3 q r j)|congruence].
Qed.

Definition passed (s : pstate) (q p : nat) : nat := (m_call s q + (if (S p <? m_pos s q)%nat then 1 else 0))%nat.
Definition progress (s : pstate) (q : nat) : nat := (m_call s q * S (S (length pairs)) + m_pos s q)%nat.
Notation exp := (expected G).

Record inv (m : nat) (s : pstate) : Prop := {
  i_pos : forall q, (q < size)%nat -> (m_call s q <= num)%nat /\ (m_pos s q <= S (length pairs))%nat /\ (m_call s q = num -> m_pos s q = O);
  i_chan : forall p a b, nth_error pairs p = Some (a, b) -> (passed s b p <= passed s a p)%nat /\
    m_chan s a b = map (fun j => exp (calls a j)) (seq (passed s b p) (passed s a p - passed s b p));
  i_self : forall q, m_chan s q q = [];
  i_know : knows (m_grids s) (heard s);
  i_bound : (m <= list_sum (map (progress s) (seq 0 size)))%nat;
}.

Lemma init_dims : repeat 0 (S n) <> dims.
Proof. intros Eq. rewrite <- Eq in Hpos. cbn in Hpos. inversion Hpos; lia. Qed.

Lemma inv_init : inv 0 (pm_init dflt (S n)).
Proof.
  constructor.
  - intros q Hq. cbn. lia.
  - intros p a b _. unfold passed. cbn [pm_init m_call m_pos m_chan]. cbn. split; [lia|reflexivity].
  - reflexivity.
  - assert (K : forall q r j, ~ heard (pm_init dflt (S n)) q r j) by (intros q r j; unfold heard; cbn [pm_init m_call m_pos]; lia).
    split; [|split].
    + intros q z Hq. right. split; [cbn -[repeat]; apply init_dims|]. intros r j _ _ Hh. now apply K in Hh.
    + intros q r j c _ _ _ Hh. now apply K in Hh.
    + intros q r j _ _ _ Hh. now apply K in Hh.
  - lia.
Qed.

(** One node goes on *)
Lemma put_same {X} (f : nat -> X) i a : put f i a i = a.
Proof. unfold put. now rewrite Nat.eqb_refl. Qed.
Lemma put_other {X} (f : nat -> X) i j a : j <> i -> put f i a j = f j.
Proof. intros H. unfold put. destruct (Nat.eqb_spec j i); [contradiction|reflexivity]. Qed.

Lemma sum_more (f g : nat -> nat) l q : In q l -> (forall x, In x l -> (f x <= g x)%nat) -> (f q < g q)%nat -> (list_sum (map f l) < list_sum (map g l))%nat.
Proof.
  induction l as [|x l IH]; intros Hi Hle Hlt; [destruct Hi|]. cbn [map]. rewrite !list_sum_cons' .
  assert (Hl : (list_sum (map f l) <= list_sum (map g l))%nat).
  { clear - Hle. induction l as [|y l IH]; [apply le_n|]. cbn [map]. rewrite !list_sum_cons'. pose proof (Hle y (or_intror (or_introl eq_refl))). assert (list_sum (map f l) <= list_sum (map g l))%nat by (apply IH; intros z [->|Hz]; apply Hle; [now left|right; now right]). lia. }
  pose proof (Hle x (or_introl eq_refl)). destruct Hi as [->|Hi]; [lia|]. assert (list_sum (map f l) < list_sum (map g l))%nat by (apply IH; auto; intros; apply Hle; now right). lia.
Qed.

Lemma bound_step m s s' q : inv m s -> (q < size)%nat -> (forall x, (x < size)%nat -> (progress s x <= progress s' x)%nat) -> (progress s q < progress s' q)%nat ->
  (S m <= list_sum (map (progress s') (seq 0 size)))%nat.
Proof.
  intros Hi Hq Hle Hlt. pose proof (i_bound _ _ Hi). assert (list_sum (map (progress s) (seq 0 size)) < list_sum (map (progress s') (seq 0 size)))%nat; [|lia].
  apply (sum_more _ _ _ q); [apply in_seq; lia|intros x Hx; apply in_seq in Hx; apply Hle; lia|exact Hlt].
Qed.

(** Where a node at the p-th pair stands *)
Lemma at_pair_spec m s q a b : inv m s -> at_pair size num s q = Some (a, b) ->
  exists p, m_pos s q = S p /\ (m_call s q < num)%nat /\ nth_error pairs p = Some (a, b).
Proof.
  intros _. unfold at_pair. destruct (m_pos s q) as [|p]; [discriminate|]. destruct (Nat.ltb_spec (m_call s q) num); [|discriminate]. intros Hn. now exists p.
Qed.

Lemma own_known m s q : inv m s -> (q < size)%nat -> (m_call s q < num)%nat -> (0 < m_pos s q)%nat ->
  reach (own_grid calls s q) /\ g_edge (d_grid (own_grid calls s q)) = Edge (at_step q (m_call s q)) /\
  forall c, inr n (k_region (calls q (m_call s q))) c -> dg_get t false (own_grid calls s q) c = Some (G (at_step q (m_call s q)) c).
Proof.
  intros Hi Hq Hc Hp. destruct (i_know _ _ Hi) as (K1 & K2 & K3). assert (Hh : heard s q q (m_call s q)) by (right; auto).
  unfold own_grid. split; [|split; [now apply (K3 q q)|intros c; now apply (K2 q q)]].
  destruct (K1 q (at_step q (m_call s q)) Hq) as [K|[_ K]]; [exact K|]. exfalso. now apply (K q (m_call s q)).
Qed.

Lemma out_ok m s q : inv m s -> (q < size)%nat -> (m_call s q < num)%nat -> (0 < m_pos s q)%nat ->
  outgoing t (own_grid calls s q) (calls q (m_call s q)) = Some (exp (calls q (m_call s q))).
Proof.
  intros Hi Hq Hc Hp. destruct (own_known m s q Hi Hq Hc Hp) as (R & _ & K). eapply outgoing_ok; eauto. now apply report.
Qed.

Lemma in_ok m s q r : inv m s -> (q < size)%nat -> (r < size)%nat -> (m_call s q < num)%nat -> (0 < m_pos s q)%nat ->
  exists g, incoming t (own_grid calls s q) (calls q (m_call s q)) (exp (calls r (m_call s q))) = Some g /\ reach g /\ g_edge (d_grid g) = Edge (at_step q (m_call s q)) /\
    (forall c, inr n (k_region (calls r (m_call s q))) c -> dg_get t false g c = Some (G (at_step q (m_call s q)) c)) /\
    (forall c, in_grid dims c -> dg_get t false g c = Some (G (at_step q (m_call s q)) c) \/ dg_get t false g c = dg_get t false (own_grid calls s q) c).
Proof.
  intros Hi Hq Hr Hc Hp. destruct (own_known m s q Hi Hq Hc Hp) as (R & Ee & _).
  destruct (incoming_ok t correct n dims G Edge Ht Hdims Hpos (calls r (m_call s q)) (calls q (m_call s q)) (own_grid calls s q)) as (g & E1 & R1 & E2 & H1 & H2); [now apply report|now apply (report q)|exact R|].
  rewrite (same_step r q _ Hr Hq Hc) in H1, H2. exists g. split; [exact E1|]. split; [exact R1|]. split; [congruence|]. now split.
Qed.

Lemma heard_advance s s' q0 r0 p : m_call s' = m_call s -> m_pos s' = put (m_pos s) q0 (S (m_pos s q0)) -> m_pos s q0 = S p -> nth_error pairs p = Some (r0, q0) ->
  forall q r j, heard s' q r j -> heard s q r j \/ q = q0 /\ r = r0 /\ j = m_call s q0.
Proof.
  intros Ec Ep Hp0 Hn q r j Hh. unfold heard in *. rewrite Ec, Ep in Hh. destruct (Nat.eq_dec q q0) as [->|N]; [|rewrite put_other in Hh by exact N; now left].
  rewrite put_same in Hh. destruct Hh as [Hh|(-> & _ & [->|(p' & Hn' & Hp')])]; [left; now left|left; right; repeat split; [lia|now left]|].
  destruct (Nat.eq_dec p' p) as [->|Np]; [right; repeat split; congruence|]. left. right. split; [reflexivity|]. split; [lia|]. right. exists p'. split; [exact Hn'|lia].
Qed.

Lemma heard_skip s s' q0 p a b : m_call s' = m_call s -> m_pos s' = put (m_pos s) q0 (S (m_pos s q0)) -> m_pos s q0 = S p -> nth_error pairs p = Some (a, b) -> b <> q0 ->
  forall q r j, heard s' q r j -> heard s q r j.
Proof.
  intros Ec Ep Hp0 Hn Hb q r j Hh. unfold heard in *. rewrite Ec, Ep in Hh. destruct (Nat.eq_dec q q0) as [->|N]; [|now rewrite put_other in Hh by exact N].
  rewrite put_same in Hh. destruct Hh as [Hh|(-> & _ & [->|(p' & Hn' & Hp')])]; [now left|right; repeat split; [lia|now left]|].
  destruct (Nat.eq_dec p' p) as [->|Np]; [congruence|]. right. split; [reflexivity|]. split; [lia|]. right. exists p'. split; [exact Hn'|lia].
Qed.

Lemma passed_advance s s' q0 p0 p : m_call s' = m_call s -> m_pos s' = put (m_pos s) q0 (S (m_pos s q0)) -> m_pos s q0 = S p0 ->
  forall q, passed s' q p = if (q =? q0)%nat && (p =? p0)%nat then S (passed s q p) else passed s q p.
Proof.
  intros Ec Ep Hp0 q. unfold passed. rewrite Ec, Ep. destruct (Nat.eqb_spec q q0) as [->|N]; cbn [andb]; [|now rewrite put_other].
  rewrite put_same, Hp0. destruct (Nat.eqb_spec p p0) as [->|Np].
  - destruct (Nat.ltb_spec (S p0) (S (S p0))), (Nat.ltb_spec (S p0) (S p0)); lia.
  - destruct (Nat.ltb_spec (S p) (S (S p0))), (Nat.ltb_spec (S p) (S p0)); lia.
Qed.

Lemma progress_advance s s' q0 : m_call s' = m_call s -> m_pos s' = put (m_pos s) q0 (S (m_pos s q0)) ->
  (forall x, (progress s x <= progress s' x)%nat) /\ (progress s q0 < progress s' q0)%nat.
Proof.
  intros Ec Ep. unfold progress. rewrite Ec, Ep. split; [intros x; destruct (Nat.eq_dec x q0) as [->|N]; [rewrite put_same; lia|rewrite put_other by exact N; lia]|rewrite put_same; lia].
Qed.

Lemma pos_advance m (s s' : pstate) q0 p : inv m s -> m_call s' = m_call s -> m_pos s' = put (m_pos s) q0 (S (m_pos s q0)) -> m_pos s q0 = p -> (p <= length pairs)%nat -> (m_call s q0 < num)%nat ->
  forall q, (q < size)%nat -> (m_call s' q <= num)%nat /\ (m_pos s' q <= S (length pairs))%nat /\ (m_call s' q = num -> m_pos s' q = O).
Proof.
  intros Hi Ec Ep Hp Hl Hc q Hq. destruct (i_pos _ _ Hi q Hq) as (H1 & H2 & H3). rewrite Ec, Ep. destruct (Nat.eq_dec q q0) as [->|N]; [rewrite put_same; lia|rewrite put_other by exact N; auto].
Qed.

(** The p-th pair's channel when the sender is at that pair *)
Lemma passed_here s q p : m_pos s q = S p -> passed s q p = m_call s q.
Proof. intros H. unfold passed. rewrite H. destruct (Nat.ltb_spec (S p) (S p)); lia. Qed.

Lemma inv_local m s q s' : inv m s -> step s (Local q) = Next s' -> inv (S m) s'.
Proof.
  intros Hi Es. cbn [pm_step] in Es. destruct (Nat.ltb_spec q size) as [Hq|]; [|discriminate]. destruct (Nat.ltb_spec (m_call s q) num) as [Hc|]; [|discriminate]. cbn [andb negb] in Es.
  destruct (i_pos _ _ Hi q Hq) as (_ & HpL & _). destruct (m_pos s q) as [|p] eqn:Ep.
  - (* start *)
    assert (Hg : reach (own_grid calls s q) \/ b_dim (dg_box (own_grid calls s q)) <> dims).
    { destruct (i_know _ _ Hi) as (K1 & _). destruct (K1 q (at_step q (m_call s q)) Hq) as [K|[K _]]; [now left|now right]. }
    destruct (store_ok t correct dflt n dims G Edge Ht Hdims Hpos (calls q (m_call s q)) (report q _ Hq Hc) (own_grid calls s q) Hg) as (g & Eg & R & Ee & H1 & H2).
    rewrite Eg in Es. injection Es as <-. set (s' := mkPm _ _ _ _).
    assert (Ec : m_call s' = m_call s) by reflexivity. assert (Epp : m_pos s' = put (m_pos s) q (S (m_pos s q))) by reflexivity. constructor.
    + eapply pos_advance; eauto. lia.
    + intros p a b Hn. destruct (i_chan _ _ Hi p a b Hn) as [I1 I2].
      assert (Q : forall x, passed s' x p = passed s x p).
      { intros x. unfold passed. rewrite Ec, Epp. destruct (Nat.eq_dec x q) as [->|N]; [|now rewrite put_other]. rewrite put_same, Ep. reflexivity. }
      rewrite !Q. now split.
    + apply (i_self _ _ Hi).
    + apply (knows_put (m_grids s) (heard s) (heard s') q q (m_call s q) g); auto; [apply (i_know _ _ Hi)|].
      intros x r j Hx Hr Hh. unfold heard in *. rewrite Ec, Epp in Hh. destruct (Nat.eq_dec x q) as [->|N]; [|rewrite put_other in Hh by exact N; now left].
      rewrite put_same, Ep in Hh. destruct Hh as [Hh|(-> & _ & [->|(p' & _ & Hp')])]; [left; now left|now right|lia].
    + destruct (progress_advance s s' q Ec Epp) as [P1 P2]. eapply (bound_step m s s' q); eauto.
  - destruct (nth_error pairs p) as [[a b]|] eqn:En.
    + (* somebody else's pair *)
      destruct (Nat.eqb_spec a q) as [|Na]; [discriminate|]. destruct (Nat.eqb_spec b q) as [|Nb]; [discriminate|]. cbn [orb] in Es. injection Es as <-. set (s' := mkPm _ _ _ _).
      assert (Ec : m_call s' = m_call s) by reflexivity. assert (Epp : m_pos s' = put (m_pos s) q (S (m_pos s q))) by reflexivity.
      destruct (pairs_nth size p a b En) as (_ & _ & _ & HpL'). constructor.
      * eapply pos_advance; eauto.
      * intros p' a' b' Hn. destruct (i_chan _ _ Hi p' a' b' Hn) as [I1 I2].
        assert (Q : forall x, x = a' \/ x = b' -> passed s' x p' = passed s x p').
        { intros x Hx. rewrite (passed_advance s s' q p p' Ec Epp Ep). destruct (Nat.eqb_spec x q) as [->|N]; cbn [andb]; [|reflexivity]. destruct (Nat.eqb_spec p' p) as [->|Np]; [|reflexivity].
          exfalso. rewrite En in Hn. destruct Hx; congruence. }
        rewrite !Q by auto. now split.
      * apply (i_self _ _ Hi).
      * eapply knows_weaken; [|apply (i_know _ _ Hi)]. intros x r j _ _. eapply heard_skip; eauto.
      * destruct (progress_advance s s' q Ec Epp) as [P1 P2]. eapply (bound_step m s s' q); eauto.
    + (* waitAll *)
      destruct (eager || _); [|discriminate]. injection Es as <-. apply nth_error_None in En. assert (p = length pairs) as -> by lia. set (s' := mkPm _ _ _ _).
      assert (Ec : forall x, m_call s' x = if (x =? q)%nat then S (m_call s q) else m_call s x) by reflexivity.
      assert (Epp : forall x, m_pos s' x = if (x =? q)%nat then O else m_pos s x) by reflexivity. constructor.
      * intros x Hx. destruct (i_pos _ _ Hi x Hx) as (I1 & I2 & I3). rewrite Ec, Epp. destruct (Nat.eqb_spec x q) as [->|N]; lia.
      * intros p a b Hn. destruct (i_chan _ _ Hi p a b Hn) as [I1 I2]. destruct (pairs_nth size p a b Hn) as (_ & _ & _ & Hpl).
        assert (Q : forall x, passed s' x p = passed s x p).
        { intros x. unfold passed. rewrite Ec, Epp. destruct (Nat.eqb_spec x q) as [->|N]; [|reflexivity]. rewrite Ep. destruct (Nat.ltb_spec (S p) 0), (Nat.ltb_spec (S p) (S (length pairs))); lia. }
        rewrite !Q. now split.
      * apply (i_self _ _ Hi).
      * eapply knows_weaken; [|apply (i_know _ _ Hi)]. intros x r j Hx Hr Hh. unfold heard in *. rewrite Ec, Epp in Hh. destruct (Nat.eqb_spec x q) as [->|N]; [|exact Hh].
        destruct Hh as [Hh|(_ & Hh & _)]; [|lia]. destruct (Nat.eq_dec j (m_call s q)) as [->|Nj]; [right|left; lia]. split; [reflexivity|]. split; [lia|].
        destruct (Nat.eq_dec r q) as [->|Nr]; [now left|right]. destruct (pairs_pos size r q Hr Hq Nr) as (p & Hp). exists p. split; [exact Hp|]. destruct (pairs_nth size p r q Hp) as (_ & _ & _ & Hpl). lia.
      * eapply (bound_step m s s' q); eauto.
        -- intros x _. unfold progress. rewrite Ec, Epp. destruct (Nat.eqb_spec x q) as [->|N]; [rewrite Ep; lia|lia].
        -- unfold progress. rewrite Ec, Epp, Nat.eqb_refl, Ep. lia.
Qed.

Lemma put2_same {X} (f : nat -> nat -> X) a b x : put2 f a b x a b = x.
Proof. unfold put2. now rewrite !Nat.eqb_refl. Qed.
Lemma put2_other {X} (f : nat -> nat -> X) a b x i j : (i, j) <> (a, b) -> put2 f a b x i j = f i j.
Proof. intros H. unfold put2. destruct (Nat.eqb_spec i a), (Nat.eqb_spec j b); cbn [andb]; try reflexivity. subst. congruence. Qed.

Lemma inv_post m s q s' : inv m s -> step s (Post q) = Next s' -> inv (S m) s'.
Proof.
  intros Hi Es. cbn [pm_step] in Es. destruct (at_pair size num s q) as [[a b]|] eqn:Ea; [|discriminate]. destruct (at_pair_spec m s q a b Hi Ea) as (p & Ep & Hc & Hn).
  destruct (Nat.eqb_spec a q) as [->|]; [|discriminate]. destruct (length (m_chan s q b) <? cap)%nat; [|discriminate]. cbn [andb] in Es.
  destruct (pairs_nth size p q b Hn) as (Hq & Hb & Nqb & Hpl). rewrite (out_ok m s q Hi Hq Hc) in Es by lia. injection Es as <-. set (s' := mkPm _ _ _ _).
  assert (Ec : m_call s' = m_call s) by reflexivity. assert (Epp : m_pos s' = put (m_pos s) q (S (m_pos s q))) by reflexivity. constructor.
  - eapply pos_advance; eauto.
  - intros p' a' b' Hn'. destruct (i_chan _ _ Hi p' a' b' Hn') as [I1 I2]. rewrite !(passed_advance s s' q p p' Ec Epp Ep). cbn [s' m_chan].
    destruct (Nat.eq_dec p' p) as [->|Np].
    + assert (a' = q /\ b' = b) as [-> ->] by (split; congruence). rewrite !Nat.eqb_refl. destruct (Nat.eqb_spec b q); [congruence|]. cbn [andb]. rewrite put2_same. split; [lia|].
      rewrite I2. replace (S (passed s q p) - passed s b p)%nat with ((passed s q p - passed s b p) + 1)%nat by lia. rewrite seq_app, map_app. f_equal. cbn [seq map]. do 3 f_equal.
      rewrite (passed_here s q p Ep) in *. lia.
    + assert (Nn : (a', b') <> (q, b)) by (intros Ex; apply Np; eapply pairs_unique; [exact Hn'|congruence]). rewrite put2_other by exact Nn.
      destruct (Nat.eqb_spec p' p); [congruence|]. rewrite !andb_false_r. now split.
  - intros x. cbn [s' m_chan]. rewrite put2_other by congruence. apply (i_self _ _ Hi).
  - eapply knows_weaken; [|apply (i_know _ _ Hi)]. intros x r j _ _. eapply heard_skip; eauto.
  - destruct (progress_advance s s' q Ec Epp) as [P1 P2]. eapply (bound_step m s s' q); eauto.
Qed.

Lemma fetched m s q a p x : inv m s -> m_pos s q = S p -> nth_error pairs p = Some (a, q) -> forall xs, m_chan s a q = x :: xs ->
  x = exp (calls a (m_call s q)) /\ (m_call s q < passed s a p)%nat /\ xs = map (fun j => exp (calls a j)) (seq (S (m_call s q)) (passed s a p - S (m_call s q))).
Proof.
  intros Hi Ep Hn xs Ex. destruct (i_chan _ _ Hi p a q Hn) as [I1 I2]. rewrite Ex, (passed_here s q p Ep) in *.
  destruct (passed s a p - m_call s q)%nat as [|k] eqn:Ek; [discriminate|]. cbn [seq map] in I2. injection I2 as -> ->. split; [reflexivity|]. split; [lia|].
  now replace (passed s a p - S (m_call s q))%nat with k by lia.
Qed.

Lemma inv_fetch m s q s' : inv m s -> step s (Fetch q) = Next s' -> inv (S m) s'.
Proof.
  intros Hi Es. cbn [pm_step] in Es. destruct (at_pair size num s q) as [[a b]|] eqn:Ea; [|discriminate]. destruct (at_pair_spec m s q a b Hi Ea) as (p & Ep & Hc & Hn).
  destruct (Nat.eqb_spec b q) as [->|]; [|discriminate]. destruct (m_chan s a q) as [|x xs] eqn:Ex; [discriminate|].
  destruct (fetched m s q a p x Hi Ep Hn xs Ex) as (-> & Hlt & ->). destruct (pairs_nth size p a q Hn) as (Ha & Hq & Naq & Hpl).
  destruct (in_ok m s q a Hi Hq Ha Hc) as (g & Eg & R & Ee & H1 & H2); [lia|]. rewrite Eg in Es. injection Es as <-. set (s' := mkPm _ _ _ _).
  assert (Ec : m_call s' = m_call s) by reflexivity. assert (Epp : m_pos s' = put (m_pos s) q (S (m_pos s q))) by reflexivity. constructor.
  - eapply pos_advance; eauto.
  - intros p' a' b' Hn'. destruct (i_chan _ _ Hi p' a' b' Hn') as [I1 I2]. rewrite !(passed_advance s s' q p p' Ec Epp Ep). cbn [s' m_chan].
    destruct (Nat.eq_dec p' p) as [->|Np].
    + assert (a' = a /\ b' = q) as [-> ->] by (split; congruence). rewrite !Nat.eqb_refl. destruct (Nat.eqb_spec a q); [congruence|]. cbn [andb]. rewrite put2_same, (passed_here s q p Ep). now split.
    + assert (Nn : (a', b') <> (a, q)) by (intros Ex'; apply Np; eapply pairs_unique; [exact Hn'|congruence]). rewrite put2_other by exact Nn.
      destruct (Nat.eqb_spec p' p); [congruence|]. rewrite !andb_false_r. now split.
  - intros x. cbn [s' m_chan]. rewrite put2_other by congruence. apply (i_self _ _ Hi).
  - apply (knows_put (m_grids s) (heard s) (heard s') q a (m_call s q) g); auto; [apply (i_know _ _ Hi)|]. intros x r j _ _. eapply heard_advance; eauto.
  - destruct (progress_advance s s' q Ec Epp) as [P1 P2]. eapply (bound_step m s s' q); eauto.
Qed.

Lemma inv_meet m s a b s' : inv m s -> step s (Meet a b) = Next s' -> inv (S m) s'.
Proof.
  intros Hi Es. cbn [pm_step] in Es. destruct (at_pair size num s a) as [[a1 b1]|] eqn:Ea; [|discriminate]. destruct (at_pair size num s b) as [[a2 b2]|] eqn:Eb; [|discriminate].
  destruct (m_chan s a b) as [|] eqn:Ech; [|discriminate]. destruct (Nat.eqb_spec a1 a) as [->|]; [|discriminate]. destruct (Nat.eqb_spec b1 b) as [->|]; [|discriminate].
  destruct (Nat.eqb_spec a2 a) as [->|]; [|discriminate]. destruct (Nat.eqb_spec b2 b) as [->|]; [|discriminate]. cbn [andb] in Es.
  destruct (at_pair_spec m s a a b Hi Ea) as (p & Ep & Hc & Hn). destruct (at_pair_spec m s b a b Hi Eb) as (p2 & Ep2 & Hc2 & Hn2). assert (p2 = p) as -> by (eapply pairs_unique; eauto).
  destruct (pairs_nth size p a b Hn) as (Ha & Hb & Nab & Hpl). rewrite (out_ok m s a Hi Ha Hc) in Es by lia. cbn [obind] in Es.
  assert (Eq : m_call s b = m_call s a).
  { destruct (i_chan _ _ Hi p a b Hn) as [I1 I2]. rewrite Ech, (passed_here s a p Ep), (passed_here s b p Ep2) in *. destruct (m_call s a - m_call s b)%nat eqn:Ek; [lia|discriminate]. }
  destruct (in_ok m s b a Hi Hb Ha Hc2) as (g & Eg & R & Ee & H1 & H2); [lia|]. rewrite <- Eq, Eg in Es. injection Es as <-. set (s' := mkPm _ _ _ _).
  set (s1 := mkPm (m_call s) (advance s a) (m_chan s) (m_grids s)).
  assert (Ec1 : m_call s1 = m_call s) by reflexivity. assert (Epp1 : m_pos s1 = put (m_pos s) a (S (m_pos s a))) by reflexivity.
  assert (Ec2 : m_call s' = m_call s1) by reflexivity. assert (Eb1 : m_pos s1 b = m_pos s b) by (rewrite Epp1; apply put_other; congruence).
  assert (Epp2 : m_pos s' = put (m_pos s1) b (S (m_pos s1 b))) by (rewrite Eb1; reflexivity). assert (Ep1 : m_pos s1 b = S p) by congruence. constructor.
  - intros x Hx. destruct (i_pos _ _ Hi x Hx) as (I1 & I2 & I3). rewrite Epp2, Ec2, Ec1. destruct (Nat.eq_dec x b) as [->|Nb]; [rewrite put_same, Ep1; lia|]. rewrite put_other by exact Nb.
    rewrite Epp1. destruct (Nat.eq_dec x a) as [->|Na]; [rewrite put_same, Ep; lia|]. rewrite put_other by exact Na. auto.
  - intros p' a' b' Hn'. destruct (i_chan _ _ Hi p' a' b' Hn') as [I1 I2]. rewrite !(passed_advance s1 s' b p p' Ec2 Epp2 Ep1), !(passed_advance s s1 a p p' Ec1 Epp1 Ep). cbn [s' m_chan].
    destruct (Nat.eq_dec p' p) as [->|Np].
    + assert (a' = a /\ b' = b) as [-> ->] by (split; congruence). rewrite !Nat.eqb_refl. destruct (Nat.eqb_spec a b); [congruence|]. destruct (Nat.eqb_spec b a); [congruence|]. cbn [andb].
      split; [lia|]. rewrite Ech. replace (S (passed s a p) - S (passed s b p))%nat with O; [reflexivity|]. rewrite (passed_here s a p Ep), (passed_here s b p Ep2). lia.
    + destruct (Nat.eqb_spec p' p); [congruence|]. rewrite !andb_false_r. now split.
  - apply (i_self _ _ Hi).
  - apply (knows_put (m_grids s) (heard s1) (heard s') b a (m_call s b) g); auto.
    + eapply knows_weaken; [|apply (i_know _ _ Hi)]. intros x r j _ _. eapply heard_skip; eauto.
    + intros x r j _ _. change (m_call s b) with (m_call s1 b). apply (heard_advance s1 s' b a p); auto.
  - destruct (progress_advance s s1 a Ec1 Epp1) as [P1 P2]. destruct (progress_advance s1 s' b Ec2 Epp2) as [P3 P4]. eapply (bound_step m s s' a); eauto.
    + intros x _. specialize (P1 x). specialize (P3 x). lia.
    + specialize (P3 a). lia.
Qed.

Lemma inv_next m s e s' : inv m s -> step s e = Next s' -> inv (S m) s'.
Proof. intros Hi. destruct e; [eapply inv_local|eapply inv_post|eapply inv_fetch|eapply inv_meet]; eauto. Qed.

Lemma inv_execution m s : pm_execution t n size num calls dflt cap eager m s -> inv m s.
Proof. induction 1; [apply inv_init|eapply inv_next; eauto]. Qed.

(** Nothing goes wrong *)
Lemma inv_crash m s e : inv m s -> step s e <> Crash.
Proof.
  intros Hi Es. destruct e as [q|q|q|a b]; cbn [pm_step] in Es.
  - destruct (Nat.ltb_spec q size) as [Hq|]; [|discriminate]. destruct (Nat.ltb_spec (m_call s q) num) as [Hc|]; [|discriminate]. cbn [andb negb] in Es. destruct (m_pos s q) as [|p].
    + assert (Hg : reach (own_grid calls s q) \/ b_dim (dg_box (own_grid calls s q)) <> dims).
      { destruct (i_know _ _ Hi) as (K1 & _). destruct (K1 q (at_step q (m_call s q)) Hq) as [K|[K _]]; [now left|now right]. }
      destruct (store_ok t correct dflt n dims G Edge Ht Hdims Hpos (calls q (m_call s q)) (report q _ Hq Hc) (own_grid calls s q) Hg) as (g & Eg & _). rewrite Eg in Es. discriminate.
    + destruct (nth_error pairs p) as [[a b]|]; [destruct (_ || _); discriminate|]. destruct (eager || _); discriminate.
  - destruct (at_pair size num s q) as [[a b]|] eqn:Ea; [|discriminate]. destruct (at_pair_spec m s q a b Hi Ea) as (p & Ep & Hc & Hn).
    destruct (Nat.eqb_spec a q) as [->|]; [|discriminate]. destruct (length (m_chan s q b) <? cap)%nat; [|discriminate]. cbn [andb] in Es.
    destruct (pairs_nth size p q b Hn) as (Hq & _). rewrite (out_ok m s q Hi Hq Hc) in Es by lia. discriminate.
  - destruct (at_pair size num s q) as [[a b]|] eqn:Ea; [|discriminate]. destruct (at_pair_spec m s q a b Hi Ea) as (p & Ep & Hc & Hn).
    destruct (Nat.eqb_spec b q) as [->|]; [|discriminate]. destruct (m_chan s a q) as [|x xs] eqn:Ex; [discriminate|].
    destruct (fetched m s q a p x Hi Ep Hn xs Ex) as (-> & _). destruct (pairs_nth size p a q Hn) as (Ha & Hq & _).
    destruct (in_ok m s q a Hi Hq Ha Hc) as (g & Eg & _); [lia|]. rewrite Eg in Es. discriminate.
  - destruct (at_pair size num s a) as [[a1 b1]|] eqn:Ea; [|discriminate]. destruct (at_pair size num s b) as [[a2 b2]|] eqn:Eb; [|discriminate].
    destruct (m_chan s a b) as [|] eqn:Ech; [|discriminate]. destruct (Nat.eqb_spec a1 a) as [->|]; [|discriminate]. destruct (Nat.eqb_spec b1 b) as [->|]; [|discriminate].
    destruct (Nat.eqb_spec a2 a) as [->|]; [|discriminate]. destruct (Nat.eqb_spec b2 b) as [->|]; [|discriminate]. cbn [andb] in Es.
    destruct (at_pair_spec m s a a b Hi Ea) as (p & Ep & Hc & Hn). destruct (at_pair_spec m s b a b Hi Eb) as (p2 & Ep2 & Hc2 & Hn2). assert (p2 = p) as -> by (eapply pairs_unique; eauto).
    destruct (pairs_nth size p a b Hn) as (Ha & Hb & _). rewrite (out_ok m s a Hi Ha Hc) in Es by lia. cbn [obind] in Es.
    assert (Eq : m_call s b = m_call s a).
    { destruct (i_chan _ _ Hi p a b Hn) as [I1 I2]. rewrite Ech, (passed_here s a p Ep), (passed_here s b p Ep2) in *. destruct (m_call s a - m_call s b)%nat eqn:Ek; [lia|discriminate]. }
    destruct (in_ok m s b a Hi Hb Ha Hc2) as (g & Eg & _); [lia|]. rewrite <- Eq, Eg in Es. discriminate.
Qed.

(** The node which lags behind can always go on, perhaps with its partner. *)
Lemma laggard (f : nat -> nat) k : (0 < k)%nat -> exists q, (q < k)%nat /\ forall x, (x < k)%nat -> (f q <= f x)%nat.
Proof.
  induction k as [|k IH]; intros Hk; [lia|]. destruct (Nat.eq_dec k 0) as [->|N]; [exists O; split; [lia|]; intros x Hx; replace x with O by lia; lia|].
  destruct IH as (q & Hq & Hm); [lia|]. destruct (le_lt_dec (f q) (f k)) as [Hle|Hlt].
  - exists q. split; [lia|]. intros x Hx. destruct (Nat.eq_dec x k) as [->|]; [exact Hle|apply Hm; lia].
  - exists k. split; [lia|]. intros x Hx. destruct (Nat.eq_dec x k) as [->|]; [lia|]. specialize (Hm x ltac:(lia)). lia.
Qed.

Lemma ahead m s q x p : inv m s -> (q < size)%nat -> (x < size)%nat -> (progress s q <= progress s x)%nat -> m_pos s q = S p ->
  (m_call s q < m_call s x)%nat \/ m_call s x = m_call s q /\ (S p <= m_pos s x)%nat.
Proof.
  intros Hi Hq Hx Hp Ep. destruct (i_pos _ _ Hi q Hq) as (_ & Q2 & _). destruct (i_pos _ _ Hi x Hx) as (_ & X2 & _). unfold progress in Hp. rewrite Ep in *.
  destruct (lt_eq_lt_dec (m_call s q) (m_call s x)) as [[|Eq]|Hlt]; [now left|right; rewrite Eq in *; lia|]. exfalso. nia.
Qed.

Lemma meet_next m s a b p : inv m s -> m_pos s a = S p -> m_pos s b = S p -> (m_call s a < num)%nat -> m_call s b = m_call s a -> nth_error pairs p = Some (a, b) ->
  exists s', step s (Meet a b) = Next s'.
Proof.
  intros Hi Epa Epb Hc Eq Hn. destruct (step s (Meet a b)) as [s'| |] eqn:Es; [now exists s'| |exfalso; now apply (inv_crash m s (Meet a b) Hi)].
  exfalso. cbn [pm_step] in Es. unfold at_pair in Es. rewrite Epa, Epb, Eq, Hn in Es. destruct (Nat.ltb_spec (m_call s a) num); [|lia].
  destruct (i_chan _ _ Hi p a b Hn) as [_ I2]. rewrite (passed_here s a p Epa), (passed_here s b p Epb), Eq, Nat.sub_diag in I2. cbn [seq map] in I2. rewrite I2, !Nat.eqb_refl in Es. cbn [andb] in Es.
  destruct (obind _ _); discriminate.
Qed.

Lemma inv_progress m s : inv m s -> (0 < size)%nat -> (forall q, (q < size)%nat -> m_call s q = num) \/ exists e s', step s e = Next s'.
Proof.
  intros Hi Hsz. destruct (laggard (progress s) size Hsz) as (q & Hq & Hmin). destruct (i_pos _ _ Hi q Hq) as (Q1 & Q2 & Q3).
  destruct (Nat.eq_dec (m_call s q) num) as [Eq|Nq].
  - left. intros x Hx. specialize (Hmin x Hx). destruct (i_pos _ _ Hi x Hx) as (X1 & X2 & X3). unfold progress in Hmin. rewrite Eq, (Q3 Eq) in Hmin.
    destruct (Nat.eq_dec (m_call s x) num) as [|N]; [assumption|]. exfalso. nia.
  - right. assert (Hc : (m_call s q < num)%nat) by lia.
    assert (Hloc : step s (Local q) <> Blocked -> exists e s', step s e = Next s').
    { intros Hb. exists (Local q). destruct (step s (Local q)) as [s'| |] eqn:Es; [now exists s'|congruence|]. exfalso. now apply (inv_crash m s (Local q) Hi). }
    destruct (m_pos s q) as [|p] eqn:Ep.
    + apply Hloc. cbn [pm_step]. destruct (Nat.ltb_spec q size); [|lia]. destruct (Nat.ltb_spec (m_call s q) num); [|lia]. cbn [andb negb]. rewrite Ep. destruct (store_own _ _ _ _); discriminate.
    + destruct (nth_error pairs p) as [[a b]|] eqn:Hn.
      * destruct (pairs_nth size p a b Hn) as (Ha & Hb & Nab & Hpl). destruct (Nat.eq_dec a q) as [->|Na]; [|destruct (Nat.eq_dec b q) as [->|Nb]].
        -- (* sender *)
           assert (m_call s b = m_call s q /\ m_pos s b = S p) as [E1 E2].
           { destruct (i_chan _ _ Hi p q b Hn) as [I1 _]. rewrite (passed_here s q p Ep) in I1. unfold passed in I1.
             destruct (ahead m s q b p Hi Hq Hb (Hmin b Hb) Ep) as [Hlt|[E1 E2]]; [destruct (S p <? m_pos s b)%nat; lia|]. split; [exact E1|]. destruct (Nat.ltb_spec (S p) (m_pos s b)); lia. }
           exists (Meet q b). apply (meet_next m s q b p); auto.
        -- (* receiver *)
           destruct (ahead m s q a p Hi Hq Ha (Hmin a Ha) Ep) as [Hlt|[E1 E2]]; [|destruct (Nat.eq_dec (m_pos s a) (S p)) as [E3|N3]].
           2:{ exists (Meet a q). apply (meet_next m s a q p); auto; lia. }
           all: assert (Hgt : (m_call s q < passed s a p)%nat) by (unfold passed; destruct (Nat.ltb_spec (S p) (m_pos s a)); lia).
           all: exists (Fetch q); destruct (step s (Fetch q)) as [s'| |] eqn:Es; [now exists s'| |exfalso; now apply (inv_crash m s (Fetch q) Hi)].
           all: exfalso; cbn [pm_step] in Es; unfold at_pair in Es; rewrite Ep, Hn in Es; destruct (Nat.ltb_spec (m_call s q) num); [|lia]; rewrite Nat.eqb_refl in Es.
           all: destruct (i_chan _ _ Hi p a q Hn) as [_ I2]; rewrite (passed_here s q p Ep) in I2; destruct (passed s a p - m_call s q)%nat as [|k] eqn:Ek; [lia|]; cbn [seq map] in I2; rewrite I2 in Es.
           all: destruct (incoming _ _ _ _); discriminate.
        -- (* neither *)
           apply Hloc. cbn [pm_step]. destruct (Nat.ltb_spec q size); [|lia]. destruct (Nat.ltb_spec (m_call s q) num); [|lia]. cbn [andb negb]. rewrite Ep, Hn.
           destruct (Nat.eqb_spec a q); [congruence|]. destruct (Nat.eqb_spec b q); [congruence|]. discriminate.
      * (* waitAll *)
        apply Hloc. cbn [pm_step]. destruct (Nat.ltb_spec q size); [|lia]. destruct (Nat.ltb_spec (m_call s q) num); [|lia]. cbn [andb negb]. rewrite Ep, Hn.
        apply nth_error_None in Hn. assert (Hf : forallb (fun r => match m_chan s q r with [] => true | _ => false end) (seq 0 size) = true).
        { apply forallb_forall. intros r Hr. apply in_seq in Hr. destruct (Nat.eq_dec r q) as [->|Nr]; [now rewrite (i_self _ _ Hi)|].
          destruct (pairs_pos size q r Hq ltac:(lia) ltac:(congruence)) as (p' & Hp'). destruct (i_chan _ _ Hi p' q r Hp') as [I1 I2]. destruct (pairs_nth size p' q r Hp') as (_ & _ & _ & Hpl).
          rewrite I2. replace (passed s q p' - passed s r p')%nat with O; [reflexivity|]. unfold passed. rewrite Ep.
          destruct (ahead m s q r p Hi Hq ltac:(lia) (Hmin r ltac:(lia)) Ep) as [Hlt|[E1 E2]]; destruct (Nat.ltb_spec (S p') (S p)), (Nat.ltb_spec (S p') (m_pos s r)); lia. }
        rewrite Hf, orb_true_r. discriminate.
Qed.

Lemma sum_limit (f : nat -> nat) b l : (forall x, In x l -> (f x <= b)%nat) -> (list_sum (map f l) <= length l * b)%nat.
Proof. induction l as [|x l IH]; intros H; [apply le_n|]. cbn [map length]. rewrite list_sum_cons'. pose proof (H x (or_introl eq_refl)). assert (list_sum (map f l) <= length l * b)%nat by (apply IH; intros; apply H; now right). lia. Qed.

Lemma inv_limit m s : inv m s -> (m <= size * (num * S (S (length pairs))))%nat.
Proof.
  intros Hi. pose proof (i_bound _ _ Hi) as Hb. assert (list_sum (map (progress s) (seq 0 size)) <= length (seq 0 size) * (num * S (S (length pairs))))%nat; [|rewrite seq_length in *; lia].
  apply sum_limit. intros x Hx. apply in_seq in Hx. destruct (i_pos _ _ Hi x ltac:(lia)) as (X1 & X2 & X3). unfold progress. destruct (Nat.eq_dec (m_call s x) num) as [Ex|N]; [rewrite Ex, (X3 Ex); lia|nia].
Qed.
End Protocol.
