(** Facts on [expandWithAdjacency]. *)
From Verif Require Import Base ListFacts RegionSpec RegionModel RegionRep RegionIterModel RegionStreaks
  CoordModel CoordSpec RegionOpsModel RegionOps CoordFacts RegionHist.

Section Adj.
Variable adj : Z -> list Z.

Lemma adj_inner_valid ret ns : forall add, rvalid 0 ret -> rvalid 0 add ->
  exists add', fold_left (fun acc n => obind acc (fun add =>
        match reg_count ret [n] with
        | Some false => Some (reg_insert_coord add [n])
        | Some true => Some add
        | None => None
        end)) ns (Some add) = Some add' /\ rvalid 0 add' /\
    forall x, rin add' [x] <-> rin add [x] \/ (In x ns /\ ~ rin ret [x]).
Proof.
  induction ns as [|n ns IH]; intros add Hr Ha; cbn [fold_left obind].
  - exists add. split; auto. split; auto. intros x. cbn. tauto.
  - destruct (count_total 0 ret [n] Hr eq_refl) as [E|E]; rewrite E.
    + destruct (IH add Hr Ha) as (add' & E' & V & H). exists add'. split; auto. split; auto.
      intros x. rewrite H. cbn. split; [tauto|]. intros [H1|[[->|H1] H2]]; auto. contradiction.
    + destruct (insert_valid 0 add (coord_streak [n]) Ha eq_refl) as [V1 H1].
      destruct (IH (reg_insert_coord add [n]) Hr V1) as (add' & E' & V & H).
      exists add'. split; auto. split; auto. intros x. rewrite H. unfold reg_insert_coord. rewrite H1 by auto.
      rewrite (coord_streak_in 0) by auto. cbn [In].
      assert (Hnr : ~ rin ret [n]) by (unfold rin; congruence). split.
      * intros [[H2|[= ->]]|[H2 H3]]; auto.
      * intros [H2|[[->|H2] H3]]; auto.
Qed.

Lemma adj_outer_valid ret xs : forall add, rvalid 0 ret -> rvalid 0 add ->
  exists add', fold_left (fun acc x => obind acc (fun add =>
      fold_left (fun acc n => obind acc (fun add =>
        match reg_count ret [n] with
        | Some false => Some (reg_insert_coord add [n])
        | Some true => Some add
        | None => None
        end)) (adj x) (Some add))) xs (Some add) = Some add' /\ rvalid 0 add' /\
    forall y, rin add' [y] <-> rin add [y] \/ ((exists x, In x xs /\ In y (adj x)) /\ ~ rin ret [y]).
Proof.
  induction xs as [|x xs IH]; intros add Hr Ha; cbn [fold_left obind].
  - exists add. split; auto. split; auto. intros y. split; auto. intros [H|[(x & [] & _) _]]; auto.
  - destruct (adj_inner_valid ret (adj x) add Hr Ha) as (a1 & E1 & V1 & H1). rewrite E1.
    destruct (IH a1 Hr V1) as (a2 & E2 & V2 & H2). exists a2. split; auto. split; auto.
    intros y. rewrite H2, H1. split.
    + intros [[H|[H H']]|[(x' & H & H') H'']]; auto; right; (split; [|auto]); [exists x|exists x']; split; auto; [now left|now right].
    + intros [H|[(x' & [->|H] & H') H'']]; auto. right. split; eauto.
Qed.

Lemma adj_pass_valid ret newc : rvalid 0 ret -> rvalid 0 newc ->
  exists add, adj_pass adj ret newc = Some add /\ rvalid 0 add /\
    forall y, rin add [y] <-> (exists x, rin newc [x] /\ In y (adj x)) /\ ~ rin ret [y].
Proof.
  intros Hr Hn. unfold adj_pass. destruct (streaks_valid 0 newc Hn) as (l & Hok & Hin & El & _ & _).
  rewrite El. cbn [obind]. rewrite (valid_length 0 ret Hr).
  destruct (adj_outer_valid ret (flat_map (fun s => zrange (s_x s) (s_e s)) l) (reg_empty 1) Hr (rvalid_empty 0)) as (add & E & V & H).
  unfold zrange in E. rewrite E. exists add. split; auto. split; auto. intros y. rewrite H.
  pose proof (rin_empty 0 [y] eq_refl) as Hne.
  assert (Hx : forall x, In x (flat_map (fun s => zrange (s_x s) (s_e s)) l) <-> rin newc [x]).
  { intros x. rewrite Hin by auto. rewrite in_flat_map. unfold in_streaks. split; intros (s & Hs & Hx); exists s; (split; [auto|]).
    - apply zrange_in in Hx. exists x. split; auto.
      destruct Hok as [_ Hf]. rewrite Forall_forall in Hf. destruct (Hf s Hs) as [Hl _].
      destruct (s_pre s); [reflexivity|discriminate].
    - apply zrange_in. destruct Hx as (x' & E' & Hx'). destruct Hok as [_ Hf]. rewrite Forall_forall in Hf.
      destruct (Hf s Hs) as [Hl _]. destruct (s_pre s); [|discriminate]. cbn in E'. injection E' as ->. auto. }
  split.
  - intros [H1|[(x & H1 & H2) H3]]; [contradiction|]. split; auto. exists x. split; auto. now apply Hx.
  - intros [(x & H1 & H2) H3]. right. split; auto. exists x. split; auto. now apply Hx.
Qed.

(** [y] can be reached from [P] in exactly [k] steps. *)
Inductive steps (P : Z -> Prop) : nat -> Z -> Prop :=
| steps_0 x : P x -> steps P 0 x
| steps_S k x y : steps P k x -> In y (adj x) -> steps P (S k) y.

Lemma adj_passes_valid P : forall n k ret newc, rvalid 0 ret -> rvalid 0 newc ->
  (forall x, rin ret [x] <-> exists j, (j <= k)%nat /\ steps P j x) ->
  (forall x, rin newc [x] -> rin ret [x]) ->
  (forall x y, rin ret [x] -> ~ rin newc [x] -> In y (adj x) -> rin ret [y]) ->
  exists r', adj_passes n adj ret newc = Some r' /\ rvalid 0 r' /\
    forall x, rin r' [x] <-> exists j, (j <= k + n)%nat /\ steps P j x.
Proof.
  induction n as [|n IH]; intros k ret newc Hr Hn Hret Hsub Hcl; cbn [adj_passes].
  - exists ret. split; auto. split; auto. intros x. rewrite Hret. now rewrite Nat.add_0_r.
  - destruct (adj_pass_valid ret newc Hr Hn) as (add & E & V & H). rewrite E. cbn [obind].
    destruct (reg_union_assign_valid 0 ret add Hr V) as (ret' & E' & V' & H'). rewrite E'. cbn [obind].
    assert (Hret' : forall x, rin ret' [x] <-> exists j, (j <= S k)%nat /\ steps P j x).
    { intros x. rewrite H', H by auto. split.
      - intros [H1|[(x0 & H1 & H2) _]].
        + apply Hret in H1. destruct H1 as (j & Hj & H1). exists j. split; auto.
        + apply Hsub, Hret in H1. destruct H1 as (j & Hj & H1). exists (S j). split; [lia|]. econstructor; eauto.
      - intros (j & Hj & Hs). destruct (count_total 0 ret [x] Hr eq_refl) as [Ec|Ec]; [left; auto|].
        inversion Hs as [x0 HP|j' x0 y Hs' Hy]; subst.
        + left. apply Hret. exists O. split; [lia|]. now constructor.
        + assert (Hx0 : rin ret [x0]) by (apply Hret; exists j'; split; auto; lia).
          destruct (count_total 0 newc [x0] Hn eq_refl) as [En|En].
          * right. split; [exists x0; auto|]. unfold rin. congruence.
          * left. eapply Hcl; eauto. unfold rin. congruence. }
    replace (k + S n)%nat with (S k + n)%nat by lia. apply IH; auto.
    + intros x Hx. apply H'; auto.
    + intros x y Hx Hnx Hy. apply H'; auto. apply H' in Hx; auto. destruct Hx as [Hx|Hx]; [|contradiction].
      destruct (count_total 0 ret [y] Hr eq_refl) as [Ec|Ec]; [left; auto|].
      destruct (count_total 0 newc [x] Hn eq_refl) as [En|En].
      * right. apply H. split; eauto. unfold rin. congruence.
      * left. eapply Hcl; eauto. unfold rin. congruence.
Qed.

Lemma expand_adjacency_valid r w : rvalid 0 r ->
  exists r', reg_expand_adjacency r w adj = Some r' /\ rvalid 0 r' /\
    forall x, rin r' [x] <-> exists j, (j <= w)%nat /\ steps (fun x0 => rin r [x0]) j x.
Proof.
  intros Hr. unfold reg_expand_adjacency. apply (adj_passes_valid _ w 0 r r); auto.
  - intros x. split.
    + intros H. exists O. split; auto. now constructor.
    + intros (j & Hj & H). replace j with O in H by lia. now inversion H.
  - intros x y H1 H2. contradiction.
Qed.
End Adj.
