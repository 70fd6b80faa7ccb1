(** Links on top of HPX deliver what was sent, whatever the order parcels
    arrive in. *)
From Coq Require Import Permutation.
From Verif Require Import Base ListFacts PatchModel PatchSpec PatchFacts LinkSpec HpxLinkModel HpxLinkSpec.

(** ** Lists *)

Lemma take_nth_perm {A} i (l : list A) x r : take_nth i l = Some (x, r) -> Permutation l (x :: r).
Proof.
  unfold take_nth. destruct (nth_error l i) as [y|] eqn:E; [|discriminate]. intros H. injection H as <- <-.
  revert i E. induction l as [|z l IH]; intros [|i] E; try discriminate; cbn in E.
  - injection E as <-. reflexivity.
  - rewrite (perm_swap z y (firstn i l ++ skipn (S i) l)) at 1. cbn [firstn skipn app]. constructor. apply (IH i E).
Qed.

Lemma take_nth_some {A} i (l : list A) : (i < length l)%nat -> exists x r, take_nth i l = Some (x, r) /\ length l = S (length r).
Proof.
  intros H. unfold take_nth. destruct (nth_error l i) as [y|] eqn:E; [|apply nth_error_None in E; lia].
  do 2 eexists. split; [reflexivity|]. rewrite app_length, firstn_length, skipn_length. lia.
Qed.

Section Inbox.
Context {V : Type}.
Implicit Types b : inbox V.

Lemma find_in b t v : inbox_find b t = Some v -> In (t, v) b.
Proof.
  unfold inbox_find. destruct (find _ b) as [[k w]|] eqn:E; [|discriminate]. cbn. intros H. injection H as <-.
  apply find_some in E. destruct E as [E1 E2]. cbn in E2. apply Nat.eqb_eq in E2. now subst.
Qed.

Lemma find_none b t : inbox_find b t = None -> ~ In t (map fst b).
Proof.
  unfold inbox_find. destruct (find _ b) as [m|] eqn:E; [discriminate|]. intros _ H. apply in_map_iff in H. destruct H as (m & <- & Hm).
  apply (find_none _ _ E) in Hm. now rewrite Nat.eqb_refl in Hm.
Qed.

Lemma find_mem b t v : NoDup (map fst b) -> In (t, v) b -> inbox_find b t = Some v.
Proof.
  intros Hn Hi. destruct (inbox_find b t) as [w|] eqn:E.
  - apply find_in in E. f_equal. revert Hn Hi E. induction b as [|[k x] b IH]; cbn; [tauto|]. intros Hn Hi E. inversion Hn; subst.
    destruct Hi as [Hi|Hi], E as [E|E].
    + congruence.
    + injection Hi as -> ->. exfalso. apply H1. apply in_map_iff. exists (t, w). auto.
    + injection E as -> ->. exfalso. apply H1. apply in_map_iff. exists (t, v). auto.
    + auto.
  - apply find_none in E. exfalso. apply E. apply in_map_iff. exists (t, v). auto.
Qed.

Lemma without_perm b t v : NoDup (map fst b) -> In (t, v) b ->
  Permutation b ((t, v) :: filter (fun m => negb (Nat.eqb (fst m) t)) b).
Proof.
  induction b as [|[k x] b IH]; cbn; [tauto|]. intros Hn Hi. inversion Hn; subst. destruct Hi as [Hi|Hi].
  - injection Hi as -> ->. rewrite Nat.eqb_refl. cbn [negb]. constructor.
    assert (E : filter (fun m : nat * V => negb (Nat.eqb (fst m) t)) b = b).
    { clear IH Hn H2. induction b as [|[k y] b IH]; cbn; auto. cbn in H1. destruct (Nat.eqb_spec k t); [subst; tauto|]. cbn [negb]. now rewrite IH by tauto. }
    rewrite E. reflexivity.
  - assert (k <> t). { intros ->. apply H1. apply in_map_iff. exists (t, v). auto. }
    destruct (Nat.eqb_spec k t); [lia|]. cbn [negb]. rewrite perm_swap. constructor. auto.
Qed.

(** Taking the value of a step out of a set of messages one for each step. *)
Lemma take_spec b t : NoDup (map fst b) ->
  match inbox_take b t with
  | Some (v, b') => Permutation b ((t, v) :: b')
  | None => ~ In t (map fst b)
  end.
Proof.
  intros Hn. unfold inbox_take. destruct (inbox_find b t) as [v|] eqn:E; cbn.
  - apply without_perm; auto. now apply find_in.
  - now apply find_none.
Qed.

Lemma store_spec b m : ~ In (fst m) (map fst b) -> inbox_store b m = Some (b ++ [m]).
Proof.
  intros H. unfold inbox_store. destruct (inbox_find b (fst m)) as [v|] eqn:E; [|reflexivity].
  apply find_in in E. exfalso. apply H. apply in_map_iff. exists (fst m, v). auto.
Qed.

(** A parcel arrives. *)
Lemma arrive_spec (net : list (nat * V)) b i m r : NoDup (map fst (net ++ b)) -> take_nth i net = Some (m, r) ->
  inbox_store b m = Some (b ++ [m]) /\ Permutation (net ++ b) (r ++ b ++ [m]).
Proof.
  intros Hn E. apply take_nth_perm in E. split.
  - apply store_spec. intros Hi. rewrite E in Hn. cbn in Hn. inversion Hn; subst. apply H1. rewrite map_app, in_app_iff. auto.
  - rewrite E. cbn [app]. rewrite (Permutation_app_comm b [m]). cbn [app]. apply Permutation_middle.
Qed.

End Inbox.

Section HLink.
Context {C : Type} (cs : list coord) (first stride : nat) (last : option nat) (Hstride : (1 <= stride)%nat).

Notation step k := (link_step_no first stride k).
Notation due k := (link_due first stride last k).

Definition msg (x : nat * grid C) : nat * list C := (fst x, save_region (snd x) cs).

(** [sent] has been sent, the first [b] of it received. *)
Record hrel (sent : list (nat * grid C)) (b : nat) (l : hlink C) : Prop := {
  hr_last : hl_last l = last;
  hr_stride : hl_stride l = stride;
  hr_req : hl_req l = if due (length sent) then [step (length sent)] else [];
  hr_sto : hl_sto l = if due b then [step b] else [];
  hr_le : (b <= length sent)%nat;
  hr_sent : forall k x, nth_error sent k = Some x -> fst x = step k /\ due k = true;
  hr_msgs : Permutation (hl_net l ++ hl_in l) (map msg (skipn b sent))
}.

Lemma hdue_next (l : hlink C) k : hl_last l = last -> hl_stride l = stride ->
  hlink_next l (step k) = if due (S k) then Some (step (S k)) else None.
Proof.
  intros E1 E2. unfold hlink_next, link_due, link_step_no. rewrite E1, E2.
  replace (first + k * stride + stride)%nat with (first + S k * stride)%nat by lia. destruct last; cbn [Nat.eqb orb]; auto.
Qed.

Lemma hnext_steps k : tl (set_add_opt (if due (S k) then Some (step (S k)) else None) [step k]) = if due (S k) then [step (S k)] else [].
Proof.
  destruct (due (S k)); cbn [set_add_opt]; [|reflexivity]. cbn [set_add].
  unfold link_step_no. destruct (Nat.ltb_spec (first + S k * stride) (first + k * stride)); [nia|].
  destruct (Nat.eqb_spec (first + S k * stride) (first + k * stride)); [nia|]. reflexivity.
Qed.

Lemma step_inj j k : step j = step k -> j = k.
Proof. unfold link_step_no. nia. Qed.

Lemma nth_error_skipn' {A} b : forall (l : list A) k, nth_error (skipn b l) k = nth_error l (b + k).
Proof. induction b as [|b IH]; intros [|x l] k; auto. cbn. now destruct k. cbn. apply IH. Qed.

Lemma keys_nodup sent b : (forall k x, nth_error sent k = Some x -> fst x = step k /\ due k = true) ->
  NoDup (map fst (map msg (skipn b sent))).
Proof.
  intros Hs. rewrite map_map. cbn [msg fst]. apply NoDup_nth_error. intros i j Hi Hij. rewrite map_length in Hi.
  rewrite !nth_error_map, !nth_error_skipn' in Hij.
  destruct (nth_error sent (b + i)) as [x|] eqn:Ex; [|apply nth_error_None in Ex; rewrite skipn_length in Hi; lia].
  destruct (nth_error sent (b + j)) as [y|] eqn:Ey; [|discriminate]. cbn in Hij. injection Hij as Hij.
  apply Hs in Ex. apply Hs in Ey. destruct Ex as [Ex _], Ey as [Ey _]. rewrite Ex, Ey in Hij. apply step_inj in Hij. lia.
Qed.

Lemma rel_nodup sent b l : hrel sent b l -> NoDup (map fst (hl_net l ++ hl_in l)).
Proof. intros R. rewrite (hr_msgs _ _ _ R). apply keys_nodup. apply R. Qed.

Lemma charge_hrel : hrel [] 0 (hlink_charge first last stride).
Proof.
  assert (E : step 0 = first) by (unfold link_step_no; lia). split; cbn; rewrite ?E; auto. intros [|k] x; discriminate.
Qed.

Lemma skipn_snoc {A} b (l : list A) x : (b <= length l)%nat -> skipn b (l ++ [x]) = skipn b l ++ [x].
Proof. intros H. rewrite skipn_app. replace (b - length l)%nat with O by lia. reflexivity. Qed.

Lemma put_spec sent b l g t : hrel sent b l ->
  match hlink_put cs l g t with
  | LDone l' =>
      check_put (hl_req l) t <> PutAccept /\ l' = l /\ ((t < step (length sent))%nat \/ due (length sent) = false) \/
      check_put (hl_req l) t = PutAccept /\ hrel (sent ++ [(t, g)]) b l' /\ t = step (length sent) /\ due (length sent) = true /\
      hl_in l' = hl_in l /\ hl_net l' = hl_net l ++ [(t, save_region g cs)] /\ hl_sto l' = hl_sto l
  | LWait => False
  | LThrow => due (length sent) = true /\ (step (length sent) < t)%nat
  end.
Proof.
  intros R. unfold hlink_put. rewrite (hr_req _ _ _ R). destruct (due (length sent)) eqn:Hd; cbn [check_put].
  2:{ left. split; [discriminate|auto]. }
  destruct (Nat.ltb_spec t (step (length sent))); [left; split; [discriminate|auto]|].
  destruct (Nat.ltb_spec (step (length sent)) t); [auto|]. right. assert (t = step (length sent)) by lia. cbn [hd hl_in hl_net hl_sto].
  split; [auto|]. split; [|auto 6]. rewrite (hdue_next l (length sent) (hr_last _ _ _ R) (hr_stride _ _ _ R)), hnext_steps.
  pose proof (hr_le _ _ _ R).
  split; cbn [hl_last hl_stride hl_req hl_net hl_in hl_sto]; try apply R.
  - rewrite app_length. cbn [length]. now replace (length sent + 1)%nat with (S (length sent)) by lia.
  - rewrite app_length. lia.
  - intros k x Hk. destruct (Nat.lt_ge_cases k (length sent)) as [Hl|Hl]; [rewrite nth_error_app1 in Hk by auto; now apply (hr_sent _ _ _ R)|].
    rewrite nth_error_app2 in Hk by auto. destruct (k - length sent)%nat as [|j] eqn:Ej; cbn in Hk; [|destruct j; discriminate].
    injection Hk as <-. assert (k = length sent) by lia. subst k. auto.
  - rewrite skipn_snoc by auto. rewrite map_app. cbn [map]. unfold msg at 2. cbn [fst snd].
    rewrite <- (hr_msgs _ _ _ R), <- !app_assoc. apply Permutation_app_head. apply Permutation_app_comm.
Qed.

Lemma arrive_rel sent b l i : hrel sent b l ->
  match hlink_arrive l i with
  | LDone l' => hrel sent b l' /\ hl_sto l' = hl_sto l /\ length (hl_net l) = S (length (hl_net l')) /\
                (forall m, In m (hl_in l) -> In m (hl_in l'))
  | LWait => (length (hl_net l) <= i)%nat
  | LThrow => False
  end.
Proof.
  intros R. unfold hlink_arrive. destruct (take_nth i (hl_net l)) as [[m net]|] eqn:E.
  - destruct (arrive_spec _ _ _ _ _ (rel_nodup _ _ _ R) E) as [E1 E2]. rewrite E1.
    split; [|split; [auto|split]].
    + split; cbn [hl_last hl_stride hl_req hl_net hl_in hl_sto]; try apply R. rewrite <- E2. apply R.
    + cbn. apply take_nth_perm in E. apply Permutation_length in E. exact E.
    + intros x Hx. cbn. apply in_app_iff. auto.
  - destruct (Nat.lt_ge_cases i (length (hl_net l))) as [Hl|Hl]; [|auto].
    destruct (take_nth_some i _ Hl) as (x & r & E1 & _). congruence.
Qed.

Lemma skipn_cons {A} b (l : list A) x : nth_error l b = Some x -> skipn b l = x :: skipn (S b) l.
Proof. revert b. induction l as [|y l IH]; intros [|b] H; try discriminate; cbn in H; [now injection H as ->|]. cbn [skipn]. now apply IH. Qed.

Lemma continue_spec sent b l g : hrel sent b l -> due b = true ->
  match hlink_continue cs l g (step b) with
  | LDone (l', g') =>
      exists src, nth_error sent b = Some (step b, src) /\ hrel sent (S b) l' /\ hl_net l' = hl_net l /\
        (forall c, In c cs -> g' c = src c) /\ (forall c, ~ In c cs -> g' c = g c)
  | LWait => length sent = b \/ exists m, In m (hl_net l) /\ fst m = step b
  | LThrow => False
  end.
Proof.
  intros R Hd. unfold hlink_continue. pose proof (rel_nodup _ _ _ R) as Hn. rewrite map_app in Hn.
  assert (Hn' : NoDup (map fst (hl_in l))).
  { revert Hn. generalize (map fst (hl_net l)) (map fst (hl_in l)). clear. induction l as [|x l IH]; cbn; auto. intros l0 H. inversion H; auto. }
  pose proof (take_spec (hl_in l) (step b) Hn') as Ht. destruct (inbox_take (hl_in l) (step b)) as [[v bx]|].
  - assert (Hi : In (step b, v) (map msg (skipn b sent))).
    { rewrite <- (hr_msgs _ _ _ R), in_app_iff. right. rewrite Ht. now left. }
    apply in_map_iff in Hi. destruct Hi as (x & Ex & Hx). apply In_nth_error in Hx. destruct Hx as [k Hk]. rewrite nth_error_skipn' in Hk.
    destruct (hr_sent _ _ _ R _ _ Hk) as [E1 _]. unfold msg in Ex. injection Ex as E2 E3. rewrite E1 in E2. apply step_inj in E2.
    assert (k = O) by lia. subst k. rewrite Nat.add_0_r in Hk. clear E2.
    destruct (load_save cs g (snd x)) as (g' & Eg & H1 & H2). rewrite <- E3, Eg.
    rewrite (hr_sto _ _ _ R), Hd. cbn [hd]. rewrite (hdue_next l b (hr_last _ _ _ R) (hr_stride _ _ _ R)), hnext_steps.
    exists (snd x). split; [rewrite Hk, Nat.add_0_r in *; now destruct x as [t0 g0]; cbn in E1; subst|]. split; [|auto].
    assert (b < length sent)%nat by (apply nth_error_Some; congruence).
    split; cbn [hl_last hl_stride hl_req hl_net hl_in hl_sto]; try apply R; [reflexivity|lia|].
    apply (Permutation_cons_inv (a := (step b, v))). rewrite Permutation_middle, <- Ht, (hr_msgs _ _ _ R).
    rewrite (skipn_cons b sent x Hk). cbn [map]. unfold msg at 1. rewrite E3, E1, Nat.add_0_r. reflexivity.
  - destruct (Nat.eq_dec (length sent) b) as [|Hne]; [auto|right]. pose proof (hr_le _ _ _ R).
    destruct (nth_error sent b) as [x|] eqn:Ex; [|apply nth_error_None in Ex; lia]. destruct (hr_sent _ _ _ R _ _ Ex) as [E1 _].
    assert (Hi : In (msg x) (hl_net l ++ hl_in l)).
    { rewrite (hr_msgs _ _ _ R). apply in_map. rewrite (skipn_cons _ _ _ Ex). now left. }
    apply in_app_iff in Hi. destruct Hi as [Hi|Hi]; [exists (msg x); auto|]. exfalso. apply Ht. rewrite <- E1. apply in_map_iff. exists (msg x). auto.
Qed.

Lemma get_spec sent b l g t : hrel sent b l ->
  match hlink_get cs l g t with
  | LDone (l', g') =>
      check_get (hl_sto l) t = false /\ l' = l /\ g' = g /\ ((t < step b)%nat \/ due b = false) \/
      check_get (hl_sto l) t = true /\ t = step b /\ due b = true /\
      exists src, nth_error sent b = Some (step b, src) /\ hrel sent (S b) l' /\ hl_net l' = hl_net l /\
        (forall c, In c cs -> g' c = src c) /\ (forall c, ~ In c cs -> g' c = g c)
  | LWait => t = step b /\ due b = true /\ (length sent = b \/ exists m, In m (hl_net l) /\ fst m = step b)
  | LThrow => due b = true /\ (step b < t)%nat
  end.
Proof.
  intros R. unfold hlink_get, hlink_async. rewrite (hr_sto _ _ _ R). destruct (due b) eqn:Hd; cbn [check_get].
  2:{ left. auto. }
  destruct (Nat.ltb_spec t (step b)).
  { left. destruct (Nat.eqb_spec (step b) t); [lia|auto]. }
  destruct (Nat.eqb_spec (step b) t) as [<-|Hne]; [|split; [auto|lia]].
  pose proof (continue_spec sent b l g R Hd) as HC. destruct (hlink_continue cs l g (step b)) as [[l' g']| |]; auto. tauto.
Qed.

End HLink.
