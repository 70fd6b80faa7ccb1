(** Patch buffers implement queues. *)
From Verif Require Import Base ListFacts PatchModel PatchSpec.
From Coq Require Import Sorted.

Lemma coord_eqb_spec a b : reflect (a = b) (coord_eqb a b).
Proof. unfold coord_eqb. destruct (list_eq_dec Z.eq_dec a b); constructor; auto. Qed.

Lemma load_spec {C} cs : forall (g : grid C) vs, (length cs <= length vs)%nat ->
  exists g', load_region g cs vs = Some g' /\ (forall c, ~ In c cs -> g' c = g c).
Proof.
  induction cs as [|c cs IH]; intros g [|v vs] H; cbn in *; try lia; eauto.
  destruct (IH (gset g c v) vs ltac:(lia)) as (g' & E & H'). exists g'. split; auto.
  intros c' Hn. rewrite H' by tauto. unfold gset. destruct (coord_eqb_spec c c'); auto. subst. tauto.
Qed.

(** Loading what was saved from [src] copies the cells. *)
Lemma load_save {C} cs : forall (g src : grid C), exists g', load_region g cs (save_region src cs) = Some g' /\
  (forall c, In c cs -> g' c = src c) /\ (forall c, ~ In c cs -> g' c = g c).
Proof.
  unfold save_region. induction cs as [|c cs IH]; intros g src; cbn.
  - exists g. split; auto. split; tauto.
  - destruct (IH (gset g c (src c)) src) as (g' & E & H1 & H2). exists g'. split; auto. split.
    + intros c' [<-|H]; auto. destruct (in_dec (list_eq_dec Z.eq_dec) c cs) as [Hi|Hi]; [now apply H1|].
      rewrite H2 by auto. unfold gset. destruct (coord_eqb_spec c c); tauto.
    + intros c' Hn. rewrite H2 by tauto. unfold gset. destruct (coord_eqb_spec c c'); auto. subst. tauto.
Qed.

Definition ascending := StronglySorted lt.

Lemma set_add_In t s x : In x (set_add t s) <-> x = t \/ In x s.
Proof.
  induction s as [|y s IH]; cbn [set_add In]; [split; intros [H|H]; auto|].
  destruct (Nat.ltb_spec t y); [cbn; split; intros [H1|H1]; auto|].
  destruct (Nat.eqb_spec t y); [subst; cbn; split; [auto|intros [H1|H1]; auto]|].
  cbn. rewrite IH. split; [intros [H1|[H1|H1]]; auto|intros [H1|[H1|H1]]; auto].
Qed.

Lemma set_add_asc t s : ascending s -> ascending (set_add t s).
Proof.
  induction 1 as [|y s Hs IH Hy]; cbn [set_add]; [repeat constructor|].
  destruct (Nat.ltb_spec t y).
  - constructor; [constructor; auto|]. constructor; auto. eapply Forall_impl; [|exact Hy]. cbn. lia.
  - destruct (Nat.eqb_spec t y); [constructor; auto|]. constructor; auto.
    apply Forall_forall. intros x Hx. apply set_add_In in Hx. rewrite Forall_forall in Hy. destruct Hx as [->|Hx]; [lia|auto].
Qed.

Lemma set_add_last t s : Forall (fun x => x < t)%nat s -> set_add t s = s ++ [t].
Proof.
  induction 1 as [|y s Hy Hs IH]; cbn [set_add app]; auto. destruct (Nat.ltb_spec t y); [lia|]. destruct (Nat.eqb_spec t y); [lia|]. now rewrite IH.
Qed.

(** Requests as seen by implementation and specification. *)
Definition same_steps (req pending : list nat) : Prop := ascending req /\ forall x, In x req <-> In x pending.

Lemma check_put_spec req pending t : same_steps req pending ->
  match check_put req t with
  | PutThrow => existsb (fun x => Nat.ltb x t) pending = true
  | PutAccept => existsb (fun x => Nat.ltb x t) pending = false /\ existsb (Nat.eqb t) pending = true /\ hd O req = t /\
      same_steps (tl req) (filter (fun x => negb (Nat.eqb t x)) pending)
  | PutIgnore => existsb (fun x => Nat.ltb x t) pending = false /\ existsb (Nat.eqb t) pending = false
  end.
Proof.
  intros [Ha Hs].
  assert (Hb : forall p, existsb p pending = existsb p req).
  { intros p. apply Bool.eq_iff_eq_true. rewrite !existsb_exists. split; intros (x & H1 & H2); exists x; split; auto; now apply Hs. }
  rewrite !Hb. destruct req as [|m req]; cbn [check_put]; [auto|].
  inversion Ha as [|? ? Ha' Hm]; subst. rewrite Forall_forall in Hm.
  destruct (Nat.ltb_spec t m).
  - assert (Hx : forall x, In x (m :: req) -> (t < x)%nat) by (intros x [<-|Hx]; [auto|specialize (Hm x Hx); lia]).
    split; apply Bool.not_true_iff_false; rewrite existsb_exists; intros (x & H1 & H2); specialize (Hx x H1); lia.
  - destruct (Nat.ltb_spec m t).
    + cbn [existsb]. now rewrite (proj2 (Nat.ltb_lt m t)).
    + assert (m = t) by lia. subst m. split; [|split; [|split]].
      * apply Bool.not_true_iff_false. rewrite existsb_exists. intros (x & [<-|Hx] & H2); [lia|]. specialize (Hm x Hx). lia.
      * cbn. now rewrite Nat.eqb_refl.
      * reflexivity.
      * split; [exact Ha'|]. cbn [tl]. intros x. rewrite filter_In, <- Hs. cbn [In]. split.
        -- intros Hx. specialize (Hm x Hx). split; [auto|]. destruct (Nat.eqb_spec t x); [lia|reflexivity].
        -- intros ([<-|Hx] & Hn); [rewrite Nat.eqb_refl in Hn; discriminate|auto].
Qed.

(** The queue holds steps in ascending order, all before the pending ones. *)
Definition queue_ok {C} (q : queue C) : Prop :=
  ascending (map fst (q_items q)) /\
  forall x t, In x (q_items q) -> In t (q_pending q) -> (fst x < t)%nat.

Lemma asc_app l t : ascending l -> Forall (fun x => x < t)%nat l -> ascending (l ++ [t]).
Proof.
  induction 1 as [|x l Hl IH Hx]; intros H; cbn; [repeat constructor|]. inversion H; subst. constructor; [now apply IH|].
  apply Forall_app. split; auto.
Qed.

Lemma queue_ok_step {C} cap cs (q : queue C) o : queue_ok q ->
  (forall t, o = OPush t -> Forall (fun x => fst x < t)%nat (q_items q)) -> queue_ok (fst (queue_step cap cs q o)).
Proof.
  intros Hq Ht. destruct Hq as [H1 H2]; assert (Hq : queue_ok q) by (split; auto). destruct o as [t|g t|g t rm]; cbn [queue_step].
  - split; auto. cbn. specialize (Ht t eq_refl). rewrite Forall_forall in Ht. intros x t' Hx [<-|H]; auto.
  - destruct (existsb (fun x => Nat.ltb x t) (q_pending q)) eqn:E1; [split; auto|].
    destruct (existsb (Nat.eqb t) (q_pending q)) eqn:E2; [|split; auto].
    destruct (queue_full cap q); [split; auto|]. cbn. apply existsb_exists in E2. destruct E2 as (t' & Hin & E2). apply Nat.eqb_eq in E2. subst t'.
    split; cbn [q_items q_pending].
    + rewrite map_app. cbn. apply asc_app; auto. apply Forall_map, Forall_forall. intros x Hx. apply H2; auto.
    + intros x t' Hx Ht'. apply filter_In in Ht'. destruct Ht' as [Ht1 Ht2]. apply in_app_or in Hx. destruct Hx as [Hx|[<-|[]]]; [auto|].
      cbn. apply Bool.not_true_iff_false in E1. rewrite existsb_exists in E1.
      destruct (Nat.eqb_spec t t'); [discriminate|]. destruct (Nat.lt_ge_cases t' t); [|lia]. exfalso. apply E1. exists t'. split; auto. lia.
  - destruct (q_items q) as [|(t', p) items] eqn:E; [exact Hq|].
    destruct (Nat.eqb t t'); [|exact Hq]. destruct rm; [|exact Hq].
    split; cbn [fst q_items q_pending]; [inversion H1; auto|]. intros x t0 Hx. apply H2. now right.
Qed.

(** ** PatchBuffer *)

Definition pbuf_rel {C} (b : pbuf C) (q : queue C) : Prop :=
  same_steps (pb_req b) (q_pending q) /\ pb_sto b = map fst (q_items q) /\ pb_regions b = map snd (q_items q).

Lemma set_add_items {C} (q : queue C) t : queue_ok q -> In t (q_pending q) ->
  set_add t (map fst (q_items q)) = map fst (q_items q) ++ [t].
Proof. intros [_ H] Hin. apply set_add_last, Forall_map, Forall_forall. auto. Qed.

Lemma same_steps_push req pending t : same_steps req pending -> same_steps (set_add t req) (t :: pending).
Proof.
  intros [H1 H2]. split; [now apply set_add_asc|]. intros x. rewrite set_add_In. cbn. rewrite H2. split; intros [Hx|Hx]; auto.
Qed.

Lemma pbuf_sim {C} cs (b : pbuf C) q o : pbuf_rel b q -> queue_ok q ->
  let '(b', r) := pbuf_step cs b o in let '(q', r') := queue_step None cs q o in pbuf_rel b' q' /\ r = r'.
Proof.
  intros (H1 & H2 & H3) Hq. destruct o as [t|g t|g t rm]; cbn [pbuf_step queue_step].
  - split; auto. split; auto. now apply same_steps_push.
  - pose proof (check_put_spec _ _ t H1) as Hc. destruct (check_put (pb_req b) t).
    + destruct Hc as [-> ->]. split; auto. split; auto.
    + destruct Hc as (-> & E2 & E3 & H4). rewrite E2. cbn [queue_full]. split; auto.
      apply existsb_exists in E2. destruct E2 as (t' & Hin & E2). apply Nat.eqb_eq in E2. subst t'.
      split; [|split]; cbn [pb_req pb_sto pb_regions q_pending q_items].
      * exact H4.
      * rewrite E3, H2, map_app. cbn. now apply set_add_items.
      * rewrite H3, map_app. reflexivity.
    + rewrite Hc. split; auto. split; auto.
  - rewrite H2, H3. destruct (q_items q) as [|(t', p) items] eqn:E; cbn [map check_get fst snd].
    + split; auto. split; auto. now rewrite E.
    + rewrite (Nat.eqb_sym t' t). destruct (Nat.eqb t t'); [|split; auto; split; auto; now rewrite E].
      split; auto. destruct rm; [|split; auto; now rewrite E]. split; auto.
Qed.

Lemma pbuf_run {C} cs ops : forall (b : pbuf C) q, pbuf_rel b q -> queue_ok q -> timely None cs q ops ->
  snd (brun (pbuf_step cs) b ops) = snd (brun (queue_step None cs) q ops) /\
  pbuf_rel (fst (brun (pbuf_step cs) b ops)) (fst (brun (queue_step None cs) q ops)).
Proof.
  induction ops as [|o ops IH]; intros b q Hr Hq Ht; cbn [brun]; [auto|]. destruct Ht as [Ht1 Ht2].
  pose proof (pbuf_sim cs b q o Hr Hq) as Hs. pose proof (queue_ok_step None cs q o Hq Ht1) as Hq'.
  destruct (pbuf_step cs b o) as [b1 r]. destruct (queue_step None cs q o) as [q1 r']. destruct Hs as [Hs ->]. cbn [fst] in *.
  destruct (IH b1 q1 Hs Hq' Ht2) as [E1 E2].
  destruct (brun (pbuf_step cs) b1 ops), (brun (queue_step None cs) q1 ops). cbn [fst snd] in *. split; [now rewrite E1|auto].
Qed.

(** ** PatchBufferFixed *)

Lemma set_nth_length {A} (l : list A) : forall i x, length (set_nth l i x) = length l.
Proof. induction l as [|a l IH]; intros [|i] x; cbn; auto. Qed.

Lemma nth_set_nth {A} (l : list A) : forall i x j, (i < length l)%nat ->
  nth_error (set_nth l i x) j = if Nat.eqb i j then Some x else nth_error l j.
Proof.
  induction l as [|a l IH]; intros [|i] x [|j] H; cbn in *; try lia; auto.
  apply IH. lia.
Qed.

(** The items lie in consecutive slots. *)
Definition fbuf_rel {C} (size : nat) (b : fbuf C) (q : queue C) : Prop :=
  same_steps (fb_req b) (q_pending q) /\ fb_sto b = map fst (q_items q) /\
  length (fb_slots b) = size /\ (fb_rd b < size)%nat /\ (length (q_items q) <= size)%nat /\
  fb_wr b = Nat.modulo (fb_rd b + length (q_items q)) size /\
  forall i x, nth_error (q_items q) i = Some x -> nth_error (fb_slots b) (Nat.modulo (fb_rd b + i) size) = Some (snd x).

Lemma fb_inc_mod size a b : (0 < size)%nat -> fb_inc size (Nat.modulo (a + b) size) = Nat.modulo (a + S b) size.
Proof.
  intros H. unfold fb_inc. rewrite Nat.add_mod_idemp_l by lia. f_equal. lia.
Qed.

Lemma mod_inj size a i j : (i < size)%nat -> (j < size)%nat -> Nat.modulo (a + i) size = Nat.modulo (a + j) size -> i = j.
Proof.
  intros Hi Hj H. assert (Hz : (0 < size)%nat) by lia.
  pose proof (Nat.div_mod (a + i) size ltac:(lia)). pose proof (Nat.div_mod (a + j) size ltac:(lia)).
  rewrite H in *. assert (E : (size * ((a + i) / size) + j = size * ((a + j) / size) + i)%nat) by lia.
  set (u := ((a + i) / size)%nat) in *. set (v := ((a + j) / size)%nat) in *.
  destruct (Nat.lt_trichotomy u v) as [Hl|[Hl|Hl]]; [|rewrite Hl in E; lia|].
  - assert (size * S u <= size * v)%nat by (apply Nat.mul_le_mono_l; lia). lia.
  - assert (size * S v <= size * u)%nat by (apply Nat.mul_le_mono_l; lia). lia.
Qed.

Lemma fbuf_sim {C} size cs (b : fbuf C) q o : fbuf_rel size b q -> queue_ok q ->
  let '(b', r) := fbuf_step cs b o in let '(q', r') := queue_step (Some size) cs q o in fbuf_rel size b' q' /\ r = r'.
Proof.
  intros (H1 & H2 & H3 & H4 & H5 & H6 & H7) Hq. assert (Hz : (0 < size)%nat) by lia.
  assert (Hsame : fbuf_rel size b q) by (repeat (split; [assumption|]); assumption).
  destruct o as [t|g t|g t rm]; cbn [fbuf_step queue_step].
  - split; auto. split; [now apply same_steps_push|]. repeat (split; [assumption|]). assumption.
  - pose proof (check_put_spec _ _ t H1) as Hc. destruct (check_put (fb_req b) t).
    + destruct Hc as [-> ->]. split; auto.
    + destruct Hc as (-> & E2 & E3 & Hreq). rewrite E2. rewrite H2, H3, map_length. unfold queue_full.
      destruct (Nat.leb_spec size (length (q_items q))) as [Hf|Hf]; [split; auto|].
      split; auto. apply existsb_exists in E2. destruct E2 as (t' & Hin & E2). apply Nat.eqb_eq in E2. subst t'.
      unfold fbuf_rel. cbn [fb_req fb_sto fb_rd fb_wr fb_slots q_pending q_items].
      assert (Hw : (fb_wr b < size)%nat) by (rewrite H6; apply Nat.mod_upper_bound; lia).
      split; [exact Hreq|]. split; [rewrite E3, map_app; cbn; now apply set_add_items|].
      split; [now rewrite set_nth_length|]. split; [auto|]. rewrite app_length. cbn [length].
      split; [lia|]. split; [rewrite H6, fb_inc_mod by lia; f_equal; lia|].
      intros i x Hi. rewrite nth_set_nth by lia. destruct (Nat.lt_ge_cases i (length (q_items q))) as [Hl|Hl].
      * rewrite nth_error_app1 in Hi by auto. destruct (Nat.eqb_spec (fb_wr b) (Nat.modulo (fb_rd b + i) size)) as [E|E]; [|auto].
        rewrite H6 in E. apply mod_inj in E; lia.
      * assert (i = length (q_items q)).
        { assert (i < length (q_items q ++ [(t, map g cs)]))%nat by (apply nth_error_Some; congruence). rewrite app_length in *. cbn in *. lia. }
        subst i. rewrite nth_error_app2, Nat.sub_diag in Hi by auto. cbn in Hi. injection Hi as <-.
        rewrite <- H6, Nat.eqb_refl. reflexivity.
    + rewrite Hc. split; auto.
  - rewrite H2. destruct (q_items q) as [|(t', p) items] eqn:E; cbn [map check_get fst].
    + split; auto.
    + rewrite (Nat.eqb_sym t' t). destruct (Nat.eqb t t'); [|split; auto].
      pose proof (H7 O _ eq_refl) as Hp. rewrite Nat.add_0_r, Nat.mod_small in Hp by auto. cbn [snd] in Hp. rewrite Hp.
      split; auto. destruct rm; auto. unfold fbuf_rel. cbn [fb_req fb_sto fb_rd fb_wr fb_slots q_pending q_items].
      split; [exact H1|]. split; [reflexivity|]. split; [exact H3|].
      rewrite H3. split; [apply Nat.mod_upper_bound; lia|]. cbn [length] in *. split; [lia|].
      assert (Em : forall i, Nat.modulo (fb_inc size (fb_rd b) + i) size = Nat.modulo (fb_rd b + S i) size).
      { intros i. unfold fb_inc. rewrite Nat.add_mod_idemp_l by lia. f_equal. lia. }
      split; [rewrite H6, Em; reflexivity|]. intros i x Hi. rewrite Em. now apply H7.
Qed.

Lemma fbuf_run {C} size cs ops : forall (b : fbuf C) q, fbuf_rel size b q -> queue_ok q -> timely (Some size) cs q ops ->
  snd (brun (fbuf_step cs) b ops) = snd (brun (queue_step (Some size) cs) q ops) /\
  fbuf_rel size (fst (brun (fbuf_step cs) b ops)) (fst (brun (queue_step (Some size) cs) q ops)).
Proof.
  induction ops as [|o ops IH]; intros b q Hr Hq Ht; cbn [brun]; [auto|]. destruct Ht as [Ht1 Ht2].
  pose proof (fbuf_sim size cs b q o Hr Hq) as Hs. pose proof (queue_ok_step (Some size) cs q o Hq Ht1) as Hq'.
  destruct (fbuf_step cs b o) as [b1 r]. destruct (queue_step (Some size) cs q o) as [q1 r']. destruct Hs as [Hs ->]. cbn [fst] in *.
  destruct (IH b1 q1 Hs Hq' Ht2) as [E1 E2].
  destruct (brun (fbuf_step cs) b1 ops), (brun (queue_step (Some size) cs) q1 ops). cbn [fst snd] in *. split; [now rewrite E1|auto].
Qed.

Lemma fbuf_init_rel {C} size (dflt : C) cs : (0 < size)%nat -> fbuf_rel size (fbuf_init size dflt cs) (mkQueue [] []).
Proof.
  intros H. unfold fbuf_rel, fbuf_init. cbn. split; [split; [constructor|tauto]|]. split; [reflexivity|]. split; [apply repeat_length|].
  split; [lia|]. split; [lia|]. split; [rewrite Nat.mod_small; lia|]. intros [|i] x; discriminate.
Qed.
