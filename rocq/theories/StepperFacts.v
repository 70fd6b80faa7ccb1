(** The parallel simulation agrees with the serial one: invariant of the nodes
    and links. *)
From Verif Require Import Base ListFacts PatchModel PatchSpec PatchFacts LinkSpec LinkFacts AdapterModel ScheduleFacts StepperModel.

(** ** Buffers *)

Lemma save_buf_rel {C} size cs (b : fbuf C) items g t :
  fbuf_rel size b (mkQueue [] items) -> queue_ok (mkQueue [] items) -> Forall (fun x => fst x < t)%nat items -> (length items < size)%nat ->
  exists b', save_buf cs b g t = Ok b' /\ fbuf_rel size b' (mkQueue [] (items ++ [(t, map g cs)])).
Proof.
  intros R Hq Hlt Hlen. unfold save_buf. pose proof (fbuf_sim size cs b _ (OPush t) R Hq) as S1.
  assert (Hq1 : queue_ok (fst (queue_step (Some size) cs (mkQueue [] items) (OPush t)))).
  { apply queue_ok_step; auto. intros t' E. injection E as <-. exact Hlt. }
  destruct (fbuf_step cs b (OPush t)) as [b1 r1]. cbn [fst]. cbn [queue_step fst q_pending q_items] in S1, Hq1. destruct S1 as [R1 _].
  pose proof (fbuf_sim size cs b1 _ (OPut g t) R1 Hq1) as S2. destruct (fbuf_step cs b1 (OPut g t)) as [b2 r2].
  cbn [queue_step q_pending q_items existsb] in S2. rewrite Nat.ltb_irrefl, Nat.eqb_refl in S2. cbn [orb filter] in S2.
  rewrite Nat.eqb_refl in S2. cbn [negb queue_full q_items] in S2.
  destruct (Nat.leb_spec size (length items)); [lia|]. destruct S2 as [R2 ->]. eauto.
Qed.

Lemma restore_buf_rel {C} size cs (b : fbuf C) items g (src : grid C) t rm :
  fbuf_rel size b (mkQueue [] ((t, map src cs) :: items)) -> queue_ok (mkQueue [] ((t, map src cs) :: items)) ->
  exists b' g', restore_buf cs b g t rm = Ok (b', g') /\
    fbuf_rel size b' (mkQueue [] (if rm then items else (t, map src cs) :: items)) /\
    (forall c, In c cs -> g' c = src c) /\ (forall c, ~ In c cs -> g' c = g c).
Proof.
  intros R Hq. unfold restore_buf. pose proof (fbuf_sim size cs b _ (OGet g t rm) R Hq) as S1.
  destruct (fbuf_step cs b (OGet g t rm)) as [b1 r1]. cbn [queue_step q_items q_pending] in S1. rewrite Nat.eqb_refl in S1.
  destruct S1 as [R1 ->]. destruct (load_save cs g src) as (g' & E & H1 & H2). unfold save_region in E. rewrite E. cbn [loaded].
  exists b1, g'. split; [reflexivity|]. split; [|auto]. destruct rm; exact R1.
Qed.

Lemma queue_ok_items {C} (items : list (nat * list C)) : ascending (map fst items) -> queue_ok (mkQueue [] items).
Proof. intros H. split; [exact H|]. intros x t _ []. Qed.

(** ** Updates *)

Section Facts.
Context {C : Type} (upd : nat -> coord -> list C -> C) (nb : coord -> list (option coord)) (edge : C) (nanos : nat).
Hypothesis Hnanos : (1 <= nanos)%nat.

Notation new_cell := (new_cell upd nb edge).
Notation update_region := (update_region upd nb edge).

Lemma update_region_spec nano cs src : forall dst,
  (forall c, In c cs -> update_region nano cs src dst c = new_cell nano src c) /\
  (forall c, ~ In c cs -> update_region nano cs src dst c = dst c).
Proof.
  unfold StepperModel.update_region. induction cs as [|c0 cs IH]; intros dst; cbn [fold_left]; [split; [intros c []|auto]|].
  destruct (IH (gset dst c0 (new_cell nano src c0))) as [H1 H2]. split.
  - intros c Hc. destruct (in_dec (list_eq_dec Z.eq_dec) c cs) as [Hi|Hi]; [now apply H1|]. rewrite H2 by auto.
    destruct Hc as [->|Hc]; [|contradiction]. unfold gset. now destruct (coord_eqb_spec c c).
  - intros c Hc. rewrite H2 by (intros H; apply Hc; now right). unfold gset. destruct (coord_eqb_spec c0 c) as [->|]; auto.
    exfalso. apply Hc. now left.
Qed.

Lemma new_cell_ext nano src src' c : (forall c', In (Some c') (nb c) -> src c' = src' c') -> new_cell nano src c = new_cell nano src' c.
Proof.
  intros H. unfold StepperModel.new_cell. f_equal. apply map_ext_in. intros [c'|] Hin; cbn; auto.
Qed.

Lemma tick_spec s n : (n < nanos)%nat -> let '(s', n') := tick nanos s n in
  global_step nanos s' n' = S (global_step nanos s n) /\ (n' < nanos)%nat.
Proof. intros Hn. unfold tick, global_step. destruct (Nat.eqb_spec (S n) nanos); split; nia. Qed.

Lemma nano_of s n : (n < nanos)%nat -> Nat.modulo (global_step nanos s n) nanos = n.
Proof. intros Hn. unfold global_step. rewrite Nat.add_comm, Nat.mod_add by lia. now apply Nat.mod_small. Qed.

(** ** One node *)

Context (I : coord -> Prop) (steerers : list (adapter * @action C)) (ser : nat -> grid C) (T0 w N : nat).
Hypothesis Hw : (1 <= w)%nat.

(** What the steerers do at [T0 + k]. *)
Definition act_at (k : nat) (c : coord) (x : C) : C :=
  fold_left (fun x '(a, f) => fold_left (fun x '(s, e) => f s e c x) (calls_at a (T0 + k)) x) steerers x.

(** At the first step they have been called already. *)
Definition act (k : nat) (c : coord) (x : C) : C := match k with O => x | S _ => act_at k c x end.

Definition st (k : nat) : grid C := fun c => act k c (ser k c).

Definition adapter_ok (x : adapter * @action C) : Prop :=
  let a := fst x in ad_nanos a = nanos /\ (1 <= ad_period a)%nat /\ ad_first_nano a = T0 /\ (ad_first a <= ad_last a)%nat.
Hypothesis Hst : Forall adapter_ok steerers.

Hypothesis Hser : forall k c, I c -> ser (S k) c = new_cell (Nat.modulo (T0 + k) nanos) (st k) c.

(** The state of the adapters once they have been notified of [T0 + k]. *)
Definition stos_at (k : nat) : list (list nat) := map (fun '(a, _) => after a (T0 + k)) steerers.

Lemma apply_region_spec f cs : NoDup cs -> forall (g : grid C),
  (forall c, In c cs -> apply_region f cs g c = f c (g c)) /\ (forall c, ~ In c cs -> apply_region f cs g c = g c).
Proof.
  unfold apply_region. induction 1 as [|c0 cs Hn Hnd IH]; intros g; cbn [fold_left]; [split; [intros c []|auto]|].
  destruct (IH (gset g c0 (f c0 (g c0)))) as [H1 H2]. split.
  - intros c [->|Hc].
    + rewrite H2 by auto. unfold gset. now destruct (coord_eqb_spec c c).
    + rewrite H1 by auto. unfold gset. destruct (coord_eqb_spec c0 c) as [->|]; [contradiction|reflexivity].
  - intros c Hc. rewrite H2 by (intros H; apply Hc; now right). unfold gset. destruct (coord_eqb_spec c0 c) as [->|]; auto.
    exfalso. apply Hc. now left.
Qed.

Lemma apply_calls_spec (f : @action C) cs : NoDup cs -> forall (calls : list iocall) (g : grid C),
  let g' := fold_left (fun g '(s, e) => apply_region (f s e) cs g) calls g in
  (forall c, In c cs -> g' c = fold_left (fun x '(s, e) => f s e c x) calls (g c)) /\ (forall c, ~ In c cs -> g' c = g c).
Proof.
  intros Hnd. induction calls as [|[s e] calls IH]; intros g; cbn [fold_left]; [auto|].
  destruct (apply_region_spec (f s e) cs Hnd g) as [A1 A2]. destruct (IH (apply_region (f s e) cs g)) as [H1 H2]. split.
  - intros c Hc. rewrite H1 by auto. now rewrite A1.
  - intros c Hc. rewrite H2 by auto. now apply A2.
Qed.

(** Notifications. *)
Lemma call_steerers_gen (pre post : adapter -> list nat) (calls : adapter -> list iocall) cs t : NoDup cs ->
  forall ss (g : grid C), Forall (fun x : adapter * @action C => notify (steerer_get (fst x)) (pre (fst x)) t = Ok (post (fst x), calls (fst x))) ss ->
  exists g', call_steerers ss (map (fun '(a, _) => pre a) ss) cs t g = Ok (map (fun '(a, _) => post a) ss, g') /\
    (forall c, In c cs -> g' c = fold_left (fun x '(a, f) => fold_left (fun x '(s, e) => f s e c x) (calls a) x) ss (g c)) /\
    (forall c, ~ In c cs -> g' c = g c).
Proof.
  intros Hnd. induction ss as [|[a f] ss IH]; intros g H; cbn [call_steerers map fold_left]; [exists g; auto|].
  inversion H as [|x y H1 H2]; subst x y. cbn [fst] in H1. rewrite H1.
  destruct (apply_calls_spec f cs Hnd (calls a) g) as [A1 A2]. cbn zeta in A1, A2.
  set (g1 := fold_left (fun g '(s, e) => apply_region (f s e) cs g) (calls a) g) in *.
  destruct (IH g1 H2) as (g' & E & B1 & B2). rewrite E. exists g'. split; [reflexivity|]. split.
  - intros c Hc. rewrite B1 by auto. now rewrite A1.
  - intros c Hc. rewrite B2 by auto. now apply A2.
Qed.

Lemma call_first cs g : NoDup cs -> exists g', call_steerers steerers (map (fun '(a, _) => steerer_init a) steerers) cs T0 g = Ok (stos_at 0, g') /\
  (forall c, In c cs -> g' c = act_at 0 c (g c)) /\ (forall c, ~ In c cs -> g' c = g c).
Proof.
  intros Hnd. destruct (call_steerers_gen steerer_init (fun a => after a (T0 + 0)) (fun a => calls_at a (T0 + 0)) cs T0 Hnd steerers g) as (g' & E & H1 & H2).
  - eapply Forall_impl; [|exact Hst]. intros [a f] (E1 & E2 & E3 & E4). cbn [fst] in *. rewrite Nat.add_0_r, <- E3. apply steerer_first; auto. lia.
  - exists g'. auto.
Qed.

Lemma call_next k cs g : NoDup cs -> exists g', call_steerers steerers (stos_at (pred k)) cs (T0 + k) g = Ok (stos_at k, g') /\
  (forall c, In c cs -> g' c = act k c (g c)) /\ (forall c, ~ In c cs -> g' c = g c).
Proof.
  intros Hnd. destruct k as [|k]; cbn [pred].
  - destruct (call_steerers_gen (fun a => after a (T0 + 0)) (fun a => after a (T0 + 0)) (fun _ => []) cs (T0 + 0) Hnd steerers g) as (g' & E & H1 & H2).
    { eapply Forall_impl; [|exact Hst]. intros [a f] (E1 & E2 & E3 & E4). cbn [fst] in *. apply steerer_serves; auto; lia. }
    exists g'. split; [exact E|]. split; [|exact H2]. intros c Hc. rewrite H1 by auto. cbn [act]. cbn [fold_left]. clear. revert g. intros g.
    generalize (g c). induction steerers as [|[a f] l IH]; intros x; cbn [fold_left]; auto.
  - destruct (call_steerers_gen (fun a => after a (T0 + k)) (fun a => after a (T0 + S k)) (fun a => calls_at a (T0 + S k)) cs (T0 + S k) Hnd steerers g) as (g' & E & H1 & H2).
    { eapply Forall_impl; [|exact Hst]. intros [a f] (E1 & E2 & E3 & E4). cbn [fst] in *. rewrite !Nat.add_succ_r. apply steerer_serves; auto; lia. }
    exists g'. auto.
Qed.

Definition rim cf t c := In c (rim_at cf t).
Definition inner cf t c := In c (inner_at cf t).
Definition halo cf c := exists j cs, In (j, cs) (cf_in cf) /\ In c cs.

Record cfg_ok (cf : node_cfg) : Prop := {
  co_w : cf_w cf = w;
  co_rim_close : forall t c c', (t < w)%nat -> rim cf (S t) c -> In (Some c') (nb c) -> rim cf t c';
  co_inner_close : forall t c c', (t < w)%nat -> inner cf (S t) c -> In (Some c') (nb c) -> inner cf t c';
  co_rim_in : forall t c, (t <= w)%nat -> rim cf t c -> I c;
  co_inner_in : forall t c, (t <= w)%nat -> inner cf t c -> I c;
  co_inner_mono : forall t c, (t < w)%nat -> inner cf (S t) c -> inner cf t c;
  co_rim_mono : forall t c, (t < w)%nat -> rim cf (S t) c -> rim cf t c;
  co_vol : forall c, In c (cf_vol cf) -> inner cf w c;
  co_disj : forall c, inner cf w c -> ~ rim cf w c;
  co_rim_halo : forall c, rim cf 0 c -> inner cf w c \/ rim cf w c \/ halo cf c;
  co_inner_halo : forall c, inner cf 0 c -> inner cf w c \/ rim cf w c \/ halo cf c;
  co_out : forall j cs c, In (j, cs) (cf_out cf) -> In c cs -> rim cf w c;
  (** what is not restored after the update of the rim is not overwritten *)
  co_keep : forall t c, inner cf 0 c -> ~ rim cf w c -> ~ In c (cf_vol cf) -> (2 <= t <= w)%nat -> ~ rim cf t c;
  (** nor steered *)
  co_keep0 : steerers <> [] -> forall c, inner cf 0 c -> ~ rim cf w c -> ~ In c (cf_vol cf) -> ~ rim cf 0 c;
  co_in_nodup : NoDup (map fst (cf_in cf));
  co_out_nodup : NoDup (map fst (cf_out cf));
  co_rim_nodup : forall t, (t <= w)%nat -> NoDup (rim_at cf t);
  co_inner_nodup : forall t, (t <= w)%nat -> NoDup (inner_at cf t);
  co_own_nodup : NoDup (cf_own cf);
  co_outer_nodup : NoDup (cf_outer cf);
  co_own : forall c, In c (cf_own cf) <-> inner cf w c \/ rim cf w c;
  co_outer : forall c, halo cf c -> In c (cf_outer cf) /\ ~ In c (cf_own cf);
  co_disj_outer : forall c, In c (cf_own cf) -> ~ In c (cf_outer cf)
}.

Definition good (g : grid C) (k : nat) (P : coord -> Prop) := forall c, P c -> g c = ser k c.

Definition sgood (g : grid C) (k : nat) (P : coord -> Prop) := forall c, P c -> g c = st k c.

Definition clock (s n k : nat) := global_step nanos s n = (T0 + k)%nat /\ (n < nanos)%nat.

(** The log: the kernel up to step [kk], the rim up to step [gk]. *)
Definition log_ok (cf : node_cfg) (kk gk : nat) (log : list (logent C)) : Prop :=
  map lg_time (filter (fun e => negb (lg_rim e)) log) = seq T0 (S kk) /\
  map lg_time (filter (@lg_rim C) log) = seq T0 (S gk) /\
  Forall (fun e => lg_region e = (if lg_rim e then rim_at cf w else inner_at cf w) /\
    exists k, lg_time e = (T0 + k)%nat /\ good (lg_grid e) k (fun c => In c (lg_region e))) log /\
  (forall l1 e l2, log = l1 ++ e :: l2 -> lg_rim e = false -> exists e', In e' l1 /\ lg_rim e' = true /\ lg_time e' = lg_time e).

Definition keep cf c := inner cf 0 c /\ ~ rim cf w c /\ ~ In c (cf_vol cf).

Definition gridA (t : nat) (nd : node C) : grid C := if Nat.odd t then n_new nd else n_old nd.

Definition ghost_inv (cf : node_cfg) (m : nat) (nd : node C) (gh : ghost) (u : nat) : Prop :=
  (gh_t gh < w)%nat /\ gh_init gh = Nat.eqb m 0 /\ n_si nd = stos_at (pred (m * w)) /\ n_sg nd = stos_at (pred (m * w + u)) /\ gh_gl gh = (T0 + m * w + u)%nat /\ clock (gh_step gh) (gh_nano gh) (m * w) /\
  clock (n_step nd) (n_nano nd) (m * w + u) /\
  fbuf_rel 2 (n_rim nd) (mkQueue [] [((T0 + m * w)%nat, map (ser (m * w)) (rim_at cf w))]) /\
  fbuf_rel 1 (n_ker nd) (mkQueue [] [((T0 + m * w)%nat, map (ser (m * w)) (cf_vol cf))]) /\
  log_ok cf (m * w) (m * w + u) (n_log nd) /\ (m * w + n_left nd = N)%nat.

Definition node_inv (cf : node_cfg) (m : nat) (nd : node C) : Prop :=
  match n_pc nd with
  | PStep => exists k, (k < w)%nat /\ n_valid nd = (w - k)%nat /\ clock (n_step nd) (n_nano nd) (m * w + k) /\
      n_si nd = stos_at (m * w + k) /\ n_sg nd = stos_at (pred (S m * w)) /\
      sgood (n_old nd) (m * w + k) (inner cf k) /\
      (k = O -> forall c, inner cf w c \/ rim cf w c -> n_old nd c = ser (m * w) c \/ n_old nd c = st (m * w) c) /\
      fbuf_rel 2 (n_rim nd) (mkQueue [] [((T0 + S m * w)%nat, map (ser (S m * w)) (rim_at cf w))]) /\
      fbuf_rel 1 (n_ker nd) (mkQueue [] []) /\
      log_ok cf (m * w + k) (S m * w) (n_log nd) /\ (m * w + k + n_left nd = N)%nat
  | PRecv gh rem => ghost_inv cf m nd gh (gh_t gh) /\ incl rem (cf_in cf) /\ NoDup (map fst rem) /\
      (gh_t gh = O -> forall c, inner cf w c \/ rim cf w c \/ halo cf c ->
         m = O \/ (forall j cs, In (j, cs) rem -> ~ In c cs) -> n_old nd c = ser (m * w) c) /\
      (gh_t gh <> O -> good (n_old nd) (m * w + gh_t gh) (rim cf (gh_t gh)) /\
         good (gridA (gh_t gh) nd) (m * w) (keep cf))
  | PSend gh rem => ghost_inv cf m nd gh (S (gh_t gh)) /\ incl rem (cf_out cf) /\ NoDup (map fst rem) /\
      good (n_old nd) (m * w + S (gh_t gh)) (rim cf (S (gh_t gh))) /\
      good (gridA (S (gh_t gh)) nd) (m * w) (keep cf)
  end.

(** Messages sent to, respectively received from node [j]. *)
Definition waiting (j : nat) (rem : list (nat * list coord)) : bool := existsb (fun x => Nat.eqb (fst x) j) rem.

Definition sent (m : nat) (nd : node C) (j : nat) : nat :=
  match n_pc nd with
  | PStep => S m
  | PRecv _ _ => m
  | PSend gh rem => if Nat.eqb (S (gh_t gh)) w && negb (waiting j rem) then S m else m
  end.

Definition recvd (m : nat) (nd : node C) (j : nat) : nat :=
  match n_pc nd with
  | PRecv gh rem => if Nat.eqb (gh_t gh) 0 && waiting j rem then pred m else m
  | _ => m
  end.

Lemma waiting_in j cs rem : In (j, cs) rem -> waiting j rem = true.
Proof. intros H. apply existsb_exists. exists (j, cs). split; auto. apply Nat.eqb_refl. Qed.

Lemma waiting_out j rem : ~ In j (map fst rem) -> waiting j rem = false.
Proof.
  intros H. apply not_true_is_false. intros E. apply existsb_exists in E. destruct E as (x & Hx & E). apply Nat.eqb_eq in E.
  apply H. rewrite <- E. now apply in_map.
Qed.

(** Updates from one time step to the next. *)
Lemma update_good cf0 (P Q : coord -> Prop) cs s n k src dst : clock s n k ->
  (forall c, In c cs -> P c) -> (forall c, P c -> I c) -> (forall c c', P c -> In (Some c') (nb c) -> Q c') ->
  sgood src k Q -> good (update_region n cs src dst) (S k) (fun c => In c cs) /\
  (cf0 = true -> forall c, ~ In c cs -> update_region n cs src dst c = dst c).
Proof.
  intros [Hc Hn] HP HI HQ HG. destruct (update_region_spec n cs src dst) as [H1 H2]. split; [|auto].
  intros c Hin. rewrite H1 by auto. rewrite Hser by auto. rewrite <- Hc, nano_of by auto.
  apply new_cell_ext. intros c' Hc'. apply HG. eapply HQ; eauto.
Qed.

Lemma clock_tick s n k : clock s n k -> let '(s', n') := tick nanos s n in clock s' n' (S k).
Proof. intros [H1 H2]. pose proof (tick_spec s n H2) as H. destruct (tick nanos s n) as [s' n']. unfold clock. lia. Qed.

Lemma snoc_cases {A} (l : list A) : l = [] \/ exists l' x, l = l' ++ [x].
Proof. destruct l as [|a l] using rev_ind; [auto|right; eauto]. Qed.

Lemma log_snoc cf kk gk log (b : bool) t g kk' gk' : log_ok cf kk gk log ->
  t = (T0 + if b then gk' else kk')%nat ->
  (if b then gk' = S gk /\ kk' = kk else kk' = S kk /\ gk' = gk /\ (kk' <= gk)%nat) ->
  good g (if b then gk' else kk') (fun c => In c (if b then rim_at cf w else inner_at cf w)) ->
  log_ok cf kk' gk' (log ++ [mkLog t b (if b then rim_at cf w else inner_at cf w) g]).
Proof.
  intros (H1 & H2 & H3 & H4) Ht Hk Hg. unfold log_ok. rewrite !filter_app, !map_app. cbn [filter lg_rim].
  assert (Hs : forall x y, y = S x -> seq T0 (S x) ++ [(T0 + y)%nat] = seq T0 (S y)).
  { intros x y ->. rewrite (seq_S (S x)). reflexivity. }
  split; [|split; [|split]].
  - rewrite H1. destruct b; cbn [negb map lg_time]; destruct Hk as [Hk1 Hk2]; [rewrite app_nil_r, Hk2; reflexivity|rewrite Ht; now apply Hs].
  - rewrite H2. destruct b; cbn [map lg_time]; destruct Hk as [Hk1 Hk2]; [rewrite Ht; now apply Hs|destruct Hk2 as [Hk2 _]; rewrite app_nil_r, Hk2; reflexivity].
  - apply Forall_app. split; [exact H3|]. constructor; [|constructor]. cbn [lg_region lg_rim lg_time lg_grid].
    split; [reflexivity|]. eexists. split; [exact Ht|]. exact Hg.
  - intros l1 e l2 El He. destruct (snoc_cases l2) as [->|(l3 & x & ->)].
    + apply app_inj_tail in El. destruct El as [-> <-]. cbn [lg_rim] in He. subst b. cbn [lg_time]. destruct Hk as (Hk1 & _ & Hk2).
      assert (Hin : In t (map lg_time (filter (@lg_rim C) l1))) by (rewrite H2, Ht; apply in_seq; lia).
      apply in_map_iff in Hin. destruct Hin as (e' & E1 & E2). apply filter_In in E2. exists e'. tauto.
    + rewrite app_comm_cons, app_assoc in El. apply app_inj_tail in El. destruct El as [El _]. now apply (H4 l1 e l3).
Qed.

Lemma fst_clock s n k : clock s n k -> global_step nanos s n = (T0 + k)%nat.
Proof. now intros []. Qed.

Notation start_ghost := (start_ghost nanos).
Notation steer_inner := (steer_inner nanos steerers).
Notation finish_ghost := (finish_ghost nanos steerers).
Notation update1 := (update1 upd nb edge nanos steerers).
Notation update_rim := (update_rim upd nb edge nanos steerers).

(** The beginning of the update of the ghost zone. *)
Lemma start_ghost_ok cf m init nd : cfg_ok cf -> init = Nat.eqb m 0 -> n_si nd = stos_at (pred (m * w)) -> n_sg nd = stos_at (pred (m * w)) -> clock (n_step nd) (n_nano nd) (m * w) ->
  good (n_old nd) (m * w) (inner cf w) -> (m = O -> good (n_old nd) 0 (halo cf)) ->
  fbuf_rel 2 (n_rim nd) (mkQueue [] [((T0 + m * w)%nat, map (ser (m * w)) (rim_at cf w))]) ->
  fbuf_rel 1 (n_ker nd) (mkQueue [] []) -> log_ok cf (m * w) (m * w) (n_log nd) -> (m * w + n_left nd = N)%nat ->
  exists nd' gh, start_ghost cf init nd = Ok nd' /\ node_inv cf m nd' /\ n_left nd' = n_left nd /\ n_pc nd' = PRecv gh (cf_in cf) /\ gh_t gh = O.
Proof.
  intros Hcf Hgi Hsi Hsg Hcl Hold H0 Hr Hk Hl HN. unfold StepperModel.start_ghost. rewrite (fst_clock _ _ _ Hcl).
  destruct (save_buf_rel 1 (cf_vol cf) (n_ker nd) [] (n_old nd) (T0 + m * w) Hk) as (ker & E1 & Rk); [apply queue_ok_items; constructor|constructor|cbn; lia|].
  rewrite E1. rewrite (co_w cf Hcf).
  destruct (restore_buf_rel 2 (rim_at cf w) (n_rim nd) [] (n_old nd) (ser (m * w)) (T0 + m * w) false Hr) as (rm & old & E2 & Rr & G1 & G2).
  { apply queue_ok_items. repeat constructor. }
  rewrite E2. eexists. eexists. split; [reflexivity|]. cbn [n_left n_pc gh_t]. split; [|auto].
  unfold node_inv. cbn [n_pc]. split; [|split; [apply incl_refl|split; [apply (co_in_nodup cf Hcf)|split; [|cbn; lia]]]].
  - unfold ghost_inv. cbn [gh_t gh_gl gh_step gh_nano gh_init n_step n_nano n_rim n_ker n_sg n_si n_log n_left]. rewrite !Nat.add_0_r.
    split; [lia|]. split; [exact Hgi|]. split; [exact Hsi|]. split; [exact Hsg|]. split; [reflexivity|]. split; [exact Hcl|]. split; [exact Hcl|]. split; [exact Rr|]. split; [|auto].
    cbn [app] in Rk. replace (map (n_old nd) (cf_vol cf)) with (map (ser (m * w)) (cf_vol cf)) in Rk; [exact Rk|].
    apply map_ext_in. intros c Hc. symmetry. apply Hold. now apply (co_vol cf Hcf).
  - cbn [n_old]. intros _ c Hc Hm. destruct (in_dec (list_eq_dec Z.eq_dec) c (rim_at cf w)) as [Hi|Hi]; [now apply G1|].
    rewrite G2 by auto. destruct Hc as [Hc|[Hc|Hc]]; [now apply Hold|contradiction|].
    destruct Hm as [->|Hm]; [cbn [Nat.mul]; now apply H0|]. destruct Hc as (j & cs & H1 & H2). exfalso. eapply Hm; eauto.
Qed.

Lemma odd_S t : Nat.odd (S t) = negb (Nat.odd t).
Proof. rewrite Nat.odd_succ, <- Nat.negb_odd. reflexivity. Qed.

Lemma inner_mono cf : cfg_ok cf -> forall t u, (t + u <= w)%nat -> forall c, inner cf (t + u) c -> inner cf t c.
Proof.
  intros Hcf t. induction u as [|u IH]; intros Hle c Hc; [now rewrite Nat.add_0_r in Hc|]. apply IH; [lia|].
  apply (co_inner_mono cf Hcf); [lia|]. now rewrite Nat.add_succ_r in Hc.
Qed.

(** The end of it. *)
Lemma finish_ghost_ok cf m nd gh : cfg_ok cf -> node_inv cf m nd -> n_pc nd = PSend gh [] -> S (gh_t gh) = w ->
  exists nd', finish_ghost cf nd gh = Ok nd' /\ node_inv cf m nd' /\ n_left nd' = n_left nd /\ n_pc nd' = PStep.
Proof.
  intros Hcf Hinv Hpc Ht. unfold node_inv in Hinv. rewrite Hpc in Hinv. destruct Hinv as (G & _ & _ & Hrim & HA). rewrite Ht in *.
  destruct G as (_ & Hgi & Hsi & Hsg & Hgl & Hcg & Hcl & Hr & Hk & Hl & HN). unfold StepperModel.finish_ghost. rewrite (co_w cf Hcf), Hgl, (fst_clock _ _ _ Hcg).
  destruct (save_buf_rel 2 (rim_at cf w) (n_rim nd) _ (n_old nd) (T0 + m * w + w) Hr) as (rm & E1 & Rr).
  { apply queue_ok_items. repeat constructor. } { constructor; [cbn; lia|constructor]. } { cbn. lia. }
  rewrite E1. cbn [app] in Rr.
  set (old := if Nat.odd w then n_new nd else n_old nd). set (new := if Nat.odd w then n_old nd else n_new nd).
  replace (if Nat.odd w then (n_new nd, n_old nd) else (n_old nd, n_new nd)) with (old, new) by (unfold old, new; destruct (Nat.odd w); reflexivity).
  destruct (restore_buf_rel 2 (rim_at cf w) rm _ old (ser (m * w)) (T0 + m * w) true Rr) as (rm' & old' & E2 & Rr' & G1 & G2).
  { apply queue_ok_items. cbn. repeat constructor. lia. }
  rewrite E2.
  destruct (restore_buf_rel 1 (cf_vol cf) (n_ker nd) _ old' (ser (m * w)) (T0 + m * w) true Hk) as (ker' & old'' & E3 & Rk' & G3 & G4).
  { apply queue_ok_items. repeat constructor. }
  rewrite E3.
  assert (Hold : forall c, inner cf 0 c \/ rim cf w c -> old'' c = ser (m * w) c).
  { intros c Hc. destruct (in_dec (list_eq_dec Z.eq_dec) c (cf_vol cf)) as [Hv|Hv]; [now apply G3|]. rewrite G4 by auto.
    destruct (in_dec (list_eq_dec Z.eq_dec) c (rim_at cf w)) as [Hi|Hi]; [now apply G1|]. rewrite G2 by auto.
    destruct Hc as [Hc|Hc]; [|contradiction]. apply HA. repeat split; auto. }
  pose proof (inner_mono cf Hcf 0 w (Nat.le_refl _)) as Hmono. cbn [Nat.add] in Hmono.
  assert (Hfin : forall g si, si = stos_at (m * w) -> sgood g (m * w) (inner cf 0) ->
    (forall c, rim cf w c -> g c = ser (m * w) c \/ g c = st (m * w) c) ->
    node_inv cf m (mkNode (gh_step gh) (gh_nano gh) w g new rm' ker' (n_sg nd) si (n_log nd) (n_left nd) PStep)).
  { intros g si Hsi' Hg1 Hg2. unfold node_inv. cbn [n_pc n_step n_nano n_valid n_old n_new n_rim n_ker n_sg n_si n_log n_left]. exists O. rewrite !Nat.add_0_r, Nat.sub_0_r.
    split; [lia|]. split; [reflexivity|]. split; [exact Hcg|]. split; [exact Hsi'|].
    split; [rewrite Hsg; f_equal; lia|]. split; [exact Hg1|].
    split; [intros _ c [Hc|Hc]; [right; apply Hg1; auto|auto]|].
    split; [|split; [exact Rk'|split; [|exact HN]]].
    - replace (T0 + S m * w)%nat with (T0 + m * w + w)%nat by lia.
      replace (map (ser (S m * w)) (rim_at cf w)) with (map (n_old nd) (rim_at cf w)); [exact Rr'|].
      apply map_ext_in. intros c Hc. rewrite Hrim by exact Hc. f_equal. lia.
    - replace (S m * w)%nat with (m * w + w)%nat by lia. exact Hl. }
  rewrite Hgi. destruct (Nat.eqb_spec m 0) as [Em|Em].
  - eexists. split; [reflexivity|]. cbn [n_left n_pc]. split; [|auto]. apply Hfin.
    + rewrite Hsi, Em. reflexivity.
    + intros c Hc. rewrite Hold by auto. rewrite Em. reflexivity.
    + intros c Hc. left. auto.
  - unfold StepperModel.steer_inner. cbn [n_pc n_step n_nano n_valid n_old n_new n_rim n_ker n_sg n_si n_log n_left].
    rewrite Hsi, (fst_clock _ _ _ Hcg), (co_w cf Hcf), Nat.sub_diag.
    destruct (call_next (m * w) (inner_at cf 0) old'') as (g' & E4 & S1 & S2); [apply (co_inner_nodup cf Hcf); lia|].
    rewrite E4. eexists. split; [reflexivity|]. cbn [n_left n_pc]. split; [|auto]. apply Hfin; [reflexivity| |].
    + intros c Hc. rewrite S1 by exact Hc. rewrite Hold by auto. reflexivity.
    + intros c Hc. destruct (in_dec (list_eq_dec Z.eq_dec) c (inner_at cf 0)) as [Hi|Hi].
      * right. rewrite S1 by exact Hi. rewrite Hold by auto. reflexivity.
      * left. rewrite S2 by exact Hi. auto.
Qed.

(** A step of the kernel. *)
Lemma update1_ok cf m nd : cfg_ok cf -> node_inv cf m nd -> n_pc nd = PStep -> n_left nd <> O ->
  exists nd', update1 cf nd = Ok nd' /\ n_left nd' = (n_left nd - 1)%nat /\
   ((n_pc nd' = PStep /\ node_inv cf m nd') \/ (exists gh, n_pc nd' = PRecv gh (cf_in cf) /\ gh_t gh = O /\ node_inv cf (S m) nd')).
Proof.
  intros Hcf Hinv Hpc Hleft. unfold node_inv in Hinv. rewrite Hpc in Hinv.
  destruct Hinv as (k & Hk & Hv & Hcl & Hsi & Hsg & Hold & _ & Hr & Hkb & Hl & HN). unfold StepperModel.update1. rewrite (co_w cf Hcf), Hv.
  replace (w - (w - k - 1))%nat with (S k) by lia. pose proof (clock_tick _ _ _ Hcl) as Hcl'.
  destruct (tick nanos (n_step nd) (n_nano nd)) as [s n]. rewrite (fst_clock _ _ _ Hcl').
  set (new := update_region (n_nano nd) (inner_at cf (S k)) (n_old nd) (n_new nd)).
  assert (Hnew : good new (S (m * w + k)) (inner cf (S k))).
  { apply (update_good false (inner cf (S k)) (inner cf k) _ (n_step nd)); auto.
    - intros c. apply (co_inner_in cf Hcf). lia.
    - intros c c'. apply (co_inner_close cf Hcf). lia. }
  pose proof (inner_mono cf Hcf (S k)) as Hmono.
  assert (HnewK : good new (S (m * w + k)) (inner cf w)).
  { intros c Hc. apply Hnew. apply (Hmono (w - S k)%nat); [lia|]. now replace (S k + (w - S k))%nat with w by lia. }
  destruct (Nat.eqb_spec (w - k - 1) 0) as [Ez|Ez].
  - assert (Hkw : (S (m * w + k) = S m * w)%nat) by lia.
    edestruct (start_ghost_ok cf (S m) false) as (nd' & gh & E & Hinv' & Hl' & Hpc' & Hgt); [exact Hcf|reflexivity| | | | | | | | | |]; cycle 9.
    + rewrite E. exists nd'. split; [reflexivity|]. split; [exact Hl'|]. right. exists gh. auto.
    + cbn [n_si]. rewrite Hsi. f_equal. lia.
    + cbn [n_sg]. exact Hsg.
    + cbn [n_step n_nano]. rewrite <- Hkw. exact Hcl'.
    + cbn [n_old]. rewrite <- Hkw. exact HnewK.
    + discriminate.
    + cbn [n_rim]. exact Hr.
    + exact Hkb.
    + cbn [n_log]. apply (log_snoc cf (m * w + k) (S m * w) _ false); [exact Hl|lia|lia|]. rewrite <- Hkw. exact HnewK.
    + cbn [n_left]. lia.
  - unfold StepperModel.steer_inner. cbn [n_pc n_step n_nano n_valid n_old n_new n_rim n_ker n_sg n_si n_log n_left].
    rewrite Hsi, (fst_clock _ _ _ Hcl'), (co_w cf Hcf). replace (w - (w - k - 1))%nat with (S k) by lia.
    destruct (call_next (S (m * w + k)) (inner_at cf (S k)) new) as (g' & E4 & S1 & _); [apply (co_inner_nodup cf Hcf); lia|].
    cbn [pred] in E4. rewrite E4.
    eexists. split; [reflexivity|]. cbn [n_left n_pc]. split; [reflexivity|]. left. split; [reflexivity|].
    unfold node_inv. cbn [n_pc n_step n_nano n_valid n_old n_new n_rim n_ker n_sg n_si n_log n_left]. exists (S k). rewrite !Nat.add_succ_r.
    split; [lia|]. split; [lia|]. split; [exact Hcl'|]. split; [reflexivity|]. split; [exact Hsg|].
    split; [intros c Hc; rewrite S1 by exact Hc; rewrite Hnew by exact Hc; reflexivity|]. split; [discriminate|]. split; [exact Hr|]. split; [exact Hkb|].
    split; [|lia]. apply (log_snoc cf (m * w + k) (S m * w) _ false); [exact Hl|lia|lia|exact HnewK].
Qed.

(** A step of the rim. *)
Lemma update_rim_ok cf m nd gh : cfg_ok cf -> node_inv cf m nd -> n_pc nd = PRecv gh [] ->
  exists nd' gh', update_rim cf nd gh = Ok nd' /\ node_inv cf m nd' /\
    n_pc nd' = PSend gh' (cf_out cf) /\ gh_t gh' = gh_t gh /\ n_left nd' = n_left nd.
Proof.
  intros Hcf Hinv Hpc. unfold node_inv in Hinv. rewrite Hpc in Hinv. destruct Hinv as (G & _ & _ & H0 & H1).
  destruct G as (Ht & Hgi & Hsi & Hsg & Hgl & Hcg & Hcl & Hr & Hk & Hl & HN). set (t := gh_t gh) in *.
  unfold StepperModel.update_rim. fold t. rewrite Hsg, (fst_clock _ _ _ Hcl).
  destruct (call_next (m * w + t) (rim_at cf t) (n_old nd)) as (old & E4 & S1 & S2); [apply (co_rim_nodup cf Hcf); lia|]. rewrite E4.
  pose proof (clock_tick _ _ _ Hcl) as Hcl'.
  destruct (tick nanos (n_step nd) (n_nano nd)) as [s n]. rewrite (co_w cf Hcf), !Nat.add_1_r.
  set (new := update_region (n_nano nd) (rim_at cf (S t)) old (n_new nd)).
  assert (Hold0 : good (n_old nd) (m * w + t) (rim cf t)).
  { destruct (Nat.eq_dec t 0) as [E|E]; [|now apply H1]. rewrite E, Nat.add_0_r. intros c Hc. apply H0; auto. now apply (co_rim_halo cf Hcf). }
  assert (Hold : sgood old (m * w + t) (rim cf t)).
  { intros c Hc. rewrite S1 by exact Hc. rewrite Hold0 by exact Hc. reflexivity. }
  assert (HA : good (gridA t nd) (m * w) (keep cf)).
  { destruct (Nat.eq_dec t 0) as [E|E]; [|now apply H1]. rewrite E. unfold gridA. cbn [Nat.odd Nat.even negb].
    intros c (K1 & _). apply H0; auto. now apply (co_inner_halo cf Hcf). }
  assert (HB : Nat.odd t = false -> good old (m * w) (keep cf)).
  { intros Eo c Hc. unfold gridA in HA. rewrite Eo in HA. rewrite <- (HA c Hc). destruct Hc as (K1 & K2 & K3).
    destruct (Nat.eq_dec t 0) as [E|E].
    - assert (Hs : steerers = [] \/ steerers <> []) by (destruct steerers; [now left|right; discriminate]).
      destruct (in_dec (list_eq_dec Z.eq_dec) c (rim_at cf t)) as [Hi|Hi]; [|now apply S2]. destruct Hs as [Hs|Hs].
      + rewrite S1 by exact Hi. unfold act, act_at. rewrite Hs. now destruct (m * w + t)%nat.
      + exfalso. rewrite E in Hi. exact (co_keep0 cf Hcf Hs c K1 K2 K3 Hi).
    - apply S2. apply (co_keep cf Hcf t c K1 K2 K3). destruct t as [|[|t']]; [contradiction|discriminate|lia]. }
  destruct (update_good true (rim cf (S t)) (rim cf t) (rim_at cf (S t)) _ _ _ old (n_new nd) Hcl) as [Hnew Hkeep]; auto.
  { intros c. apply (co_rim_in cf Hcf). lia. } { intros c c'. apply (co_rim_close cf Hcf). lia. }
  fold new in Hnew. specialize (Hkeep eq_refl). fold new in Hkeep.
  eexists. eexists. split; [reflexivity|]. cbn [n_pc n_left gh_t]. split; [|auto].
  unfold node_inv. cbn [n_pc]. split; [|split; [apply incl_refl|split; [apply (co_out_nodup cf Hcf)|]]].
  - unfold ghost_inv. cbn [gh_t gh_gl gh_step gh_nano gh_init n_step n_nano n_rim n_ker n_sg n_si n_log n_left]. fold t. rewrite !Nat.add_succ_r.
    split; [exact Ht|]. split; [exact Hgi|]. split; [exact Hsi|]. split; [reflexivity|]. split; [lia|]. split; [exact Hcg|]. split; [exact Hcl'|]. split; [exact Hr|]. split; [exact Hk|]. split; [|exact HN].
    apply (log_snoc cf (m * w) (m * w + t) _ true); auto; [lia|].
    assert (Hmono : forall u, (S t + u <= w)%nat -> forall c, rim cf (S t + u) c -> rim cf (S t) c).
    { induction u as [|u IH]; intros Hle c Hc; [now rewrite Nat.add_0_r in Hc|]. apply IH; [lia|]. apply (co_rim_mono cf Hcf); [lia|].
      now rewrite Nat.add_succ_r in Hc. }
    intros c Hc. apply Hnew. apply (Hmono (w - S t)%nat); [lia|]. now replace (S t + (w - S t))%nat with w by lia.
  - cbn [gh_t n_old]. fold t. rewrite Nat.add_succ_r. split; [exact Hnew|]. unfold gridA in *. cbn [n_new n_old]. rewrite odd_S.
    destruct (Nat.odd t) eqn:Eo; cbn [negb]; [|now apply HB]. intros c Hc. rewrite Hkeep; [now apply HA|].
    destruct Hc as (K1 & K2 & K3). apply (co_keep cf Hcf (S t) c K1 K2 K3). destruct t; [discriminate|lia].
Qed.

(** ** Links *)

(** The content of message [k] of a link. *)
Definition msg (cs : list coord) (k : nat) : list C := map (ser (S k * w)) cs.

Definition lrel (cs : list coord) (a b : nat) (l : link C) : Prop := link_rel (T0 + w) w None (msg cs) a b l.

Lemma due_none first stride k : link_due first stride None k = true.
Proof. unfold link_due. apply orb_true_r. Qed.

Lemma due_sto cs a b l t : lrel cs a b l -> due_at (lk_sto l) t = Nat.eqb (T0 + S b * w) t.
Proof.
  intros R. rewrite (lr_sto _ _ _ _ _ _ _ R), due_none. cbn [due_at]. unfold link_step_no. f_equal. lia.
Qed.

Lemma due_req cs a b l t : lrel cs a b l -> due_at (lk_req l) t = Nat.eqb (T0 + S a * w) t.
Proof.
  intros R. rewrite (lr_req _ _ _ _ _ _ _ R), due_none. cbn [due_at]. unfold link_step_no. f_equal. lia.
Qed.

(** The number of steps a node has still to perform. *)
Definition mu_pc (cf : node_cfg) (p : pc) : nat :=
  let P := (length (cf_in cf) + length (cf_out cf) + 2)%nat in
  match p with
  | PStep => O
  | PRecv gh rem => (length rem + length (cf_out cf) + 2 + (w - gh_t gh - 1) * P)%nat
  | PSend gh rem => (length rem + 1 + (w - gh_t gh - 1) * P)%nat
  end.

Definition mu (cf : node_cfg) (nd : node C) : nat :=
  (n_left nd * (w * (length (cf_in cf) + length (cf_out cf) + 2) + 1) + mu_pc cf (n_pc nd))%nat.

Notation node_step := (node_step upd nb edge nanos steerers).

(** What a step of node [i] does to the links: nothing; a message is
    received; a message is sent. *)
Inductive link_change (cf : node_cfg) (i m m' : nat) (nd nd' : node C) (ls : links C) : links C -> Prop :=
| lc_none :
    (forall j cs, In (j, cs) (cf_in cf) -> recvd m' nd' j = recvd m nd j) ->
    (forall j cs, In (j, cs) (cf_out cf) -> sent m' nd' j = sent m nd j) ->
    link_change cf i m m' nd nd' ls ls
| lc_recv j cs l :
    In (j, cs) (cf_in cf) ->
    (forall j' cs', In (j', cs') (cf_in cf) -> j' <> j -> recvd m' nd' j' = recvd m nd j') ->
    (forall j' cs', In (j', cs') (cf_out cf) -> sent m' nd' j' = sent m nd j') ->
    (forall a, lrel cs a (recvd m nd j) (ls j i) -> lrel cs a (recvd m' nd' j) l) ->
    (length (lk_flight l) <= S (length (lk_flight (ls j i))))%nat ->
    link_change cf i m m' nd nd' ls (set_link ls j i l)
| lc_send j cs l :
    In (j, cs) (cf_out cf) ->
    (forall j' cs', In (j', cs') (cf_out cf) -> j' <> j -> sent m' nd' j' = sent m nd j') ->
    (forall j' cs', In (j', cs') (cf_in cf) -> recvd m' nd' j' = recvd m nd j') ->
    (forall b, lrel cs (sent m nd j) b (ls i j) -> lrel cs (sent m' nd' j) b l) ->
    (length (lk_flight l) <= S (length (lk_flight (ls i j))))%nat ->
    link_change cf i m m' nd nd' ls (set_link ls i j l).

Definition blocked (cf : node_cfg) (i m : nat) (ls : links C) (nd : node C) : Prop :=
  (n_pc nd = PStep /\ n_left nd = O) \/
  (exists j cs, In (j, cs) (cf_in cf) /\ lk_arrived (ls j i) = false /\ S (recvd m nd j) = m) \/
  (exists j cs, In (j, cs) (cf_out cf) /\ link_sent (ls i j) = false /\ sent m nd j = m /\ exists gh rem, n_pc nd = PSend gh rem).

Lemma node_step_ok cf i eager ls nd m : cfg_ok cf -> node_inv cf m nd ->
  (forall j cs, In (j, cs) (cf_in cf) -> exists a, lrel cs a (recvd m nd j) (ls j i)) ->
  (forall j cs, In (j, cs) (cf_out cf) -> exists b, lrel cs (sent m nd j) b (ls i j)) ->
  (node_step cf i eager ls nd = Wait /\ blocked cf i m ls nd) \/
  (exists nd' ls' m', node_step cf i eager ls nd = Ok (nd', ls') /\ node_inv cf m' nd' /\
     link_change cf i m m' nd nd' ls ls' /\ (mu cf nd' < mu cf nd)%nat).
Proof.
  intros Hcf Hinv Hin Hout. unfold StepperModel.node_step. destruct (n_pc nd) as [|gh [|[j cs] rem]|gh [|[j cs] rem]] eqn:Hpc.
  - (* kernel *)
    destruct (Nat.eqb_spec (n_left nd) 0) as [El|El]; [left; split; [reflexivity|]; left; auto|]. right.
    destruct (update1_ok cf m nd Hcf Hinv Hpc El) as (nd' & E & Hl & Hcase). rewrite E.
    destruct Hcase as [[Hpc' Hinv']|(gh & Hpc' & Hgt & Hinv')].
    + exists nd', ls, m. split; [reflexivity|]. split; [exact Hinv'|]. split.
      * apply lc_none; intros; unfold recvd, sent; now rewrite Hpc, Hpc'.
      * unfold mu. rewrite Hpc, Hpc', Hl. cbn [mu_pc]. nia.
    + exists nd', ls, (S m). split; [reflexivity|]. split; [exact Hinv'|]. split.
      * apply lc_none; intros; unfold recvd, sent; rewrite Hpc, Hpc'; [|reflexivity].
        rewrite Hgt. cbn [Nat.eqb andb pred]. erewrite waiting_in; eauto.
      * unfold mu. rewrite Hpc, Hpc', Hl. cbn [mu_pc]. rewrite Hgt. set (P := (length (cf_in cf) + length (cf_out cf) + 2)%nat).
        assert (length (cf_in cf) + length (cf_out cf) + 2 + (w - 0 - 1) * P = w * P)%nat by (unfold P; nia).
        set (X := (w * P + 1)%nat). assert (Hx : ((n_left nd - 1) * X + X = n_left nd * X)%nat) by nia. lia.
  - (* rim *)
    right. destruct (update_rim_ok cf m nd gh Hcf Hinv Hpc) as (nd' & gh' & E & Hinv' & Hpc' & Et & El). rewrite E. exists nd', ls, m.
    split; [reflexivity|]. split; [exact Hinv'|]. split.
    + apply lc_none; intros j cs Hj; unfold recvd, sent; rewrite Hpc, Hpc'; [now rewrite andb_false_r|].
      erewrite waiting_in by eauto. now rewrite andb_false_r.
    + unfold mu. rewrite Hpc, Hpc', El. cbn [mu_pc]. rewrite Et. cbn [length]. lia.
  - (* receive *)
    unfold node_inv in Hinv. rewrite Hpc in Hinv. destruct Hinv as (G & Hincl & Hnd & H0 & H1). pose proof G as (Ht & Hgi & Hsi & Hsg & Hgl & Hcg & Hcl & Hb1 & Hb2 & Hl & HN).
    assert (Hj : In (j, cs) (cf_in cf)) by (apply Hincl; now left). cbn [map fst] in Hnd. inversion Hnd as [|x y Hnj Hnd']; subst x y.
    destruct (Hin j cs Hj) as (a & R). rewrite (fst_clock _ _ _ Hcl), (due_sto cs a _ _ _ R).
    assert (Hrec : recvd m nd j = if Nat.eqb (gh_t gh) 0 then pred m else m).
    { unfold recvd. rewrite Hpc. erewrite waiting_in by (left; reflexivity). now rewrite andb_true_r. }
    destruct (Nat.eqb_spec (T0 + S (recvd m nd j) * w) (T0 + (m * w + gh_t gh))) as [E|E].
    + assert (Et : gh_t gh = O /\ S (recvd m nd j) = m).
      { rewrite Hrec in E |- *. destruct (Nat.eqb_spec (gh_t gh) 0) as [Ez|Ez]; [|nia]. split; [exact Ez|]. destruct m; [nia|reflexivity]. }
      destruct Et as [Et Em].
      destruct (get_due cs (T0 + w) w None Hw (msg cs) a (recvd m nd j) (ls j i) (n_old nd) (ser (m * w)) R (due_none _ _ _))
        as [[E1 Ea]|(l & g & E1 & Ea & R1 & K1 & K2)].
      { unfold msg, save_region. now rewrite Em. }
      * left. replace (T0 + (m * w + gh_t gh))%nat with (link_step_no (T0 + w) w (recvd m nd j)) by (unfold link_step_no; nia).
        rewrite E1. split; [reflexivity|]. right. left. exists j, cs. auto.
      * right. replace (T0 + (m * w + gh_t gh))%nat with (link_step_no (T0 + w) w (recvd m nd j)) by (unfold link_step_no; nia).
        assert (Ef : lk_flight l = lk_flight (ls j i)).
        { unfold link_get in E1. destruct (lk_sto (ls j i)); [now injection E1 as <- <-|].
          destruct (Nat.ltb _ _); [now injection E1 as <- <-|]. destruct (check_get _ _); [|discriminate].
          destruct (_ || _); [|discriminate]. destruct (load_region _ _ _); [|discriminate]. now injection E1 as <- <-. }
        rewrite E1. do 2 eexists. exists m. split; [reflexivity|]. split; [|split].
        -- unfold node_inv. cbn [set_pc set_old n_pc]. split; [exact G|]. split; [intros x Hx; apply Hincl; now right|]. split; [exact Hnd'|].
           split; [|rewrite Et; lia]. intros _ c Hc Hm. cbn [set_pc set_old n_old].
           destruct (in_dec (list_eq_dec Z.eq_dec) c cs) as [Hi|Hi]; [now apply K1|]. rewrite K2 by auto. apply H0; auto.
           destruct Hm as [Hm|Hm]; [auto|]. right. intros j' cs' [Hx|Hx]; [now injection Hx as <- <-|now apply (Hm j' cs')].
        -- apply (lc_recv _ _ _ _ _ _ _ j cs l).
           ++ exact Hj.
           ++ intros j' cs' _ Hne. unfold recvd. rewrite Hpc. cbn [set_pc n_pc waiting existsb fst].
              now rewrite (proj2 (Nat.eqb_neq j j')) by auto.
           ++ intros j' cs' _. unfold sent. now rewrite Hpc.
           ++ intros a' R'. unfold recvd at 1. cbn [set_pc n_pc]. rewrite waiting_out by auto. rewrite andb_false_r.
              destruct (get_due cs (T0 + w) w None Hw (msg cs) a' (recvd m nd j) (ls j i) (n_old nd) (ser (m * w)) R' (due_none _ _ _))
                as [[E1' Ea']|(l' & g' & E1' & Ea' & R1' & _)].
              { unfold msg, save_region. now rewrite Em. } { congruence. }
              rewrite E1 in E1'. injection E1' as <- <-. rewrite Em in R1'. exact R1'.
           ++ rewrite Ef. lia.
        -- unfold mu. rewrite Hpc. cbn [set_pc set_old n_left n_pc mu_pc length]. lia.
    + right. do 2 eexists. exists m. split; [reflexivity|]. split; [|split].
      * unfold node_inv. cbn [set_pc n_pc]. split; [exact G|]. split; [intros x Hx; apply Hincl; now right|]. split; [exact Hnd'|].
        split; [|exact H1]. intros Et c Hc Hm. cbn [set_pc n_old]. apply H0; auto. left. rewrite Hrec, Et in E. cbn [Nat.eqb] in E. destruct m; [reflexivity|].
        cbn [pred] in E. rewrite Nat.add_0_r in E. now elim E.
      * assert (Hone : (if Nat.eqb (gh_t gh) 0 then pred m else m) = m).
        { rewrite Hrec in E. destruct (Nat.eqb_spec (gh_t gh) 0) as [Ez|Ez]; [|reflexivity]. destruct m; [reflexivity|]. cbn [pred] in E. lia. }
        apply lc_none; intros j' cs' Hj'; unfold recvd, sent; rewrite Hpc; cbn [set_pc n_pc]; [|reflexivity].
        destruct (Nat.eqb (gh_t gh) 0); [|reflexivity]. cbn [andb]. rewrite Hone. destruct (waiting j' rem), (waiting j' ((j, cs) :: rem)); reflexivity.
      * unfold mu. rewrite Hpc. cbn [set_pc n_left n_pc mu_pc length]. lia.
  - (* end of the loop's body *)
    pose proof Hinv as Hinv0. unfold node_inv in Hinv. rewrite Hpc in Hinv. destruct Hinv as (G & _ & _ & H0 & H1). pose proof G as (Ht & Hgi & Hsi & Hsg & Hgl & Hcg & Hcl & Hb1 & Hb2 & Hl & HN).
    right. rewrite (co_w cf Hcf). destruct (Nat.ltb_spec (gh_t gh + 1) w) as [Hlt|Hge].
    + do 2 eexists. exists m. split; [reflexivity|]. split; [|split].
      * unfold node_inv. cbn [set_pc n_pc gh_t]. rewrite Nat.add_1_r. split; [|split; [apply incl_refl|split; [apply (co_in_nodup cf Hcf)|split; [discriminate|]]]].
        -- unfold ghost_inv. cbn [gh_t gh_gl gh_step gh_nano gh_init set_pc n_step n_nano n_rim n_ker n_sg n_si n_log n_left]. repeat (split; [assumption || lia|]). assumption.
        -- intros _. exact (conj H0 H1).
      * apply lc_none; intros j cs Hj; unfold recvd, sent; rewrite Hpc; cbn [set_pc n_pc gh_t]; rewrite ?Nat.add_1_r.
        -- reflexivity.
        -- destruct (Nat.eqb_spec (S (gh_t gh)) w); [lia|]. reflexivity.
      * unfold mu. rewrite Hpc. cbn [set_pc n_left n_pc mu_pc gh_t length]. set (P := (length (cf_in cf) + length (cf_out cf) + 2)%nat).
        assert ((w - gh_t gh - 1) * P = P + (w - (gh_t gh + 1) - 1) * P)%nat by nia. unfold P in *. lia.
    + assert (Et : S (gh_t gh) = w) by lia. destruct (finish_ghost_ok cf m nd gh Hcf Hinv0 Hpc Et) as (nd' & E & Hinv' & El & Hpc').
      rewrite E. exists nd', ls, m. split; [reflexivity|]. split; [exact Hinv'|]. split.
      * apply lc_none; intros j cs Hj; unfold recvd, sent; rewrite Hpc, Hpc'; [reflexivity|]. rewrite Et, Nat.eqb_refl. reflexivity.
      * unfold mu. rewrite Hpc, Hpc', El. cbn [mu_pc length]. lia.
  - (* send *)
    unfold node_inv in Hinv. rewrite Hpc in Hinv. destruct Hinv as (G & Hincl & Hnd & H0 & H1). pose proof G as (Ht & Hgi & Hsi & Hsg & Hgl & Hcg & Hcl & Hb1 & Hb2 & Hl & HN).
    assert (Hj : In (j, cs) (cf_out cf)) by (apply Hincl; now left). cbn [map fst] in Hnd. inversion Hnd as [|x y Hnj Hnd']; subst x y.
    destruct (Hout j cs Hj) as (b & R). rewrite (due_req cs _ b _ _ R), Hgl.
    assert (Hsent : sent m nd j = m).
    { unfold sent. rewrite Hpc. erewrite waiting_in by (left; reflexivity). now rewrite andb_false_r. }
    rewrite Hsent in R. rewrite Hsent. destruct (Nat.eqb_spec (T0 + S m * w) (T0 + m * w + S (gh_t gh))) as [E|E].
    + assert (Et : S (gh_t gh) = w) by nia. replace (T0 + m * w + S (gh_t gh))%nat with (link_step_no (T0 + w) w m) by (unfold link_step_no; nia).
      assert (Hmsg : msg cs m = save_region (n_old nd) cs).
      { unfold msg, save_region. apply map_ext_in. intros c Hc. symmetry. rewrite H0; [f_equal; lia|]. rewrite Et. apply (co_out cf Hcf j cs c Hj Hc). }
      destruct (put_due cs (T0 + w) w None Hw (msg cs) m b (ls i j) (n_old nd) eager R (due_none _ _ _) Hmsg) as [[E1 Es]|(l & E1 & Es & R1 & _)].
      * left. rewrite E1. split; [reflexivity|]. right. right. exists j, cs. split; [exact Hj|]. split; [exact Es|]. split; [exact Hsent|]. exists gh, ((j, cs) :: rem). exact Hpc.
      * right. rewrite E1. do 2 eexists. exists m. split; [reflexivity|]. split; [|split].
        -- unfold node_inv. cbn [set_pc n_pc]. split; [exact G|]. split; [intros x Hx; apply Hincl; now right|]. split; [exact Hnd'|]. exact (conj H0 H1).
        -- apply (lc_send _ _ _ _ _ _ _ j cs l).
           ++ exact Hj.
           ++ intros j' cs' _ Hne. unfold sent. rewrite Hpc. cbn [set_pc n_pc waiting existsb fst].
              now rewrite (proj2 (Nat.eqb_neq j j')) by auto.
           ++ intros j' cs' _. unfold recvd. now rewrite Hpc.
           ++ intros b' R'. unfold sent at 1. cbn [set_pc n_pc]. rewrite waiting_out by auto. rewrite Et, Nat.eqb_refl. cbn [negb andb].
              rewrite Hsent in R'.
              destruct (put_due cs (T0 + w) w None Hw (msg cs) m b' (ls i j) (n_old nd) eager R' (due_none _ _ _) Hmsg) as [[E1' Es']|(l' & E1' & Es' & R1' & _)]; [congruence|].
              rewrite E1 in E1'. injection E1' as <-. exact R1'.
           ++ unfold link_put in E1. destruct (check_put _ _); [injection E1 as <-; lia| |discriminate].
              rewrite Es in E1. injection E1 as <-. cbn [lk_flight]. rewrite app_length. cbn. lia.
        -- unfold mu. rewrite Hpc. cbn [set_pc n_left n_pc mu_pc length]. lia.
    + right. do 2 eexists. exists m. split; [reflexivity|]. split; [|split].
      * unfold node_inv. cbn [set_pc n_pc]. split; [exact G|]. split; [intros x Hx; apply Hincl; now right|]. split; [exact Hnd'|]. exact (conj H0 H1).
      * assert (Hneq : Nat.eqb (S (gh_t gh)) w = false) by (apply Nat.eqb_neq; nia).
        apply lc_none; intros j' cs' Hj'; unfold recvd, sent; rewrite Hpc; cbn [set_pc n_pc]; [reflexivity|]. now rewrite Hneq.
      * unfold mu. rewrite Hpc. cbn [set_pc n_left n_pc mu_pc length]. lia.
Qed.

(** ** All nodes *)

Context (cfs : list node_cfg).
Hypothesis Hcfs : forall i cf, nth_error cfs i = Some cf -> cfg_ok cf.
Hypothesis Hmatch : forall i j cfi cfj cs, nth_error cfs i = Some cfi -> nth_error cfs j = Some cfj ->
  (In (j, cs) (cf_out cfi) <-> In (i, cs) (cf_in cfj)).
Hypothesis Hout_peer : forall i cf j cs, nth_error cfs i = Some cf -> In (j, cs) (cf_out cf) -> j <> i /\ (j < length cfs)%nat.
Hypothesis Hin_peer : forall i cf j cs, nth_error cfs i = Some cf -> In (j, cs) (cf_in cf) -> j <> i /\ (j < length cfs)%nat.

Notation sim_step := (sim_step upd nb edge nanos steerers cfs).

Record sim_inv (ms : nat -> nat) (st : sim C) : Prop := {
  si_len : length (s_nodes st) = length cfs;
  si_node : forall i cf nd, nth_error cfs i = Some cf -> nth_error (s_nodes st) i = Some nd -> node_inv cf (ms i) nd;
  si_link : forall i j cf ndi ndj cs, nth_error cfs i = Some cf -> nth_error (s_nodes st) i = Some ndi -> nth_error (s_nodes st) j = Some ndj ->
    In (j, cs) (cf_out cf) -> lrel cs (sent (ms i) ndi j) (recvd (ms j) ndj i) (s_links st i j);
  si_flight : forall i j, lk_flight (s_links st i j) <> [] -> exists cf cs, nth_error cfs i = Some cf /\ In (j, cs) (cf_out cf)
}.

Lemma nth_ex {A} (l : list A) i : (i < length l)%nat -> exists x, nth_error l i = Some x.
Proof. intros H. destruct (nth_error l i) eqn:E; eauto. apply nth_error_None in E. lia. Qed.

Lemma nth_lt {A} (l : list A) i x : nth_error l i = Some x -> (i < length l)%nat.
Proof. intros H. apply nth_error_Some. congruence. Qed.

(** ** Termination *)

Definition sum (f : nat -> nat) (n : nat) : nat := fold_right (fun i s => (f i + s)%nat) O (seq 0 n).

Lemma sum_bump f g x d n : (forall i, i <> x -> f i <= g i)%nat -> (f x <= g x + d)%nat -> (sum f n <= sum g n + d)%nat.
Proof.
  intros H1 H2. unfold sum. generalize (seq_NoDup n 0). generalize (seq 0 n). induction l as [|i l IH]; intros Hnd; cbn [fold_right]; [lia|].
  inversion Hnd as [|y z Hni Hnd']; subst. destruct (Nat.eq_dec i x) as [->|Hne].
  - assert (fold_right (fun i s => (f i + s)%nat) O l <= fold_right (fun i s => (g i + s)%nat) O l)%nat; [|lia].
    clear IH Hnd Hnd'. induction l as [|i l IH]; cbn [fold_right]; [lia|].
    assert (i <> x) by (intros ->; apply Hni; now left). specialize (H1 i H). assert (~ In x l) by (intros Hx; apply Hni; now right). specialize (IH H0). lia.
  - specialize (H1 i Hne). specialize (IH Hnd'). lia.
Qed.

Lemma sum_drop f g x d n : (x < n)%nat -> (forall i, i <> x -> f i = g i) -> (f x + d <= g x)%nat -> (sum f n + d <= sum g n)%nat.
Proof.
  intros Hx H1 H2. unfold sum. assert (Hin : In x (seq 0 n)) by (apply in_seq; lia). revert Hin. generalize (seq_NoDup n 0). generalize (seq 0 n).
  induction l as [|i l IH]; intros Hnd Hin; [destruct Hin|]; cbn [fold_right].
  inversion Hnd as [|y z Hni Hnd']; subst. destruct (Nat.eq_dec i x) as [->|Hne].
  - assert (fold_right (fun i s => (f i + s)%nat) O l = fold_right (fun i s => (g i + s)%nat) O l)%nat; [|lia].
    clear IH Hnd Hnd' Hin. induction l as [|i l IH]; cbn [fold_right]; [lia|].
    assert (Hi : i <> x) by (intros ->; apply Hni; now left). rewrite (H1 i Hi). assert (Hl : ~ In x l) by (intros Hl; apply Hni; now right). specialize (IH Hl). lia.
  - destruct Hin as [->|Hin]; [now elim Hne|]. rewrite (H1 i Hne). specialize (IH Hnd' Hin). lia.
Qed.

Definition node_measure (nodes : list (node C)) (i : nat) : nat :=
  match nth_error cfs i, nth_error nodes i with Some cf, Some nd => mu cf nd | _, _ => O end.

Definition measure (st : sim C) : nat :=
  (2 * sum (node_measure (s_nodes st)) (length cfs) +
   sum (fun i => sum (fun j => length (lk_flight (s_links st i j))) (length cfs)) (length cfs))%nat.

Lemma set_link_same (ls : links C) i j l : set_link ls i j l i j = l.
Proof. unfold set_link. now rewrite !Nat.eqb_refl. Qed.

Lemma set_link_other (ls : links C) i j l a b : a <> i \/ b <> j -> set_link ls i j l a b = ls a b.
Proof.
  unfold set_link. destruct (Nat.eqb_spec a i), (Nat.eqb_spec b j); auto. intros []; contradiction.
Qed.

Lemma flights_bump (ls : links C) i j l d n : (length (lk_flight l) <= length (lk_flight (ls i j)) + d)%nat ->
  (sum (fun a => sum (fun b => length (lk_flight (set_link ls i j l a b))) n) n <=
   sum (fun a => sum (fun b => length (lk_flight (ls a b))) n) n + d)%nat.
Proof.
  intros H. apply (sum_bump _ _ i).
  - intros a Ha. apply Nat.eq_le_incl. unfold sum. induction (seq 0 n) as [|b s IH]; [reflexivity|]. cbn [fold_right].
    f_equal; [|exact IH]. now rewrite set_link_other by auto.
  - apply (sum_bump _ _ j); [|now rewrite set_link_same]. intros b Hb. now rewrite set_link_other by auto.
Qed.

Lemma flights_drop (ls : links C) i j l d n : (i < n)%nat -> (j < n)%nat -> (length (lk_flight l) + d <= length (lk_flight (ls i j)))%nat ->
  (sum (fun a => sum (fun b => length (lk_flight (set_link ls i j l a b))) n) n + d <=
   sum (fun a => sum (fun b => length (lk_flight (ls a b))) n) n)%nat.
Proof.
  intros Hi Hj H. apply (sum_drop _ _ i); [exact Hi| |].
  - intros a Ha. unfold sum. induction (seq 0 n) as [|b s IH]; [reflexivity|]. cbn [fold_right].
    f_equal; [|exact IH]. now rewrite set_link_other by auto.
  - apply (sum_drop _ _ j); [exact Hj| |now rewrite set_link_same]. intros b Hb. now rewrite set_link_other by auto.
Qed.

Lemma nodes_drop nodes i nd nd' cf : nth_error cfs i = Some cf -> nth_error nodes i = Some nd -> (mu cf nd' < mu cf nd)%nat ->
  (sum (node_measure (set_nth nodes i nd')) (length cfs) + 1 <= sum (node_measure nodes) (length cfs))%nat.
Proof.
  intros Hcf Hnd Hmu. pose proof (nth_lt _ _ _ Hnd) as Hi. apply (sum_drop _ _ i); [now apply nth_lt in Hcf| |].
  - intros a Ha. unfold node_measure. rewrite nth_set_nth by auto. now rewrite (proj2 (Nat.eqb_neq i a)) by auto.
  - unfold node_measure. rewrite Hcf, nth_set_nth by auto. rewrite Nat.eqb_refl, Hnd. lia.
Qed.

(** ** Every step preserves the invariant *)

Definition fset (ms : nat -> nat) (i m : nat) : nat -> nat := fun a => if Nat.eqb a i then m else ms a.

Lemma links_of_node ms st i cf nd : sim_inv ms st -> nth_error cfs i = Some cf -> nth_error (s_nodes st) i = Some nd ->
  (forall j cs, In (j, cs) (cf_in cf) -> exists a, lrel cs a (recvd (ms i) nd j) (s_links st j i)) /\
  (forall j cs, In (j, cs) (cf_out cf) -> exists b, lrel cs (sent (ms i) nd j) b (s_links st i j)).
Proof.
  intros Hi Hcf Hnd. split; intros j cs Hj.
  - destruct (Hin_peer i cf j cs Hcf Hj) as [_ Hlt]. destruct (nth_ex cfs j Hlt) as (cfj & Hcfj).
    destruct (nth_ex (s_nodes st) j) as (ndj & Hndj); [rewrite (si_len _ _ Hi); exact Hlt|].
    exists (sent (ms j) ndj i). apply (si_link _ _ Hi j i cfj); auto. apply (Hmatch j i cfj cf cs Hcfj Hcf). exact Hj.
  - destruct (Hout_peer i cf j cs Hcf Hj) as [_ Hlt].
    destruct (nth_ex (s_nodes st) j) as (ndj & Hndj); [rewrite (si_len _ _ Hi); exact Hlt|].
    exists (recvd (ms j) ndj i). now apply (si_link _ _ Hi i j cf).
Qed.

Lemma pairs_unique l (j : nat) (cs cs' : list coord) : NoDup (map fst l) -> In (j, cs) l -> In (j, cs') l -> cs = cs'.
Proof.
  induction l as [|[x y] l IH]; intros Hnd H1 H2; [destruct H1|]. cbn in Hnd. inversion Hnd as [|a b Hn Hnd']; subst.
  destruct H1 as [H1|H1], H2 as [H2|H2].
  - congruence.
  - injection H1 as -> ->. exfalso. apply Hn. apply (in_map fst) in H2. exact H2.
  - injection H2 as -> ->. exfalso. apply Hn. apply (in_map fst) in H1. exact H1.
  - now apply IH.
Qed.

Lemma sim_step_ok ms st e : sim_inv ms st ->
  match sim_step st e with
  | Ok st' => exists ms', sim_inv ms' st' /\ (measure st' < measure st)%nat
  | Wait => True
  | Fail => False
  end.
Proof.
  intros Hi. destruct e as [i eager|i j]; cbn [StepperModel.sim_step].
  - destruct (nth_error cfs i) as [cf|] eqn:Hcf; [|exact Logic.I]. destruct (nth_error (s_nodes st) i) as [nd|] eqn:Hnd; [|exact Logic.I].
    destruct (links_of_node ms st i cf nd Hi Hcf Hnd) as [L1 L2].
    destruct (node_step_ok cf i eager (s_links st) nd (ms i) (Hcfs i cf Hcf) (si_node _ _ Hi i cf nd Hcf Hnd) L1 L2)
      as [[E _]|(nd' & ls' & m' & E & Hinv' & Hch & Hmu)]; rewrite E; [exact Logic.I|].
    pose proof (nth_lt _ _ _ Hnd) as Hlt. exists (fset ms i m').
    assert (Hnth : forall a, nth_error (set_nth (s_nodes st) i nd') a = if Nat.eqb i a then Some nd' else nth_error (s_nodes st) a).
    { intros a. now apply nth_set_nth. }
    assert (Hfs : fset ms i m' i = m') by (unfold fset; now rewrite Nat.eqb_refl).
    assert (Hfo : forall a, a <> i -> fset ms i m' a = ms a).
    { intros a Ha. unfold fset. now rewrite (proj2 (Nat.eqb_neq a i) Ha). }
    split; [split|]; cbn [s_nodes s_links].
    + rewrite set_nth_length. apply (si_len _ _ Hi).
    + intros a cfa nda Hcfa Hnda. rewrite Hnth in Hnda. destruct (Nat.eqb_spec i a) as [<-|Hne].
      * injection Hnda as <-. rewrite Hfs. congruence.
      * rewrite Hfo by auto. now apply (si_node _ _ Hi).
    + intros a b cfa nda ndb cs Hcfa Hnda Hndb Hab. rewrite Hnth in Hnda, Hndb. destruct (Hout_peer a cfa b cs Hcfa Hab) as [Hne Hblt].
      destruct (Nat.eqb_spec i a) as [<-|Hia]; [|destruct (Nat.eqb_spec i b) as [<-|Hib]].
      * injection Hnda as <-. rewrite Hcf in Hcfa. injection Hcfa as <-. rewrite (proj2 (Nat.eqb_neq i b)) in Hndb by auto.
        rewrite Hfs, Hfo by auto. pose proof (si_link _ _ Hi i b cf nd ndb cs Hcf Hnd Hndb Hab) as R.
        destruct Hch as [Hr Hs|j cs' l Hj Hr Hs Hl _|j cs' l Hj Hs Hr Hl _].
        -- now rewrite (Hs b cs Hab).
        -- rewrite (Hs b cs Hab). rewrite set_link_other; [exact R|]. left. intros ->. destruct (Hin_peer j cf j cs' Hcf Hj). now auto.
        -- destruct (Nat.eq_dec b j) as [->|Hbj].
           ++ rewrite set_link_same. assert (cs' = cs) by (eapply pairs_unique; [apply (co_out_nodup cf (Hcfs i cf Hcf))|exact Hj|exact Hab]). subst cs'. now apply Hl.
           ++ rewrite (Hs b cs Hab Hbj). rewrite set_link_other by auto. exact R.
      * injection Hndb as <-. rewrite Hfs, Hfo by auto.
        pose proof (si_link _ _ Hi a i cfa nda nd cs Hcfa Hnda Hnd Hab) as R. pose proof (proj1 (Hmatch a i cfa cf cs Hcfa Hcf) Hab) as Hba.
        destruct Hch as [Hr Hs|j cs' l Hj Hr Hs Hl _|j cs' l Hj Hs Hr Hl _].
        -- now rewrite (Hr a cs Hba).
        -- destruct (Nat.eq_dec a j) as [->|Haj].
           ++ rewrite set_link_same. assert (cs' = cs) by (eapply pairs_unique; [apply (co_in_nodup cf (Hcfs i cf Hcf))|exact Hj|exact Hba]). subst cs'. now apply Hl.
           ++ rewrite (Hr a cs Hba Haj). rewrite set_link_other by auto. exact R.
        -- rewrite (Hr a cs Hba). rewrite set_link_other by auto. exact R.
      * rewrite !Hfo by auto. pose proof (si_link _ _ Hi a b cfa nda ndb cs Hcfa Hnda Hndb Hab) as R.
        destruct Hch as [Hr Hs|j cs' l Hj Hr Hs Hl _|j cs' l Hj Hs Hr Hl _]; [exact R|rewrite set_link_other; auto|rewrite set_link_other; auto].
    + intros a b Hf. destruct Hch as [Hr Hs|j cs' l Hj Hr Hs Hl Hlen|j cs' l Hj Hs Hr Hl _]; [now apply (si_flight _ _ Hi)| |].
      * destruct (Nat.eq_dec a j) as [->|Ha]; [destruct (Nat.eq_dec b i) as [->|Hb]|]; [|rewrite set_link_other in Hf by auto; now apply (si_flight _ _ Hi)|rewrite set_link_other in Hf by auto; now apply (si_flight _ _ Hi)].
        destruct (Hin_peer i cf j cs' Hcf Hj) as [_ Hjlt]. destruct (nth_ex cfs j Hjlt) as (cfj & Hcfj). exists cfj, cs'. split; [exact Hcfj|].
        now apply (Hmatch j i cfj cf cs' Hcfj Hcf).
      * destruct (Nat.eq_dec a i) as [->|Ha]; [destruct (Nat.eq_dec b j) as [->|Hb]|]; [|rewrite set_link_other in Hf by auto; now apply (si_flight _ _ Hi)|rewrite set_link_other in Hf by auto; now apply (si_flight _ _ Hi)].
        exists cf, cs'. auto.
    + unfold measure. cbn [s_nodes s_links]. pose proof (nodes_drop _ i nd nd' cf Hcf Hnd Hmu) as H1.
      assert (H2 : (sum (fun a => sum (fun b => length (lk_flight (ls' a b))) (length cfs)) (length cfs) <=
                sum (fun a => sum (fun b => length (lk_flight (s_links st a b))) (length cfs)) (length cfs) + 1)%nat).
      { destruct Hch as [Hr Hs|j cs' l Hj Hr Hs Hl Hlen|j cs' l Hj Hs Hr Hl Hlen]; [lia| |]; apply flights_bump; lia. }
      lia.
  - destruct (link_deliver (s_links st i j)) as [l|] eqn:E; [|exact Logic.I]. exists ms.
    assert (Hf : lk_flight (s_links st i j) <> []).
    { unfold link_deliver in E. destruct (lk_flight (s_links st i j)); [discriminate|discriminate]. }
    destruct (si_flight _ _ Hi i j Hf) as (cf & cs & Hcf & Hj). destruct (Hout_peer i cf j cs Hcf Hj) as [Hne Hlt].
    assert (Hlen : (length (lk_flight l) + 1 <= length (lk_flight (s_links st i j)))%nat).
    { unfold link_deliver in E. destruct (lk_flight (s_links st i j)); [discriminate|]. destruct (_ && _); [|discriminate]. injection E as <-. cbn. lia. }
    split; [split|]; cbn [s_nodes s_links].
    + apply (si_len _ _ Hi).
    + apply (si_node _ _ Hi).
    + intros a b cfa nda ndb cs' Hcfa Hnda Hndb Hab. pose proof (si_link _ _ Hi a b cfa nda ndb cs' Hcfa Hnda Hndb Hab) as R.
      destruct (Nat.eq_dec a i) as [->|Ha]; [destruct (Nat.eq_dec b j) as [->|Hb]|].
      * rewrite set_link_same. eapply deliver_rel; [exact R|exact E].
      * rewrite set_link_other by auto. exact R.
      * rewrite set_link_other by auto. exact R.
    + intros a b Hf'. destruct (Nat.eq_dec a i) as [->|Ha]; [destruct (Nat.eq_dec b j) as [->|Hb]|].
      * exists cf, cs. auto.
      * rewrite set_link_other in Hf' by auto. now apply (si_flight _ _ Hi).
      * rewrite set_link_other in Hf' by auto. now apply (si_flight _ _ Hi).
    + unfold measure. cbn [s_nodes s_links]. pose proof (flights_drop (s_links st) i j l 1 (length cfs) (nth_lt _ _ _ Hcf) Hlt Hlen). lia.
Qed.

Lemma sim_run_ok es : forall ms st, sim_inv ms st ->
  match sim_run upd nb edge nanos steerers cfs st es with
  | Ok st' => exists ms', sim_inv ms' st' /\ (measure st' + length es <= measure st)%nat
  | Wait => True
  | Fail => False
  end.
Proof.
  induction es as [|e es IH]; intros ms st Hi; cbn [sim_run]; [exists ms; split; [exact Hi|cbn [length]; lia]|].
  pose proof (sim_step_ok ms st e Hi) as H1. destruct (sim_step st e) as [st1| |]; [|exact Logic.I|exact H1].
  destruct H1 as (ms1 & Hi1 & Hm). specialize (IH ms1 st1 Hi1). destruct (sim_run _ _ _ _ _ _ st1 es) as [st2| |]; auto.
  destruct IH as (ms2 & Hi2 & Hm2). exists ms2. split; [exact Hi2|]. cbn [length]. lia.
Qed.

(** ** No deadlock *)

Definition done (nd : node C) : Prop := n_pc nd = PStep /\ n_left nd = O.

Lemma round_bound cf m nd : node_inv cf m nd -> (m * w <= N)%nat.
Proof.
  unfold node_inv. destruct (n_pc nd).
  - intros (k & _ & _ & _ & _ & _ & _ & _ & _ & _ & _ & H). lia.
  - intros ((_ & _ & _ & _ & _ & _ & _ & _ & _ & _ & H) & _). lia.
  - intros ((_ & _ & _ & _ & _ & _ & _ & _ & _ & _ & H) & _). lia.
Qed.

Lemma done_round cf m nd : node_inv cf m nd -> done nd -> (N < S m * w)%nat.
Proof. unfold node_inv. intros Hi [Hpc Hl]. rewrite Hpc in Hi. destruct Hi as (k & Hk & _ & _ & _ & _ & _ & _ & _ & _ & _ & H). lia. Qed.

Lemma sent_ge m nd j : (m <= sent m nd j)%nat.
Proof. unfold sent. destruct (n_pc nd); [lia|lia|]. destruct (_ && _); lia. Qed.

Lemma recvd_ge m nd j : (m <= S (recvd m nd j))%nat.
Proof. unfold recvd. destruct (n_pc nd); [lia| |lia]. destruct (_ && _); lia. Qed.

Lemma done_dec nd : done nd \/ ~ done nd.
Proof.
  unfold done. destruct (n_pc nd); [|right; now intros []|right; now intros []].
  destruct (Nat.eq_dec (n_left nd) 0); [left; auto|right; intros []; contradiction].
Qed.

Lemma progress ms st : sim_inv ms st -> forall v i nd, (ms i < v)%nat -> nth_error (s_nodes st) i = Some nd -> ~ done nd ->
  exists e st', sim_step st e = Ok st'.
Proof.
  intros Hi. induction v as [|v IH]; intros i nd Hv Hnd Hdone; [lia|].
  destruct (nth_ex cfs i) as (cf & Hcf); [rewrite <- (si_len _ _ Hi); eapply nth_lt; eauto|].
  pose proof (si_node _ _ Hi i cf nd Hcf Hnd) as Hinv. destruct (links_of_node ms st i cf nd Hi Hcf Hnd) as [L1 L2].
  destruct (node_step_ok cf i true (s_links st) nd (ms i) (Hcfs i cf Hcf) Hinv L1 L2) as [[E Hb]|(nd' & ls' & m' & E & _)].
  2:{ exists (EvNode i true). cbn [StepperModel.sim_step]. rewrite Hcf, Hnd, E. eauto. }
  pose proof (round_bound _ _ _ Hinv) as Hbound.
  destruct Hb as [Hb|[(j & cs & Hj & Ha & Hm)|(j & cs & Hj & Hs & Hm & _)]]; [contradiction| |].
  - destruct (Hin_peer i cf j cs Hcf Hj) as [Hne Hlt]. destruct (nth_ex cfs j Hlt) as (cfj & Hcfj).
    destruct (nth_ex (s_nodes st) j) as (ndj & Hndj); [rewrite (si_len _ _ Hi); exact Hlt|].
    pose proof (si_link _ _ Hi j i cfj ndj nd cs Hcfj Hndj Hnd (proj2 (Hmatch j i cfj cf cs Hcfj Hcf) Hj)) as R.
    destruct (Nat.lt_ge_cases (recvd (ms i) nd j) (sent (ms j) ndj i)) as [Hl|Hl].
    + destruct (link_deliver (s_links st j i)) as [l|] eqn:El; [|exfalso; eapply deliver_enabled; eauto using due_none].
      exists (EvArrive j i). cbn [StepperModel.sim_step]. rewrite El. eauto.
    + pose proof (sent_ge (ms j) ndj i). destruct (done_dec ndj) as [Hd|Hd].
      * exfalso. pose proof (done_round _ _ _ (si_node _ _ Hi j cfj ndj Hcfj Hndj) Hd). unfold sent in Hl. rewrite (proj1 Hd) in Hl. nia.
      * apply (IH j ndj); auto. lia.
  - destruct (Hout_peer i cf j cs Hcf Hj) as [Hne Hlt]. destruct (nth_ex cfs j Hlt) as (cfj & Hcfj).
    destruct (nth_ex (s_nodes st) j) as (ndj & Hndj); [rewrite (si_len _ _ Hi); exact Hlt|].
    pose proof (si_link _ _ Hi i j cf nd ndj cs Hcf Hnd Hndj Hj) as R.
    destruct (lk_arrived (s_links st i j)) eqn:Ha.
    + pose proof (not_sent _ _ _ Hw _ _ _ _ R Hs Ha) as Hlt2. rewrite Hm in Hlt2. pose proof (recvd_ge (ms j) ndj i). destruct (done_dec ndj) as [Hd|Hd].
      * exfalso. pose proof (done_round _ _ _ (si_node _ _ Hi j cfj ndj Hcfj Hndj) Hd). unfold recvd in Hlt2. rewrite (proj1 Hd) in Hlt2. nia.
      * apply (IH j ndj); auto. lia.
    + assert (Hf : lk_flight (s_links st i j) <> []).
      { unfold link_sent in Hs. destruct (lk_flight (s_links st i j)); [discriminate|discriminate]. }
      destruct (link_deliver (s_links st i j)) as [l|] eqn:El.
      * exists (EvArrive i j). cbn [StepperModel.sim_step]. rewrite El. eauto.
      * exfalso. unfold link_deliver in El. destruct (lk_flight (s_links st i j)); [now elim Hf|].
        rewrite Ha, (lr_posted _ _ _ _ _ _ _ R), due_none in El. discriminate.
Qed.

(** ** The initial state *)

Context (dflt : C) (start : nat) (ini : nat -> grid C).
Hypothesis HT0 : T0 = (start * nanos)%nat.
Definition igood (g : grid C) (P : coord -> Prop) := forall c, P c -> act_at 0 c (g c) = ser 0 c.
Hypothesis Hini : forall i cf, nth_error cfs i = Some cf -> igood (ini i) (fun c => inner cf w c \/ rim cf w c \/ halo cf c).

Lemma node_init_ok cf g0 : cfg_ok cf -> igood g0 (fun c => inner cf w c \/ rim cf w c \/ halo cf c) ->
  exists nd gh, node_init nanos steerers cf dflt start N g0 = Ok nd /\ node_inv cf 0 nd /\ n_pc nd = PRecv gh (cf_in cf) /\ gh_t gh = O.
Proof.
  intros Hcf Hg0. unfold node_init. rewrite (co_w cf Hcf).
  assert (E0 : global_step nanos start 0 = T0) by (unfold global_step; lia). rewrite E0.
  destruct (call_first (cf_outer cf) g0 (co_outer_nodup cf Hcf)) as (g1 & F1 & A1 & A2). rewrite F1.
  destruct (call_first (cf_own cf) g1 (co_own_nodup cf Hcf)) as (g & F2 & B1 & B2). rewrite F2.
  assert (Hg : good g 0 (fun c => inner cf w c \/ rim cf w c \/ halo cf c)).
  { intros c Hc. rewrite <- (Hg0 c Hc). destruct (in_dec (list_eq_dec Z.eq_dec) c (cf_own cf)) as [Ho|Ho].
    - rewrite B1 by exact Ho. rewrite A2 by (apply (co_disj_outer cf Hcf); exact Ho). reflexivity.
    - rewrite B2 by exact Ho. apply A1. destruct Hc as [Hc|[Hc|Hc]].
      + exfalso. apply Ho. apply (co_own cf Hcf). auto.
      + exfalso. apply Ho. apply (co_own cf Hcf). auto.
      + now apply (co_outer cf Hcf). }
  destruct (save_buf_rel 2 (rim_at cf w) (fbuf_init 2 dflt (rim_at cf w)) [] g T0) as (rm & E & R).
  { apply fbuf_init_rel. lia. } { apply queue_ok_items. constructor. } { constructor. } { cbn. lia. }
  rewrite E. cbn [app] in R.
  edestruct (start_ghost_ok cf 0 true) as (nd' & gh & E1 & Hinv' & _ & Hpc' & Hgt); [exact Hcf|reflexivity| | | | | | | | | |]; cycle 9.
  - rewrite E1. exists nd', gh. auto.
  - reflexivity.
  - reflexivity.
  - cbn [n_step n_nano Nat.mul]. split; lia.
  - cbn [n_old Nat.mul]. intros c Hc. apply Hg. auto.
  - cbn [n_old]. intros _ c Hc. apply Hg. auto.
  - cbn [n_rim Nat.mul]. rewrite Nat.add_0_r.
    replace (map (ser 0) (rim_at cf w)) with (map g (rim_at cf w)); [exact R|].
    apply map_ext_in. intros c Hc. apply Hg. auto.
  - cbn [n_ker]. apply fbuf_init_rel. lia.
  - cbn [n_log Nat.mul]. split; [reflexivity|]. split; [reflexivity|]. split.
    2:{ intros [|x [|y l1]] e l2 El He; cbn [app] in El.
        - injection El as <- _. discriminate.
        - injection El as <- <- _. eexists. split; [now left|]. split; reflexivity.
        - injection El as _ _ El. destruct l1; discriminate. }
    constructor; [|constructor; [|constructor]]; (split; [reflexivity|]); exists O; cbn [lg_time lg_grid lg_region]; (split; [lia|]); intros c Hc; apply Hg; auto.
  - reflexivity.
Qed.

Lemma init_nodes_ok l : forall i, (forall k cf, nth_error l k = Some cf -> cfg_ok cf /\ igood (ini (i + k)) (fun c => inner cf w c \/ rim cf w c \/ halo cf c)) ->
  exists nodes, init_nodes nanos steerers l dflt start N ini i = Ok nodes /\ length nodes = length l /\
    forall k cf nd, nth_error l k = Some cf -> nth_error nodes k = Some nd ->
      node_inv cf 0 nd /\ exists gh, n_pc nd = PRecv gh (cf_in cf) /\ gh_t gh = O.
Proof.
  induction l as [|cf l IH]; intros i Hl; cbn [init_nodes].
  - exists []. split; [reflexivity|]. split; [reflexivity|]. intros [|k] cf nd H; discriminate.
  - destruct (Hl O cf eq_refl) as [Hcf Hg]. rewrite Nat.add_0_r in Hg. destruct (node_init_ok cf (ini i) Hcf Hg) as (nd & gh & E & Hinv & Hpc & Hgt). rewrite E.
    destruct (IH (S i)) as (nodes & E1 & Elen & Hk).
    { intros k cf' Hk. rewrite Nat.add_succ_comm. now apply (Hl (S k)). }
    rewrite E1. exists (nd :: nodes). split; [reflexivity|]. split; [cbn; lia|].
    intros [|k] cf' nd' H1 H2; cbn [nth_error] in *; [injection H1 as <-; injection H2 as <-; eauto|]. now apply (Hk k).
Qed.

Lemma sim_init_ok : exists st, sim_init nanos steerers cfs dflt start N ini = Ok st /\ sim_inv (fun _ => O) st.
Proof.
  destruct (init_nodes_ok cfs 0) as (nodes & E & Elen & Hk).
  { intros k cf H. split; [eauto|]. now apply Hini. }
  unfold sim_init. rewrite E. eexists. split; [reflexivity|]. split; cbn [s_nodes s_links].
  - exact Elen.
  - intros i cf nd H1 H2. now apply (Hk i).
  - intros i j cf ndi ndj cs Hcf Hndi Hndj Hj. rewrite Hcf, (co_w cf (Hcfs i cf Hcf)).
    assert (E0 : global_step nanos start 0 = T0) by (unfold global_step; lia). rewrite E0.
    destruct (Hk i cf ndi Hcf Hndi) as (_ & gh & Hpc & Hgt).
    assert (Es : sent 0 ndi j = O) by (unfold sent; now rewrite Hpc).
    assert (Er : recvd 0 ndj i = O) by (unfold recvd; destruct (n_pc ndj); auto; destruct (_ && _); auto).
    rewrite Es, Er. apply charge_rel. exact Hw.
  - intros i j H. now elim H.
Qed.

End Facts.
