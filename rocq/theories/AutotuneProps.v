(** Simulation factories and the AutoTuningSimulator: what holds, and what does
    not. *)
From Coq Require Import ZArith QArith Qround List Bool String.
From Verif Require Import Base RegionOpsModel ParamModel ProxyModel AutotuneModel AutotuneSpec.
From Coq Require Import Lqa Lia.
Import ListNotations.
Open Scope Z_scope.

Section Generic.
Context {N : Type} (A : arith N) {P : Type} (dmin dmax : N) (duration : list (run (P := P)) -> option N).

(** ** Names *)

Lemma prepare_writers_trace n f (w : world (P := P)) : w_trace (snd (prepare_writers n f w)) = w_trace w.
Proof. revert f w. induction n as [|n IH]; intros f w; cbn; [reflexivity|]. now rewrite IH. Qed.

Lemma prepare_trace n r (w : world (P := P)) :
  w_trace (snd (prepare (N := N) n r w)) = w_trace w.
Proof.
  revert w. induction r as [|[m s] r IH]; intros w; cbn; [reflexivity|].
  pose proof (prepare_writers_trace n (s_factory s) w) as H.
  destruct (prepare_writers n (s_factory s) w) as [f w1]. specialize (IH w1).
  destruct (prepare n r w1) as [r1 w2]. cbn in *. congruence.
Qed.

Lemma prepare_names n (r : registry (N := N)) (w : world (P := P)) :
  map fst (fst (prepare n r w)) = map fst r.
Proof.
  revert w. induction r as [|[m s] r IH]; intros w; cbn; [reflexivity|].
  destruct (prepare_writers n (s_factory s) w) as [f w1]. specialize (IH w1).
  destruct (prepare n r w1) as [r1 w2]. cbn in *. congruence.
Qed.

Lemma get_none name (r : registry (N := N) (P := P)) : ~ In name (map fst r) -> registry_get name r = None.
Proof.
  induction r as [|[m s] r IH]; cbn; [reflexivity|]. intros H. destruct (String.eqb_spec m name); [tauto|]. apply IH. tauto.
Qed.

Lemma iter_sims n t : t_sims (Nat.iter n (tuner_add_writer (N := N) (P := P)) t) = t_sims t.
Proof. induction n as [|n IH]; [reflexivity|exact IH]. Qed.

(** ** C180: the constructor registers the serial simulation by another name *)
Theorem C180_run_refuted :
  forall (optimizer : P -> nat -> strategy) (threads cuda : bool) (defaults : kind -> P) (steps writers fuel : nat) (w : world),
    exists w',
      tuner_run A dmin duration optimizer fuel (Nat.iter writers tuner_add_writer (tuner_make dmax threads cuda defaults steps)) w
        = Invalid w'
      /\ w_trace w' = w_trace w.
Proof.
  intros optimizer threads cuda defaults steps writers fuel w. unfold tuner_run.
  set (t := Nat.iter writers _ _).
  assert (Hn : ~ In "SerialSimulation"%string (map fst (t_sims t))).
  { unfold t. rewrite iter_sims. destruct threads, cuda; cbn; intuition congruence. }
  pose proof (prepare_names (t_writers t) (t_sims t) w) as Hp. pose proof (prepare_trace (t_writers t) (t_sims t) w) as Ht.
  destruct (prepare (t_writers t) (t_sims t) w) as [sims w0]. cbn [fst snd] in Hp, Ht.
  exists w0. split; [|assumption].
  unfold normalize_steps, get_simulation. cbn [t_sims Z.eqb]. rewrite get_none by (rewrite Hp; exact Hn). reflexivity.
Qed.

(** ** C181: the first use of a factory *)

Definition add_writers (n : nat) (f : factory (P := P)) (w : world (P := P)) : factory * world :=
  Nat.iter n (fun fw => factory_add_writer (fst fw) (snd fw)) (f, w).

Lemma alive_In (w : world (P := P)) h : is_alive w h = true <-> In h (w_alive w).
Proof.
  unfold is_alive. rewrite existsb_exists. split.
  - intros [x [Hx He]]. apply Nat.eqb_eq in He. now subst.
  - intros H. exists h. split; [assumption|]. apply Nat.eqb_refl.
Qed.

Lemma add_writers_spec n : forall k ps (w : world (P := P)),
  world_ok w ->
  exists hs w', add_writers n (mkFactory k ps []) w = (mkFactory k ps hs, w')
    /\ length hs = n /\ NoDup hs /\ (forall h, In h hs -> In h (w_alive w') /\ ~ In h (w_alive w))
    /\ (forall h, In h (w_alive w') <-> In h hs \/ In h (w_alive w))
    /\ world_ok w' /\ w_trace w' = w_trace w /\ w_proxy w' = w_proxy w
    /\ hs = seq (w_next w) n /\ w_next w' = (w_next w + n)%nat.
Proof.
  induction n as [|n IH]; intros k ps w Hw.
  - exists [], w. cbn. repeat (split; try assumption; try reflexivity); try constructor; try tauto; try apply Hw; lia.
  - destruct (IH k ps w Hw) as [hs [w1 [He [Hl [Hnd [Hnew [Hall [[Hw1 Hw2] [Ht [Hp [Hq Hx]]]]]]]]]]].
    change (add_writers (S n) (mkFactory k ps []) w)
      with (let fw := add_writers n (mkFactory k ps []) w in factory_add_writer (fst fw) (snd fw)).
    rewrite He. cbn zeta. cbn [fst snd].
    unfold factory_add_writer, allocate. cbn.
    exists (hs ++ [w_next w1]), (mkWorld (w_next w1 :: w_alive w1) (S (w_next w1)) (w_trace w1) (w_proxy w1)).
    assert (Hn : ~ In (w_next w1) (w_alive w1)) by (intros H; apply Hw2 in H; lia).
    assert (Hn' : ~ In (w_next w1) (w_alive w)) by (intros H; apply Hn; apply Hall; now right).
    split; [reflexivity|]. split; [rewrite app_length; cbn; lia|]. split; [|split; [|split; [|split; [split|split; [|split; [|split]]]]]].
    + apply NoDup_rev in Hnd. rewrite <- (rev_involutive (hs ++ [w_next w1])). apply NoDup_rev.
      rewrite rev_app_distr. cbn. constructor; [|assumption].
      intros H. apply in_rev in H. apply Hn. apply (Hnew _ H).
    + intros h H. apply in_app_or in H. cbn in *. destruct H as [H|[H|[]]].
      * split; [right|]; now apply Hnew.
      * subst h. tauto.
    + intros h. cbn. rewrite in_app_iff, Hall. cbn. tauto.
    + cbn. constructor; assumption.
    + cbn. intros h [H|H]; [lia|]. apply Hw2 in H. lia.
    + exact Ht.
    + exact Hp.
    + change (hs ++ [w_next w1] = seq (w_next w) (S n)). rewrite seq_S, <- Hq, Hx. reflexivity.
    + cbn. lia.
Qed.

Lemma destroy_all_spec hs : forall w : world (P := P),
  NoDup hs -> (forall h, In h hs -> In h (w_alive w)) ->
  exists w', destroy_all w hs = Some w' /\ (forall h, In h (w_alive w') <-> In h (w_alive w) /\ ~ In h hs)
    /\ w_trace w' = w_trace w /\ w_proxy w' = w_proxy w.
Proof.
  induction hs as [|h hs IH]; intros w Hnd Ha.
  - exists w. cbn. repeat split; tauto.
  - cbn. unfold destroy. rewrite (proj2 (alive_In w h)) by (apply Ha; now left). cbn.
    inversion Hnd as [|? ? Hh Hnd' Heq]. subst.
    set (w1 := mkWorld _ _ _ _).
    assert (H1 : forall k, In k (w_alive w1) <-> In k (w_alive w) /\ k <> h).
    { intros k. cbn. rewrite filter_In, negb_true_iff, Nat.eqb_neq. tauto. }
    destruct (IH w1 Hnd') as [w' [He [Hw' Hr]]].
    { intros k Hk. apply H1. split; [apply Ha; now right|]. intros ->. contradiction. }
    exists w'. split; [exact He|]. split; [|exact Hr].
    intros k. rewrite Hw', H1. intuition congruence.
Qed.

Theorem C181_first_use :
  forall (k : kind) (ps p : P) (n : nat) (w : world),
    world_ok w ->
    exists hs w1 w2,
      add_writers n (mkFactory k ps []) w = (mkFactory k ps hs, w1)
      /\ hs = seq (w_next w) n /\ (forall h, In h hs -> ~ In h (w_alive w))
      /\ w_trace w2 = w_trace w ++ [mkRun (kind_name k) p (proxy_start (w_proxy w)) (proxy_max (w_proxy w)) hs]
      /\ (forall h, In h (w_alive w2) <-> In h (w_alive w))
      /\ evaluate A dmin duration (mkFactory k ps hs) p w1 =
           match reported A dmin k (duration (w_trace w2)) with Some x => Done x w2 | None => Failed w2 end.
Proof.
  intros k ps p n w Hw.
  destruct (add_writers_spec n k ps w Hw) as [hs [w1 [He [Hl [Hnd [Hnew [Hall [Hw1 [Ht [Hp [Hq _]]]]]]]]]]].
  set (r := mkRun (kind_name k) p (proxy_start (w_proxy w1)) (proxy_max (w_proxy w1)) hs).
  set (wa := mkWorld (w_alive w1) (w_next w1) (w_trace w1 ++ [r]) (w_proxy w1)).
  destruct (destroy_all_spec hs wa Hnd) as [w2 [Hd [Hal [Ht2 Hp2]]]].
  { intros h Hh. apply (Hnew h Hh). }
  exists hs, w1, w2. split; [exact He|]. split; [exact Hq|]. split; [intros h Hh; apply (Hnew h Hh)|].
  assert (Ht3 : w_trace w2 = w_trace w ++ [mkRun (kind_name k) p (proxy_start (w_proxy w)) (proxy_max (w_proxy w)) hs]).
  { rewrite Ht2. cbn. unfold r. now rewrite Ht, Hp. }
  split; [exact Ht3|]. split.
  - intros h. rewrite Hal. cbn. rewrite Hall. split; [tauto|]. intros H. split; [now right|]. intros Hh. now apply (Hnew h Hh).
  - unfold evaluate. cbn [f_writers f_kind].
    rewrite (proj2 (forallb_forall (is_alive w1) hs)) by (intros h Hh; apply alive_In; now apply Hnew).
    unfold proxy_clone. destruct (w_proxy w1) as [xo xn] eqn:Hx. cbn [x_obj x_new].
    unfold wa, r in Hd. cbn in Hd. cbn. rewrite Hd. rewrite Ht2. unfold wa, r. cbn. unfold reported.
    destruct (duration _); [reflexivity|]. destruct k; reflexivity.
Qed.

(** ** C182: the second use of a factory with writers *)

Lemma destroy_all_gone hs : forall (w w' : world (P := P)) h,
  destroy_all w hs = Some w' -> In h hs \/ ~ In h (w_alive w) -> ~ In h (w_alive w').
Proof.
  induction hs as [|x hs IH]; intros w w' h H Hh.
  - cbn in H. injection H as <-. destruct Hh as [[]|Hh]; exact Hh.
  - cbn in H. unfold destroy in H. destruct (is_alive w x); [|discriminate]. cbn in H.
    apply (IH _ _ h H). cbn. rewrite filter_In, negb_true_iff, Nat.eqb_neq. cbn in Hh.
    destruct (in_dec Nat.eq_dec h hs); [now left|]. right. intuition.
Qed.

Lemma evaluate_gone f p (w w' : world (P := P)) x h :
  evaluate A dmin duration f p w = Done x w' -> In h (f_writers f) -> ~ In h (w_alive w').
Proof.
  unfold evaluate. intros H Hh. destruct (forallb _ _); [|discriminate].
  destruct (destroy_all _ _) as [w1|] eqn:Hd; [|discriminate].
  assert (w1 = w') by (destruct (duration _); [congruence|destruct (f_kind f); congruence]). subst w1.
  apply (destroy_all_gone _ _ _ h Hd). now left.
Qed.

Theorem C182_second_use_refuted :
  forall (f : factory) (p p' : P) (w w' : world) (x : N),
    f_writers f <> [] ->
    evaluate A dmin duration f p w = Done x w' ->
    evaluate A dmin duration f p' w' = Undefined.
Proof.
  intros f p p' w w' x Hf He. destruct (f_writers f) as [|h hs] eqn:Hw; [contradiction|].
  pose proof (evaluate_gone f p w w' x h He) as Hg. rewrite Hw in Hg. specialize (Hg (or_introl eq_refl)).
  unfold evaluate. rewrite Hw. cbn [forallb].
  destruct (is_alive w' h) eqn:Ha; [|reflexivity]. apply alive_In in Ha. contradiction.
Qed.

(** ... so that no optimizer can evaluate such a factory more than once. *)
Theorem C182_optimizers_refuted :
  forall (f : factory) (p : P) (q : N -> P) (k : N -> N -> strategy) (w : world) (r : P * N) (w' : world),
    f_writers f <> [] ->
    optimize A dmin duration (Try p (fun x => Try (q x) (k x))) f w <> Done r w'.
Proof.
  intros f p q k w r w' Hf. cbn. destruct (evaluate A dmin duration f p w) as [x w1| | | |] eqn:He; cbn; try congruence.
  rewrite (C182_second_use_refuted f p (q x) w w1 x Hf He). cbn. congruence.
Qed.
End Generic.
Print Assumptions C180_run_refuted.
Print Assumptions C181_first_use.
Print Assumptions C182_second_use_refuted.
Print Assumptions C182_optimizers_refuted.

(** ** C183: choosing the number of steps *)

Section Normalize.
Context {P : Type} (dmin : Q).

Lemma steady_last c (tr : list (run (P := P))) r : steady c (tr ++ [r]) = Some (c * inject_Z (r_max r - r_start r))%Q.
Proof. unfold steady. now rewrite rev_app_distr. Qed.

Lemma evaluate_steady c f p n (w : world (P := P)) :
  f_writers f = [] -> 0 <= n -> 0 <= w_start (x_obj (w_proxy w)) -> w_start (x_obj (w_proxy w)) + n < 2 ^ 32 ->
  exists w', evaluate exact dmin (steady c) f p (set_steps n w) = Done (c * inject_Z n * inject_Z (-1))%Q w'
    /\ x_obj (w_proxy w') = x_obj (w_proxy w).
Proof.
  intros Hf Hn Hs Hb. unfold evaluate. rewrite Hf. cbn [forallb destroy_all]. rewrite steady_last. cbn [r_max r_start].
  assert (Hm : proxy_max (proxy_clone (w_proxy (set_steps n w))) - proxy_start (w_proxy (set_steps n w)) = n).
  { cbn. unfold proxy_max, proxy_start, proxy_clone, u32. cbn [x_obj x_new].
    rewrite Z.mod_small by (split; [apply Z.add_nonneg_nonneg; assumption|exact Hb]). apply Z.add_simpl_l. }
  rewrite Hm. eexists. split; reflexivity.
Qed.

(** The number of seconds which [n] steps take differs from the goal by less
    than a step. *)
Definition calibrated (c goal : Q) (n : Z) : Prop := (- goal - c < c * inject_Z n /\ c * inject_Z n < - goal + c)%Q.

Lemma exact_lt a b : a_lt exact a b = true <-> (a < b)%Q.
Proof. cbn. rewrite negb_true_iff. split; intros H.
  - apply Qnot_le_lt. intros Hl. apply Qle_bool_iff in Hl. congruence.
  - destruct (Qle_bool b a) eqn:E; [|reflexivity]. apply Qle_bool_iff in E. exfalso. apply (Qlt_not_le a b H E).
Qed.

Lemma calibrated_test c goal n :
  a_lt exact (a_add exact goal (c * inject_Z 1 * inject_Z (-1))%Q) (c * inject_Z n * inject_Z (-1))%Q
  && a_lt exact (c * inject_Z n * inject_Z (-1))%Q (a_sub exact goal (c * inject_Z 1 * inject_Z (-1))%Q) = true
  <-> calibrated c goal n.
Proof.
  rewrite andb_true_iff, !exact_lt. unfold calibrated. cbn [a_add a_sub exact].
  change (inject_Z 1) with 1%Q. change (inject_Z (-1)) with (-1)%Q.
  generalize (inject_Z n). intros q. set (x := (c * q)%Q).
  assert (Hx : (c * q == x)%Q) by reflexivity. clearbody x. split; intros [H1 H2]; split; lra.
Qed.

Definition next_steps (c goal : Q) (n : Z) : Q := (inject_Z n / (c * inject_Z n * inject_Z (-1)) * goal)%Q.

Lemma next_steps_val c goal n : (0 < c)%Q -> 0 < n -> (next_steps c goal n == - goal / c)%Q.
Proof.
  intros Hc Hn. unfold next_steps. change (inject_Z (-1)) with (-1)%Q.
  assert (Hn0 : ~ (inject_Z n == 0)%Q) by (rewrite <- (inject_Z_injective n 0) || (intros H; apply (inject_Z_injective n 0) in H; lia)).
  assert (Hc0 : ~ (c == 0)%Q) by (intros H; rewrite H in Hc; lra).
  field. tauto.
Qed.

Lemma next_steps_floor c goal n :
  (0 < c)%Q -> (goal < 0)%Q -> 0 < n -> qtrunc (next_steps c goal n) = Qfloor (- goal / c).
Proof.
  intros Hc Hg Hn. unfold qtrunc.
  assert (Hq : (0 <= next_steps c goal n)%Q).
  { rewrite (next_steps_val c goal n Hc Hn). apply Qle_shift_div_l; [assumption|]. lra. }
  apply Qle_bool_iff in Hq. rewrite Hq. apply Qfloor_comp. now apply next_steps_val.
Qed.

Lemma floor_calibrated c goal :
  (0 < c)%Q -> (goal < 0)%Q -> calibrated c goal (if Qfloor (- goal / c) <? 1 then 1 else Qfloor (- goal / c)).
Proof.
  intros Hc Hg. set (q := (- goal / c)%Q).
  assert (Hq : (c * q == - goal)%Q) by (unfold q; field; intros H; rewrite H in Hc; lra).
  pose proof (Qfloor_le q) as Hf1. pose proof (Qlt_floor q) as Hf2. rewrite inject_Z_plus in Hf2. change (inject_Z 1) with 1%Q in Hf2.
  unfold calibrated. destruct (Qfloor q <? 1) eqn:E.
  - change (inject_Z 1) with 1%Q.
    assert (Hl : (inject_Z (Qfloor q) <= 0)%Q) by (rewrite <- (Zle_Qle _ 0); apply Z.ltb_lt in E; lia).
    assert (q < 1)%Q by lra. split; nra.
  - split; nra.
Qed.

Theorem C183_normalize :
  forall (c goal : Q) (start : Z) (fuel : nat) (t : tuner) (s : simulation) (w : world (P := P)),
    (0 < c)%Q -> (goal < 0)%Q -> 1 < start ->
    registry_get "SerialSimulation" (t_sims t) = Some s -> f_writers (s_factory s) = [] ->
    let n0 := w_start (x_obj (w_proxy w)) in
    0 <= n0 -> n0 + start < 2 ^ 32 -> (- goal / c < inject_Z (2 ^ 32 - 1 - n0))%Q -> n0 + 1 < 2 ^ 32 - 1 ->
    exists n w',
      normalize_steps exact dmin (steady c) (S (S fuel)) goal start t w = Done n w'
      /\ 1 <= n /\ calibrated c goal n.
Proof.
  intros c goal start fuel t s w Hc Hg Hst Hs Hf n0 Hn0 Hb Hq Hb1.
  unfold normalize_steps. rewrite (proj2 (Z.eqb_neq start 0)) by lia. unfold get_simulation. rewrite Hs. cbn [bind].
  destruct (evaluate_steady c (s_factory s) (f_params (s_factory s)) 1 w Hf ltac:(lia) Hn0 ltac:(unfold n0 in *; change (2 ^ 32) with 4294967296 in *; lia))
    as [w1 [He1 Hp1]].
  rewrite He1. cbn [bind].
  cbn [normalize_loop].
  destruct (evaluate_steady c (s_factory s) (s_params s) start w1 Hf ltac:(lia) ltac:(rewrite Hp1; exact Hn0) ltac:(rewrite Hp1; exact Hb))
    as [w2 [He2 Hp2]].
  rewrite He2. cbn [bind]. unfold to_unsigned at 1. cbn [a_trunc a_mul a_div a_ofZ exact obind].
  change (inject_Z start / (c * inject_Z start * inject_Z (-1)) * goal)%Q with (next_steps c goal start).
  rewrite (next_steps_floor c goal start Hc Hg ltac:(lia)).
  pose proof (floor_calibrated c goal Hc Hg) as Hcal.
  set (fl := Qfloor (- goal / c)) in *.
  assert (Hfl0 : 0 <= fl).
  { unfold fl. change 0 with (Qfloor 0). apply Qfloor_resp_le. apply Qle_shift_div_l; [assumption|]. lra. }
  assert (Hfl1 : fl < 2 ^ 32 - 1 - n0).
  { rewrite Zlt_Qlt. apply (Qle_lt_trans _ (- goal / c)); [apply Qfloor_le|exact Hq]. }
  set (B := 2 ^ 32) in *. assert (HB : 2 < B) by reflexivity.
  assert (HBe : B = 2 ^ 32) by reflexivity. clearbody B.
  replace ((0 <=? fl) && (fl <? B)) with true by (symmetry; apply andb_true_iff; split; [apply Z.leb_le|apply Z.ltb_lt]; lia).
  match goal with |- context [negb ?x && negb _] => destruct x eqn:Ht1 end.
  { exists start, w2. split; [reflexivity|]. split; [lia|]. apply calibrated_test. exact Ht1. }
  rewrite (proj2 (Z.leb_gt start 1)) by lia. cbn [negb andb].
  set (m := if fl <? 1 then 1 else fl) in *.
  assert (Hm : 1 <= m /\ n0 + m < B) by (unfold m; destruct (fl <? 1) eqn:E; [apply Z.ltb_lt in E|apply Z.ltb_ge in E]; lia).
  cbn [normalize_loop].
  destruct (evaluate_steady c (s_factory s) (s_params s) m w2 Hf ltac:(lia) ltac:(rewrite Hp2, Hp1; exact Hn0) ltac:(rewrite Hp2, Hp1, <- HBe; apply Hm))
    as [w3 [He3 Hp3]].
  rewrite He3. cbn [bind]. unfold to_unsigned at 1. cbn [a_trunc a_mul a_div a_ofZ exact obind].
  change (inject_Z m / (c * inject_Z m * inject_Z (-1)) * goal)%Q with (next_steps c goal m).
  rewrite (next_steps_floor c goal m Hc Hg ltac:(lia)). fold fl. rewrite <- HBe.
  replace ((0 <=? fl) && (fl <? B)) with true by (symmetry; apply andb_true_iff; split; [apply Z.leb_le|apply Z.ltb_lt]; lia).
  rewrite (proj2 (calibrated_test c goal m)) by exact Hcal. cbn [negb andb].
  exists m, w3. split; [reflexivity|]. split; [lia|exact Hcal].
Qed.
End Normalize.

Print Assumptions C183_normalize.

(** ** C184: choosing the best simulation *)

Section Best.
Context {P : Type} (dmin dmax : Q) (Hmin : (0 < dmin)%Q).
Context (duration : list (run (P := P)) -> option Q) (Hpos : forall tr t, duration tr = Some t -> (0 < t)%Q).

Definition unfit (x : Q) : Prop := (x <= dmin)%Q.

Lemma evaluate_unfit f p (w : world (P := P)) x w' : evaluate exact dmin duration f p w = Done x w' -> unfit x.
Proof.
  unfold evaluate. destruct (forallb _ _); [|discriminate]. destruct (destroy_all _ _) as [w1|]; [|discriminate].
  destruct (duration _) as [t|] eqn:E.
  - intros H. apply Hpos in E. assert (Hx : x = (t * inject_Z (-1))%Q) by (cbn in H; congruence). rewrite Hx.
    unfold unfit. change (inject_Z (-1)) with (-1)%Q. lra.
  - destruct (f_kind f); try discriminate. intros H. assert (Hx : x = dmin) by congruence. rewrite Hx. apply Qle_refl.
Qed.

Lemma optimize_unfit (s : strategy (P := P)) : forall seen f w px w',
  honest dmin seen s -> (forall x, In x seen -> unfit x) ->
  optimize exact dmin duration s f w = Done px w' -> unfit (snd px).
Proof.
  induction s as [p x|p k IH]; intros seen f w px w' Hh Hs H.
  - cbn in H. assert (px = (p, x)) as -> by congruence. cbn in *. destruct Hh as [<-|Hh]; [apply Qle_refl|auto].
  - cbn in H. destruct (evaluate exact dmin duration f p w) as [x w1| | | |] eqn:He; try discriminate. cbn in H, Hh.
    apply (IH x (x :: seen) f w1 px w' (Hh x)); [|exact H].
    intros y [<-|Hy]; [|auto]. apply (evaluate_unfit _ _ _ _ _ He).
Qed.

Context (optimizer : P -> nat -> strategy (N := Q) (P := P)) (Hopt : forall p n, honest dmin [] (optimizer p n)).

Lemma run_test_unfit steps r : forall (w : world (P := P)) r' w',
  run_test exact dmin duration optimizer steps r w = Done r' w' ->
  map fst r' = map fst r /\ (forall ns, In ns r' -> unfit (s_fitness (snd ns))).
Proof.
  induction r as [|[m s] r IH]; intros w r' w' H; cbn in H.
  - injection H as <- <-. split; [reflexivity|]. intros ns [].
  - destruct (optimize exact dmin duration (optimizer (s_params s) steps) (s_factory s) w) as [px w1| | | |] eqn:Ho; try discriminate.
    cbn in H. destruct (run_test exact dmin duration optimizer steps r w1) as [r1 w2| | | |] eqn:Hr; try discriminate. cbn in H.
    assert (r' = (m, mkSimulation (s_factory s) (fst px) (snd px)) :: r1) as -> by congruence.
    destruct (IH _ _ _ Hr) as [Hn Hu]. split; [cbn; congruence|].
    intros ns [<-|Hi]; [|auto]. cbn. apply (optimize_unfit _ [] _ _ _ _ (Hopt _ _)) in Ho; [exact Ho|]. intros x [].
Qed.

Lemma get_best_unfit (r : registry (P := P)) :
  (forall ns, In ns r -> unfit (s_fitness (snd ns))) -> get_best exact dmin r = EmptyString.
Proof.
  unfold get_best. intros H.
  assert (Hf : fold_left (fun best (ns : string * simulation) => if a_lt exact (snd best) (s_fitness (snd ns)) then (fst ns, s_fitness (snd ns)) else best)
                 r (EmptyString, dmin) = (EmptyString, dmin)).
  { induction r as [|ns r IH]; [reflexivity|]. cbn [fold_left].
    destruct (a_lt exact (snd (EmptyString, dmin)) (s_fitness (snd ns))) eqn:E.
    - apply exact_lt in E. exfalso. apply (Qlt_not_le _ _ E). apply H. now left.
    - apply IH. intros x Hx. apply H. now right. }
  now rewrite Hf.
Qed.

Theorem C184_run_refuted :
  forall (fuel : nat) (t : tuner) (w : world (P := P)) (u : unit) (w' : world),
    ~ In EmptyString (map fst (t_sims t)) ->
    tuner_run exact dmin duration optimizer fuel t w <> Done u w'.
Proof.
  intros fuel t w u w' He. unfold tuner_run.
  pose proof (prepare_names (t_writers t) (t_sims t) w) as Hp.
  destruct (prepare (t_writers t) (t_sims t) w) as [sims w0]. cbn [fst] in Hp. cbn [t_sims t_steps t_writers].
  destruct (normalize_steps _ _ _ _ _ _ _ _) as [n w1| | | |]; cbn [bind]; try congruence.
  set (w2 := if n =? 0 then _ else _).
  destruct (run_test _ _ _ _ _ _ _) as [r' w3| | | |] eqn:Hr; cbn [bind]; try congruence.
  apply run_test_unfit in Hr. destruct Hr as [Hn Hu]. rewrite (get_best_unfit r' Hu).
  unfold run_to_completion, get_simulation. cbn [t_sims]. rewrite get_none by (rewrite Hn, Hp; exact He). cbn. congruence.
Qed.
End Best.
Print Assumptions C184_run_refuted.

(** ** Examples *)

Definition ex_world : world (P := nat) := mkWorld [7; 3]%nat 8 [] (proxy_make (mkWrapped 10 30)).
Definition ex_opt (p : nat) (n : nat) : strategy (N := Q) := Try p (fun x => Try (S p) (fun y => if Qle_bool x y then Finish (S p) y else Finish p x)).
Definition ex_dmin : Q := 1 # 1000000.

Example ex_world_ok : world_ok ex_world.
Proof. split; [cbn; repeat constructor; cbn; intuition congruence|]. cbn. intros h H. lia. Qed.

(** Two writers, one evaluation: 30 steps from step 10 on. *)
Example ex_first_use :
  let '(f, w) := add_writers 2 (mkFactory KSerial 0%nat []) ex_world in
  evaluate exact ex_dmin (steady (1 # 4)) f 5%nat w
  = Done ((1 # 4) * inject_Z 30 * inject_Z (-1))%Q (mkWorld [7; 3]%nat 10 [mkRun "SerialSimulator" 5%nat 10 40 [8; 9]%nat] (proxy_make (mkWrapped 10 30)))
  /\ evaluate exact ex_dmin (steady (1 # 4)) f 5%nat (mkWorld [7; 3]%nat 10 [mkRun "SerialSimulator" 5%nat 10 40 [8; 9]%nat] (proxy_make (mkWrapped 10 30)))
     = Undefined.
Proof. vm_compute. split; reflexivity. Qed.

(** A registry as the tests set it up. *)
Definition ex_tuner : tuner (N := Q) (P := nat) := add_named 9%Q "SerialSimulation" (mkFactory KSerial 0%nat []) (mkTuner [] 10 0).

(** 0.15 seconds per step: six steps take 0.9 seconds. *)
Example ex_normalize :
  match normalize_steps exact ex_dmin (steady (15 # 100)) 5 (-1)%Q 5 ex_tuner ex_world with Done n w => Some (n, length (w_trace w)) | _ => None end
  = Some (6, 3%nat).
Proof. vm_compute. reflexivity. Qed.

(** All simulations have been tested, but none is chosen. *)
Example ex_run :
  match tuner_run exact ex_dmin (steady (15 # 100)) ex_opt 5 ex_tuner ex_world with
  | Invalid w => Some (map (fun r => (r_params r, r_max r)) (w_trace w)) | _ => None end
  = Some [(0%nat, 11); (0%nat, 15); (0%nat, 16); (0%nat, 16); (1%nat, 16)].
Proof. vm_compute. reflexivity. Qed.

Example ex_honest : forall p n, honest ex_dmin [] (ex_opt p n).
Proof. intros p n x y. cbn. destruct (Qle_bool x y); cbn; tauto. Qed.
