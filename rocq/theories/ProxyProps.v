(** C49, C90: VarStepInitializerProxy. *)
From Verif Require Import Base ProxyModel.

Definition is_u32 (x : Z) : Prop := 0 <= x < 2 ^ 32.

(** What a proxy has to report: the request which came last decides, clones
    don't matter. [None]: nothing was requested so far. *)
Fixpoint request (os : list proxy_op) : option proxy_op :=
  match os with
  | [] => None
  | o :: os' => match request os', o with
                | Some r, _ => Some r
                | None, XClone => None
                | None, _ => Some o
                end
  end.

Lemma max_of_ops os : forall x w, x_obj x = w -> let x' := fold_left proxy_do os x in x_obj x' = w /\
  x_new x' = match request os with None => x_new x | Some XReset => u32 (w_max w - w_start w) | Some (XSet n) => n | Some XClone => x_new x end.
Proof.
  induction os as [|o os IH]; intros x w Hw; cbn [fold_left request]; [now split|].
  assert (Ho : x_obj (proxy_do x o) = w) by (destruct o; exact Hw). destruct (IH _ _ Ho) as [E1 E2]. split; [exact E1|]. rewrite E2.
  destruct (request os) as [[| |]|] eqn:R; try reflexivity.
  - exfalso. clear - R. induction os as [|o os IH]; [discriminate|]. cbn in R. destruct (request os) as [r|]; [apply IH; congruence|]. destruct o; discriminate.
  - destruct o; cbn [proxy_do proxy_reset proxy_set proxy_clone x_new]; [now rewrite Hw|reflexivity|reflexivity].
Qed.

(** The step count is that of the request which came last: resetMaxSteps
    restores the original value, setMaxSteps(n) makes the simulation end n
    steps after its start; for start step 0 the original value is reported
    unless something else is requested. The start step never changes. *)
Theorem C49_max_steps : forall w os, is_u32 (w_start w) -> is_u32 (w_max w) ->
  let x := fold_left proxy_do os (proxy_make w) in
  proxy_start x = w_start w /\
  (request os = Some XReset -> proxy_max x = w_max w) /\
  (forall n, request os = Some (XSet n) -> is_u32 (w_start w + n) -> proxy_max x = w_start w + n) /\
  (request os = None -> w_start w = 0 -> proxy_max x = w_max w).
Proof.
  intros w os Hs Hm x. destruct (max_of_ops os (proxy_make w) w eq_refl) as [E1 E2]. fold x in E1, E2. unfold is_u32 in *.
  unfold proxy_start, proxy_max. rewrite E1, E2. split; [reflexivity|]. split; [|split].
  - intros ->. unfold u32. rewrite Zplus_mod_idemp_r. replace (w_start w + (w_max w - w_start w)) with (w_max w) by ring. now apply Z.mod_small.
  - intros n -> Hn. unfold u32. now apply Z.mod_small.
  - intros -> ->. cbn [proxy_make x_new]. unfold u32. now apply Z.mod_small.
Qed.
Print Assumptions C49_max_steps.

Example C49_example : let w := mkWrapped 100 250 in
  proxy_max (fold_left proxy_do [XSet 7; XClone] (proxy_make w)) = 107 /\
  proxy_max (fold_left proxy_do [XSet 7; XReset; XClone] (proxy_make w)) = 250 /\
  proxy_max (proxy_make (mkWrapped 0 250)) = 250.
Proof. repeat split; vm_compute; reflexivity. Qed.

(** A new proxy takes the wrapped initializer's last step for its number of
    steps. *)
Theorem C90_new_proxy_refuted : exists w, 0 < w_start w < w_max w /\ w_max w < 2 ^ 32 /\ proxy_max (proxy_make w) <> w_max w.
Proof. exists (mkWrapped 100 250). vm_compute. repeat split; discriminate. Qed.
Print Assumptions C90_new_proxy_refuted.
