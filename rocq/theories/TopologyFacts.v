(** Facts on [normalize]. *)
From Verif Require Import Base ListFacts CoordModel CoordSpec CoordFacts.

(** At most one period outside. *)
Fixpoint one_period (dim c : coord) : Prop :=
  match dim, c with
  | [], [] => True
  | n :: dim', x :: c' => - n <= x < 2 * n /\ one_period dim' c'
  | _, _ => False
  end.

Lemma wrap_spec n x : 0 < n -> - n <= x < 2 * n -> 0 <= wrap x n < n /\ exists k, x = wrap x n + k * n.
Proof.
  intros Hn Hx. unfold wrap. destruct (Z.ltb_spec x 0); [split; [lia|]; exists (-1); lia|].
  destruct (Z.leb_spec n x); [split; [lia|]; exists 1; lia|]. split; [lia|]. exists 0. lia.
Qed.

Lemma wrap_unique n a b k : 0 <= a < n -> 0 <= b < n -> a = b + k * n -> a = b.
Proof. intros. assert (k = 0) by nia. lia. Qed.

Lemma wraps_to_unique t : forall dim c a b, wraps_to t dim c a -> wraps_to t dim c b -> a = b.
Proof.
  induction t as [|w t IH]; intros [|n dim] [|x c] [|y a] [|z b] Ha Hb; cbn in Ha, Hb; try tauto.
  destruct Ha as (Hy & Hxy & Ha), Hb as (Hz & Hxz & Hb). f_equal; [|eauto].
  destruct w.
  - destruct Hxy as [k1 E1], Hxz as [k2 E2]. apply (wrap_unique n y z (k2 - k1)); auto. lia.
  - congruence.
Qed.

Lemma normalize_edges_spec t : forall dim c, length t = length dim -> allpos dim -> one_period dim c ->
  out_of_bounds t c dim = false -> wraps_to t dim c (normalize_edges c dim).
Proof.
  induction t as [|w t IH]; intros [|n dim] [|x c] Hl Hp Hc Ho; try discriminate; cbn in Hc; try tauto; try exact I.
  cbn in Hl. injection Hl as Hl. apply Forall_cons_iff' in Hp. destruct Hp as [Hn Hp]. destruct Hc as [Hx Hc].
  cbn [out_of_bounds] in Ho. apply orb_false_iff in Ho. destruct Ho as [Ho1 Ho2].
  cbn [normalize_edges wraps_to]. destruct (wrap_spec n x Hn Hx) as [H1 H2]. split; auto.
  split; [|auto]. destruct w; auto. cbn in Ho1. unfold wrap.
  destruct (Z.ltb_spec x 0); [discriminate|]. destruct (Z.leb_spec n x); [discriminate|]. reflexivity.
Qed.

Lemma out_of_bounds_spec t : forall dim c, out_of_bounds t c dim = true -> forall c', ~ wraps_to t dim c c'.
Proof.
  induction t as [|w t IH]; intros [|n dim] [|x c] Ho [|x' c'] H; cbn in *; try discriminate; try tauto.
  destruct H as (H1 & H2 & H3). apply orb_true_iff in Ho. destruct Ho as [Ho|Ho]; [|eapply IH; eauto].
  destruct w; [discriminate|]. cbn in Ho. lia.
Qed.

Lemma normalize_spec t dim c : length t = length dim -> allpos dim -> one_period dim c ->
  (forall c', wraps_to t dim c c' -> normalize t c dim = c') /\
  ((forall c', ~ wraps_to t dim c c') -> normalize t c dim = diagonal (length c) (-1)).
Proof.
  intros Hl Hp Hc. unfold normalize. destruct (out_of_bounds t c dim) eqn:E.
  - split; auto. intros c' H. exfalso. eapply out_of_bounds_spec; eauto.
  - pose proof (normalize_edges_spec t dim c Hl Hp Hc E) as H. split.
    + intros c' H'. eapply wraps_to_unique; eauto.
    + intros H'. exfalso. eapply H'; eauto.
Qed.

Lemma wraps_to_grid t : forall dim c c', wraps_to t dim c c' -> in_grid dim c'.
Proof.
  induction t as [|w t IH]; intros [|n dim] [|x c] [|x' c'] H; cbn in H; try tauto; try exact I.
  destruct H as (H1 & _ & H3). apply in_grid_cons. split; eauto.
Qed.

Lemma grid_wraps_self t : forall dim c, length t = length dim -> in_grid dim c -> wraps_to t dim c c.
Proof.
  induction t as [|w t IH]; intros [|n dim] [|x c] Hl H; try discriminate; try (now destruct H); try exact I.
  apply in_grid_cons in H. destruct H as [H1 H2]. injection Hl as Hl. cbn. split; auto. split; auto.
  destruct w; auto. exists 0. lia.
Qed.

Lemma grid_one_period dim : allpos dim -> forall c, in_grid dim c -> one_period dim c.
Proof.
  induction 1 as [|n dim Hn Hp IH]; intros [|x c] H; try (now destruct H); try exact I.
  apply in_grid_cons in H. destruct H as [H1 H2]. split; [lia|]. now apply IH.
Qed.

Lemma diag_not_grid dim c : dim <> [] -> in_grid dim (diagonal c (-1)) -> False.
Proof.
  intros Hd H. destruct dim as [|n dim]; [congruence|]. destruct c; [destruct H|].
  change (diagonal (S c) (-1)) with (-1 :: diagonal c (-1)) in H. apply in_grid_cons in H. destruct H. lia.
Qed.

Lemma oob_diag t : forall dim c, length t = length dim -> length c = length dim -> out_of_bounds t c dim = true ->
  out_of_bounds t (diagonal (length c) (-1)) dim = true.
Proof.
  induction t as [|w t IH]; intros [|n dim] [|x c] Hl Hc H; try discriminate.
  cbn in *. apply orb_true_iff in H. apply orb_true_iff.
  destruct H as [H|H]; [left; destruct w; [discriminate|reflexivity]|right].
  apply IH; auto.
Qed.

Lemma normalize_idem t dim c : length t = length dim -> allpos dim -> one_period dim c ->
  normalize t (normalize t c dim) dim = normalize t c dim.
Proof.
  intros Hl Hp Hc. assert (Hlc : length c = length dim).
  { clear - Hc. revert c Hc. induction dim; intros [|x c] H; cbn in *; try tauto. f_equal. apply IHdim; tauto. }
  destruct (normalize_spec t dim c Hl Hp Hc) as [H1 H2].
  destruct (out_of_bounds t c dim) eqn:E.
  - unfold normalize at 2 3. rewrite E. unfold normalize. rewrite oob_diag by auto.
    unfold diagonal. now rewrite repeat_length.
  - pose proof (normalize_edges_spec t dim c Hl Hp Hc E) as H. rewrite (H1 _ H).
    apply wraps_to_grid in H. apply (normalize_spec t dim _ Hl Hp); [now apply grid_one_period|].
    now apply grid_wraps_self.
Qed.
