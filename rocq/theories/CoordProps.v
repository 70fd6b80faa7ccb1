(** Properties C09 (linear indices), C10 (box iteration) and C11 (topology
    normalisation). *)
From Verif Require Import Base ListFacts RegionSpec CoordModel CoordSpec RegionOpsModel RegionOps CoordFacts TopologyFacts.
From Coq Require Import Sorted.

(** ** C09 *)

(** [toIndex] and [indexToCoord] are inverse bijections between the grid's
    coordinates and [0 .. volume - 1]. *)
Theorem C09_index_bijection : forall dim, (1 <= length dim <= 3)%nat -> Forall (fun n => 0 < n) dim ->
  (forall c, in_grid dim c -> 0 <= to_index c dim < prod dim /\ index_to_coord dim (to_index c dim) = Some c) /\
  (forall i, 0 <= i < prod dim ->
     exists c, index_to_coord dim i = Some c /\ in_grid dim c /\ to_index c dim = i).
Proof.
  intros dim Hl Hp. split.
  - intros c Hc. pose proof (to_index_bound dim Hp c Hc). split; auto.
    rewrite index_to_coord_from by auto. f_equal. now apply from_to.
  - intros i Hi. exists (from_index dim i). split; [now apply index_to_coord_from|]. split.
    + now apply from_index_in.
    + now apply to_from.
Qed.
Print Assumptions C09_index_bijection.

(** Different coordinates have different indices. *)
Theorem C09_index_injective : forall dim a b, Forall (fun n => 0 < n) dim ->
  in_grid dim a -> in_grid dim b -> to_index a dim = to_index b dim -> a = b.
Proof.
  intros dim a b Hp Ha Hb E. rewrite <- (from_to dim Hp a Ha), <- (from_to dim Hp b Hb). now rewrite E.
Qed.
Print Assumptions C09_index_injective.

Example C09_example :
  index_to_coord [4; 3; 5] 47 = Some [3; 0; 2] /\ to_index [3; 0; 2] [4; 3; 5] = 47 /\ in_grid [4; 3; 5] [3; 0; 2].
Proof. repeat split; try reflexivity; cbn; lia. Qed.

(** ** C10 *)

(** Walking over a box whose extents are positive (the last one may be 0)
    terminates after at most volume many steps and yields every coordinate of
    the box exactly once, in increasing order. *)
Theorem C10_box_iteration : forall n b, box_regular (S n) b ->
  exists l, (forall fuel, (Z.to_nat (prod (b_dim b)) <= fuel)%nat -> box_coords fuel b = Some l) /\
    length l = Z.to_nat (prod (b_dim b)) /\ StronglySorted coord_lt l /\ (forall c, In c l <-> in_box b c).
Proof.
  intros n b Hb. exists (box_list b). split; [intros; now apply box_coords_spec with n|].
  split; [apply box_list_length|]. split; [now apply box_list_sorted with n|]. now apply box_list_in with n.
Qed.
Print Assumptions C10_box_iteration.

(** Streak-wise iteration covers the same coordinates by one streak per row;
    here the x-extent may be arbitrary. *)
Theorem C10_box_streak_iteration : forall n b,
  length (b_origin b) = S n -> length (b_dim b) = S n -> rows_regular b ->
  exists l, (forall fuel, (Z.to_nat (prod (removelast (b_dim b))) <= fuel)%nat -> box_streaks fuel b = Some l) /\
    (forall c, in_streaks l c <-> in_box b c) /\
    StronglySorted coord_lt (map s_origin l) /\
    Forall (fun s => s_x s = last (b_origin b) 0 /\ s_e s = last (b_origin b) 0 + last (b_dim b) 0) l.
Proof.
  intros n b Ho Hd Hr. assert (Hb : box_regular (S n) (origins_box b) /\ prod (b_dim (origins_box b)) <= prod (removelast (b_dim b))).
  { unfold rows_regular in Hr. unfold box_regular, origins_box. cbn [b_origin b_dim].
    destruct (b_dim b) as [|m [|m2 ms]] eqn:E; try tauto.
    - split; [repeat split; auto; cbn; destruct (0 <? m); lia|]. cbn. destruct (0 <? m); lia.
    - destruct Hr as [Hm Hms]. split.
      + split; auto. change (removelast (m :: m2 :: ms)) with (m :: removelast (m2 :: ms)).
        split.
        * pose proof (snoc_of (m2 :: ms) 0 (length ms) eq_refl) as Es.
          apply (f_equal (@length Z)) in Es. rewrite app_length in *. cbn [length] in *. lia.
        * cbn [app]. split; auto. apply Forall_app. split; auto. constructor; auto; lia.
      + rewrite prod_app1. lia. }
  destruct Hb as [Hb Hfuel]. eexists. split; [intros; apply box_streaks_spec with n; auto; lia|].
  split; [now apply box_streaks_cover with n|].
  assert (Hlen : forall c, In c (box_list (origins_box b)) ->
      c = removelast c ++ [last c 0] /\ last c 0 = last (b_origin b) 0).
  { intros c Hc. apply (box_list_in _ n Hb) in Hc.
    pose proof (inside_length _ _ _ Hc) as [_ Hl]. change (b_origin (origins_box b)) with (b_origin b) in *.
    rewrite Ho in Hl. symmetry in Hl.
    pose proof (snoc_of c 0 n Hl) as Ec. split; auto.
    pose proof (snoc_of (b_origin b) 0 n Ho) as Eo.
    unfold in_box in Hc. change (b_origin (origins_box b)) with (b_origin b) in Hc.
    set (lx := match b_dim b with [n] => if 0 <? n then 1 else 0 | _ => 1 end).
    assert (Ed : b_dim (origins_box b) = removelast (b_dim b) ++ [lx]).
    { unfold origins_box, lx; cbn [b_dim]. destruct (b_dim b) as [|a [|a2 dim]]; try discriminate; auto. }
    rewrite Ed in Hc. pose proof (snoc_of (b_dim b) 0 n Hd) as Edd.
    assert (length (removelast (b_origin b)) = n) by (rewrite Eo, app_length in Ho; cbn in Ho; lia).
    assert (length (removelast (b_dim b)) = n) by (rewrite Edd, app_length in Hd; cbn in Hd; lia).
    assert (length (removelast c) = n) by (rewrite Ec, app_length in Hl; cbn in Hl; lia).
    set (lo := last (b_origin b) 0) in *. set (po := removelast (b_origin b)) in *.
    rewrite Eo in Hc. rewrite Ec in Hc. apply inside_app in Hc; [|lia|lia]. destruct Hc as [_ [Hx _]].
    assert (lx <= 1) by (unfold lx; destruct (b_dim b) as [|a [|]]; try lia; destruct (0 <? a); lia).
    lia. }
  split.
  - rewrite map_map. pose proof (box_list_sorted _ n Hb) as Hs.
    rewrite (map_ext_in _ (fun c => c)); [rewrite map_id; exact Hs|].
    intros c Hc. unfold s_origin. cbn. symmetry. now apply Hlen.
  - apply Forall_forall. intros s Hs. apply in_map_iff in Hs. destruct Hs as (c & <- & Hc). cbn.
    split; auto. now apply Hlen.
Qed.
Print Assumptions C10_box_streak_iteration.

Example C10_example :
  box_regular 3 (mkBox [7; 0; -1] [2; 1; 2]) /\
  box_coords 4 (mkBox [7; 0; -1] [2; 1; 2]) = Some [[7; 0; -1]; [7; 0; 0]; [8; 0; -1]; [8; 0; 0]] /\
  box_streaks 2 (mkBox [7; 0; -1] [2; 1; 2]) = Some [mkStreak [7; 0] (-1) 1; mkStreak [8; 0] (-1) 1] /\
  box_regular 2 (mkBox [7; 0] [0; 4]) /\ box_coords 0 (mkBox [7; 0] [0; 4]) = Some [].
Proof. repeat split; try reflexivity; try lia; repeat constructor; cbn; lia. Qed.

(** Not so for other boxes without coordinates: the walk over a 2D box of
    width 0 and height 5 does not terminate, no matter how many steps are
    granted (in C++ the x-component is incremented until it overflows); the
    same holds for the streak-wise walk over a 3D box of depth 5 and height 0. *)
Theorem C53_degenerate_box_refuted :
  (exists b, length (b_origin b) = 2%nat /\ Forall (fun n => 0 <= n) (b_dim b) /\ (forall c, ~ in_box b c) /\
     forall fuel, box_coords fuel b = None) /\
  (exists b, length (b_origin b) = 3%nat /\ Forall (fun n => 0 <= n) (b_dim b) /\ (forall c, ~ in_box b c) /\
     forall fuel, box_streaks fuel b = None).
Proof.
  split.
  - exists (mkBox [0; 0] [5; 0]). split; auto. split; [repeat constructor; lia|]. split.
    + intros [|y [|x [|]]] H; cbn in H; try tauto. lia.
    + intros fuel. unfold box_coords. cbn [b_origin b_dim box_end zadd].
      assert (H : forall fuel x, 0 <= x -> box_run fuel [0; x] [5; 0] [0; 0] [5; 0] = None).
      { clear. induction fuel as [|f IH]; intros x Hx; cbn [box_run coord_eqb].
        - destruct (x =? 0); reflexivity.
        - cbn [Z.eqb andb]. cbn [box_next box_carry tl]. replace (x + 1 =? 0) with false by lia.
          rewrite IH by lia. reflexivity. }
      apply H. lia.
  - exists (mkBox [0; 0; 0] [5; 0; 3]). split; auto. split; [repeat constructor; lia|]. split.
    + intros [|z [|y [|x [|]]]] H; cbn in H; try tauto. lia.
    + intros fuel. unfold box_streaks. cbn [b_origin b_dim box_end_streak box_end box_streak_fin zadd removelast app last].
      assert (H : forall fuel y, 0 <= y -> box_run fuel [0; y; 0] [5; 0; 0] [0; 0; 0] [5; 0; 1] = None).
      { clear. induction fuel as [|f IH]; intros y Hy; cbn [box_run coord_eqb].
        - destruct (y =? 0); reflexivity.
        - cbn [Z.eqb andb]. cbn [box_next box_carry tl]. cbn [Z.add Z.eqb Pos.eqb].
          replace (y + 1 =? 0) with false by lia. rewrite IH by lia. reflexivity. }
      change (box_run fuel [0; 0; 0] [0 + 5; 0; 0] [0; 0; 0] [0 + 5; 0 + 0; 0 + 1])
        with (box_run fuel [0; 0; 0] [5; 0; 0] [0; 0; 0] [5; 0; 1]).
      rewrite H by lia. reflexivity.
Qed.
Print Assumptions C53_degenerate_box_refuted.

(** ** C11 *)

(** [normalize] of a coordinate at most one period outside of the grid: the
    unique in-bounds representative if there is one, else the flag value
    [(-1, -1, ...)], which is not an in-bounds coordinate. *)
Theorem C11_normalize : forall t dim c,
  length t = length dim -> dim <> [] -> Forall (fun n => 0 < n) dim -> one_period dim c ->
  (forall c', wraps_to t dim c c' -> normalize t c dim = c' /\ in_grid dim c') /\
  ((forall c', ~ wraps_to t dim c c') ->
     normalize t c dim = diagonal (length c) (-1) /\ ~ in_grid dim (normalize t c dim)) /\
  (in_grid dim c -> normalize t c dim = c) /\
  normalize t (normalize t c dim) dim = normalize t c dim.
Proof.
  intros t dim c Hl Hd Hp Hc. destruct (normalize_spec t dim c Hl Hp Hc) as [H1 H2].
  split; [|split; [|split]].
  - intros c' H. split; auto. eapply wraps_to_grid; eauto.
  - intros H. split; auto. rewrite (H2 H). intros Hg. eapply diag_not_grid; eauto.
  - intros H. apply H1. now apply grid_wraps_self.
  - now apply normalize_idem.
Qed.
Print Assumptions C11_normalize.

Example C11_example :
  normalize [true; false] [-3; 2] [5; 3] = [2; 2] /\ wraps_to [true; false] [5; 3] [-3; 2] [2; 2] /\
  one_period [5; 3] [-3; 2] /\
  normalize [true; false] [1; 3] [5; 3] = [-1; -1] /\ one_period [5; 3] [1; 3].
Proof.
  split; [reflexivity|]. split; [cbn; split; [lia|]; split; [exists (-1); reflexivity|]; lia|].
  split; [cbn; lia|]. split; [reflexivity|cbn; lia].
Qed.

(** [normalize] wraps only once: two periods outside of the grid the result
    is out of bounds. *)
Theorem C11_two_periods_refuted :
  exists dim c c', wraps_to (torus (length dim)) dim c c' /\ normalize (torus (length dim)) c dim <> c'.
Proof.
  exists [3], [7], [1]. split; [cbn; split; [lia|]; split; [exists 2; reflexivity|exact I]|]. vm_compute. congruence.
Qed.
