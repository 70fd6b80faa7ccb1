(** C50, C91, C92: grids of boxes with particles. *)
From Coq Require Import Permutation QArith Qround SpecFloat.
From Verif Require Import Base RegionOpsModel CoordModel CoordSpec CoordFacts GridSpec GridFacts ArrayModel ParamModel BoxModel BoxSpec BoxFacts.
From Coq Require Import Lqa Lia.
Open Scope Z_scope.

Section Main.
Context {P : Type}.
Variable pos : P -> list Q.
Let ok (b : boxcell Q P) (p : P) : bool := position_ok exact (pos p) (bx_origin b) (fadd exact (bx_origin b) (bx_dim b)).

Lemma ok_holds b p : length (bx_origin b) = length (bx_dim b) -> ok b p = true <-> holds pos b p.
Proof using.
  unfold ok, holds, position_ok. generalize (bx_origin b) (bx_dim b) (pos p). clear. intros o. induction o as [|x o IH]; intros [|y d] [|z p] L; try discriminate L;
    cbn [all2 fadd contains exact a_le a_lt a_add andb]; [now split|split; [discriminate|tauto]..|].
  rewrite <- (IH d p) by (cbn in L; lia). cbn [exact a_le a_lt]. rewrite !andb_true_iff, negb_true_iff, Qle_bool_iff. rewrite <- not_true_iff_false, Qle_bool_iff. split.
  - intros [[H1 H2] [H3 H4]]. split; [|now split]. split; [exact H1|now apply Qnot_le_lt].
  - intros [[H1 H3] [H2 H4]]. split; [now split|]. split; [now apply Qlt_not_le|exact H4].
Qed.

Lemma add_done cap o d fd : forall l l', add_contained exact pos cap o d fd l = Done l' -> l' = l ++ filter (fun p => position_ok exact (pos p) o d) fd.
Proof using.
  induction fd as [|p fd IH]; intros l l' E; cbn [add_contained filter] in *; [rewrite app_nil_r; congruence|].
  destruct (position_ok exact (pos p) o d); [|now apply IH]. unfold push in E. destruct cap as [k|]; [destruct (length l <? k)%nat; [|discriminate]|];
    rewrite (IH _ _ E), <- app_assoc; reflexivity.
Qed.

Lemma add_fits cap o d fd : forall l, (forall k, cap = Some k -> (length l + length (filter (fun p => position_ok exact (pos p) o d) fd) <= k)%nat) ->
  exists l', add_contained exact pos cap o d fd l = Done l'.
Proof using.
  induction fd as [|p fd IH]; intros l H; cbn [add_contained filter] in *; [now exists l|]. destruct (position_ok exact (pos p) o d); [|now apply IH].
  unfold push. destruct cap as [k|].
  - specialize (H k eq_refl) as Hk. cbn [length] in Hk. destruct (Nat.ltb_spec (length l) k); [|lia]. apply IH. intros k' Ek. injection Ek as <-. rewrite app_length. cbn; lia.
  - apply IH. discriminate.
Qed.

Variable t : topology.
Variable dim : coord.
Hypothesis Hdim : (1 <= length dim <= 3)%nat.
Hypothesis Hlarge : large_enough t dim.

Let n := length dim.
Let found (g : place -> boxcell Q P) (c : coord) : list P := flat_map (fun r => bx_parts (g (cell_hood t dim c r))) (box_list (hood_box n)).

Lemma found_spec g c : hood_particles g (cell_hood t dim c) n = Some (found g c).
Proof using Hdim. now apply hood_particles_spec. Qed.

Lemma self c : in_grid dim c -> cell_hood t dim c (diagonal n 0) = Some c.
Proof using Hlarge.
  intros Hc. destruct (large_allpos t dim Hlarge) as [Hl Hp]. unfold cell_hood. replace (zadd c (diagonal n 0)) with c; [now apply denotes_self|].
  pose proof (in_grid_length dim c Hc) as Hlen. fold n in Hlen. rewrite <- Hlen. clear. unfold diagonal. induction c as [|x c IH]; cbn; [reflexivity|]. rewrite <- IH. f_equal. lia.
Qed.

(** What the boxes take is a rearrangement of all particles. *)
Lemma redistribute g : moderate pos t dim g -> Permutation (flat_map (fun c => filter (ok (g (Some c))) (found g c)) (all_coords dim)) (particles dim g).
Proof using Hdim Hlarge.
  intros (Hedge & Hlen & Hover & Hmod). unfold particles.
  set (nb := fun c c' => existsb (fun r => place_eqb (cell_hood t dim c r) (Some c')) (box_list (hood_box n))).
  assert (Hnb : forall c c', nb c c' = true <-> neighbours t dim c c').
  { intros c c'. unfold nb. rewrite existsb_exists. split.
    - intros (r & Hr & E). apply hood_list_in in Hr as [H1 H2]; [|unfold n; lia]. exists r. split; [exact H1|]. split; [exact H2|]. unfold place_eqb in E. destruct (place_dec _ _); [assumption|discriminate].
    - intros (r & H1 & H2 & H3). exists r. split; [apply hood_list_in; [unfold n; lia|now split]|]. unfold place_eqb. destruct (place_dec _ _); [reflexivity|contradiction]. }
  assert (HA : forall c, in_grid dim c -> Permutation (found g c) (flat_map (fun c' => if nb c c' then bx_parts (g (Some c')) else []) (all_coords dim))).
  { intros c Hc. rewrite <- flat_map_filter.
    set (vis := flat_map (fun r => match cell_hood t dim c r with Some c' => [c'] | None => [] end) (box_list (hood_box n))).
    assert (E : found g c = flat_map (fun c' => bx_parts (g (Some c'))) vis).
    { unfold found, vis. clear - Hedge. induction (box_list (hood_box n)) as [|r l IH]; [reflexivity|]. cbn [flat_map]. rewrite flat_map_app. f_equal; [|exact IH].
      destruct (cell_hood t dim c r); cbn; [now rewrite app_nil_r|exact Hedge]. }
    rewrite E. apply Permutation_flat_map. apply NoDup_Permutation.
    - unfold vis. apply nodup_flat_map; [apply hood_list_nodup; unfold n; lia| |].
      + intros r _. destruct (cell_hood t dim c r); repeat constructor; intros [].
      + intros r r' c' Hr Hr' H H'. apply hood_list_in in Hr as [L F]; [|unfold n; lia]. apply hood_list_in in Hr' as [L' F']; [|unfold n; lia].
        unfold cell_hood in *. destruct (denotes t dim (zadd c r)) as [x|] eqn:D; [|destruct H]. destruct (denotes t dim (zadd c r')) as [x'|] eqn:D'; [|destruct H'].
        destruct H as [<-|[]]. destruct H' as [<-|[]]. apply (step_inj t dim c r r' x'); auto. now apply in_grid_length.
    - apply NoDup_filter. apply all_coords_nodup.
    - intros c'. unfold vis. rewrite in_flat_map, filter_In, Hnb, all_coords_in. split.
      + intros (r & Hr & H). apply hood_list_in in Hr as [L F]; [|unfold n; lia]. unfold cell_hood in H. destruct (denotes t dim (zadd c r)) as [x|] eqn:D; [|destruct H].
        destruct H as [<-|[]]. split; [now apply (denotes_grid t dim (zadd c r))|]. now exists r.
      + intros (_ & r & L & F & D). exists r. split; [apply hood_list_in; [unfold n; lia|now split]|]. unfold cell_hood. rewrite D. now left. }
  transitivity (flat_map (fun c => flat_map (fun c' => if nb c c' then filter (ok (g (Some c))) (bx_parts (g (Some c'))) else []) (all_coords dim)) (all_coords dim)).
  { apply flat_map_perm_ext. intros c Hc. apply all_coords_in in Hc.
    assert (HF : forall l l', Permutation l l' -> Permutation (filter (ok (g (Some c))) l) (filter (ok (g (Some c))) l')).
    { induction 1 as [|x l l' _ IH|x y l|l l' l'' _ IH1 _ IH2]; cbn [filter]; [constructor| | |etransitivity; eassumption].
      - destruct (ok _ x); [now constructor|exact IH].
      - destruct (ok _ x), (ok _ y); try reflexivity. apply perm_swap. }
    rewrite (HF _ _ (HA c Hc)), filter_flat_map. apply flat_map_perm_ext. intros c' _. now destruct (nb c c'). }
  rewrite (flat_map_swap (fun c c' => if nb c c' then filter (ok (g (Some c))) (bx_parts (g (Some c'))) else [])).
  apply flat_map_perm_ext. intros c' Hc'. apply all_coords_in in Hc'.
  transitivity (flat_map (fun c => filter (fun p => nb c c' && ok (g (Some c)) p) (bx_parts (g (Some c')))) (all_coords dim)).
  { apply flat_map_perm_ext. intros c _. destruct (nb c c'); cbn [andb]; [reflexivity|]. induction (bx_parts (g (Some c'))); [constructor|assumption]. }
  apply (distribute (fun c p => nb c c' && ok (g (Some c)) p)); [apply all_coords_nodup|]. intros p Hp.
  destruct (Hmod c' p Hc' Hp) as (c & Hn & Hh). assert (Hc : in_grid dim c) by (destruct Hn as (r & _ & _ & D); now apply (denotes_grid t dim (zadd c' r))).
  exists c. split; [now apply all_coords_in|]. split.
  - apply andb_true_iff. split; [apply Hnb; now apply neighbours_sym|apply ok_holds; [now apply Hlen|exact Hh]].
  - intros a Ha E. apply andb_true_iff in E as [_ E]. apply all_coords_in in Ha. apply ok_holds in E; [|now apply Hlen]. now apply (Hover a c p).
Qed.

End Main.

(** One update at nano step 0: sorting particles into boxes loses none,
    duplicates none, and leaves each in the box which contains it. Containers
    of limited capacity suffice if no box gets more particles than that. *)
Theorem C50_no_loss : forall P (pos : P -> list Q) t dim cap g, (1 <= length dim <= 3)%nat -> large_enough t dim -> moderate pos t dim g ->
  (forall k c l rest, cap = Some k -> in_grid dim c -> Permutation (l ++ rest) (particles dim g) -> Forall (holds pos (g (Some c))) l -> (length l <= k)%nat) ->
  exists g',
    (forall c, in_grid dim c -> copy_over g (cell_hood t dim c) (length dim) exact pos cap 0 = Some (Done (g' (Some c)))) /\
    Permutation (particles dim g') (particles dim g) /\
    (forall c p, in_grid dim c -> In p (bx_parts (g' (Some c))) <-> In p (particles dim g) /\ holds pos (g (Some c)) p) /\
    (forall c, bx_origin (g' c) = bx_origin (g c) /\ bx_dim (g' c) = bx_dim (g c)).
Proof.
  intros P pos t dim cap g Hd HL Hm Hcap. pose proof (redistribute pos t dim Hd HL g Hm) as HP.
  set (new := fun c => filter (fun p => position_ok exact (pos p) (bx_origin (g (Some c))) (fadd exact (bx_origin (g (Some c))) (bx_dim (g (Some c)))))
                              (flat_map (fun r => bx_parts (g (cell_hood t dim c r))) (box_list (hood_box (length dim))))) in *.
  change (Permutation (flat_map new (all_coords dim)) (particles dim g)) in HP.
  assert (Hin : forall c p, in_grid dim c -> In p (new c) <-> In p (particles dim g) /\ holds pos (g (Some c)) p).
  { intros c p Hc. split.
    - intros Hp. split.
      + apply (Permutation_in _ HP). apply in_flat_map. exists c. split; [now apply all_coords_in|exact Hp].
      + apply filter_In in Hp as [_ Hp]. apply (ok_holds pos); [now apply Hm|exact Hp].
    - intros [Hp Hh]. apply (Permutation_in _ (Permutation_sym HP)) in Hp. apply in_flat_map in Hp as (c' & Hc' & Hp). apply all_coords_in in Hc'.
      assert (c = c') as ->; [|exact Hp]. destruct Hm as (_ & Hlen & Hover & _). apply (Hover c c' p Hc Hc' Hh). apply filter_In in Hp as [_ Hp]. apply (ok_holds pos); [now apply Hlen|exact Hp]. }
  exists (fun p => match p with Some c => mkBoxCell (bx_origin (g (Some c))) (bx_dim (g (Some c))) (new c) | None => g None end).
  split; [|split; [exact HP|split; [exact Hin|intros [c|]; split; reflexivity]]].
  intros c Hc. unfold copy_over. rewrite (self t dim HL c Hc), (found_spec t dim Hd g c). cbn [option_map].
  destruct (add_fits pos cap (bx_origin (g (Some c))) (fadd exact (bx_origin (g (Some c))) (bx_dim (g (Some c))))
    (flat_map (fun r => bx_parts (g (cell_hood t dim c r))) (box_list (hood_box (length dim)))) []) as [l' E].
  { intros k Ek. cbn [length Nat.add]. fold (new c). destruct (in_split c (all_coords dim)) as (l1 & l2 & El); [now apply all_coords_in|].
    apply (Hcap k c (new c) (flat_map new l1 ++ flat_map new l2) Ek Hc).
    - rewrite <- HP, El, flat_map_app. cbn [flat_map]. rewrite !app_assoc. apply Permutation_app_tail. apply Permutation_app_comm.
    - apply Forall_forall. intros p Hp. now apply Hin in Hp. }
  rewrite E. apply (add_done pos) in E. rewrite E. reflexivity.
Qed.
Print Assumptions C50_no_loss.

(** Whole simulations: whatever the particles' update() does besides keeping
    their identities, no particle is ever lost or duplicated, as long as none
    of them leaves the boxes around its own between two updates at nano step
    0. *)
Theorem C50_simulation : forall P I (pos : P -> list Q) (id : P -> I) t dim cap pupd g g', (1 <= length dim <= 3)%nat -> large_enough t dim ->
  (forall nano all p, id (pupd nano all p) = id p) -> grid_run pos t dim exact cap pupd g g' ->
  Permutation (map id (particles dim g')) (map id (particles dim g)) /\
  (forall c, in_grid dim c -> bx_origin (g' (Some c)) = bx_origin (g (Some c)) /\ bx_dim (g' (Some c)) = bx_dim (g (Some c))).
Proof.
  intros P I pos id t dim cap pupd g g' Hd HL Hid H. induction H as [|nano g1 g2 _ [IH1 IH2] Hm [_ Hs]]; [split; [reflexivity|now split]|].
  assert (HX : forall c, in_grid dim c -> exists l all, g2 (Some c) = mkBoxCell (bx_origin (g1 (Some c))) (bx_dim (g1 (Some c))) (map (pupd nano all) l) /\
    (nano = O -> l = filter (fun p => position_ok exact (pos p) (bx_origin (g1 (Some c))) (fadd exact (bx_origin (g1 (Some c))) (bx_dim (g1 (Some c)))))
                              (flat_map (fun r => bx_parts (g1 (cell_hood t dim c r))) (box_list (hood_box (length dim))))) /\
    (nano <> O -> l = bx_parts (g1 (Some c)))).
  { intros c Hc. specialize (Hs c Hc). unfold bx_update in Hs. rewrite (found_spec t dim Hd g1 c) in Hs. cbn [obind] in Hs. unfold copy_over in Hs.
    rewrite (self t dim HL c Hc) in Hs. destruct nano as [|k].
    - rewrite (found_spec t dim Hd g1 c) in Hs. cbn [option_map] in Hs. destruct (add_contained _ _ _ _ _ _ _) as [l|l] eqn:E; [|discriminate].
      cbn [bx_origin bx_dim bx_parts] in Hs. apply (add_done pos) in E. cbn [app] in E. eexists l, _. split; [symmetry; injection Hs as Hs; exact Hs|]. split; [intros _; exact E|congruence].
    - cbn [option_map bx_origin bx_dim bx_parts] in Hs. eexists _, _. split; [symmetry; injection Hs as Hs; exact Hs|]. split; [discriminate|reflexivity]. }
  set (took := fun c => match nano with
      | O => filter (fun p => position_ok exact (pos p) (bx_origin (g1 (Some c))) (fadd exact (bx_origin (g1 (Some c))) (bx_dim (g1 (Some c)))))
               (flat_map (fun r => bx_parts (g1 (cell_hood t dim c r))) (box_list (hood_box (length dim))))
      | S _ => bx_parts (g1 (Some c)) end).
  assert (HI : forall c, in_grid dim c -> map id (bx_parts (g2 (Some c))) = map id (took c)).
  { intros c Hc. destruct (HX c Hc) as (l & all & -> & H0 & H1). cbn [bx_parts]. rewrite map_map. rewrite (map_ext _ id) by (intros; apply Hid).
    unfold took. destruct nano; [now rewrite <- H0|now rewrite <- H1]. }
  assert (HM : forall f, map id (flat_map f (all_coords dim)) = flat_map (fun c => map id (f c)) (all_coords dim)).
  { intros f. induction (all_coords dim) as [|c l IHl]; [reflexivity|]. cbn [flat_map]. now rewrite map_app, IHl. }
  split.
  - rewrite <- IH1. unfold particles at 1. rewrite HM.
    rewrite (flat_map_perm_ext _ (fun c => map id (took c)) (all_coords dim) (fun c Hc => Permutation_refl' (HI c (proj1 (all_coords_in dim c) Hc)))). rewrite <- (HM took).
    apply Permutation_map. unfold took. destruct nano; [|reflexivity]. apply (redistribute pos t dim Hd HL). now apply Hm.
  - intros c Hc. destruct (HX c Hc) as (l & all & -> & _). cbn [bx_origin bx_dim]. now apply IH2.
Qed.
Print Assumptions C50_simulation.

(** ** Boxes of equal size don't overlap and leave no gaps *)

Theorem C50_tiles : forall base size dim p, length base = length size -> Forall (fun s => 0 < s)%Q size ->
  (forall c c', in_grid dim c -> in_grid dim c' -> length dim = length size ->
     contains (tile base size c) size p -> contains (tile base size c') size p -> c = c') /\
  (contains base (map (fun ms => inject_Z (fst ms) * snd ms)%Q (combine dim size)) p -> length dim = length size ->
     exists c, in_grid dim c /\ contains (tile base size c) size p).
Proof.
  intros base size dim p Hl Hs. revert base dim p Hl. induction Hs as [|s size Hs _ IH]; intros [|b base] dim p Hl; try discriminate.
  - split.
    + intros c c' Hc Hc' L _ _. destruct dim; [|discriminate]. destruct c, c'; try destruct Hc; try destruct Hc'; reflexivity.
    + intros H L. destruct dim; [|discriminate]. exists []. split; [exact I|exact H].
  - injection Hl as Hl. destruct dim as [|m dim]; [split; [intros c c' _ _ L; discriminate|intros _ L; discriminate]|].
    destruct p as [|x p]; [split; [intros [|y c] c' Hc; [destruct Hc|intros _ _ []]|intros []]|]. destruct (IH base dim p Hl) as [IH1 IH2].
    assert (HF : forall y, (b + inject_Z y * s <= x < b + inject_Z y * s + s)%Q <-> y = Qfloor ((x - b) / s)).
    { intros y. assert (Hsn : ~ (s == 0)%Q) by (intros E; rewrite E in Hs; now apply Qlt_irrefl in Hs).
      assert (E : ((x - b) == (x - b) / s * s)%Q) by (field; exact Hsn). split.
      - intros [H1 H2]. assert (Hlo : (inject_Z y <= (x - b) / s)%Q). { apply Qle_shift_div_l; [exact Hs|]. lra. }
        assert (Hhi : ((x - b) / s < inject_Z (y + 1))%Q). { apply Qlt_shift_div_r; [exact Hs|]. rewrite inject_Z_plus. change (inject_Z 1) with 1%Q. lra. }
        pose proof (Qfloor_le ((x - b) / s)) as F1. pose proof (Qlt_floor ((x - b) / s)) as F2.
        assert (y < Qfloor ((x - b) / s) + 1) by (rewrite Zlt_Qlt; lra). assert (Qfloor ((x - b) / s) < y + 1) by (rewrite Zlt_Qlt; lra). lia.
      - intros ->. pose proof (Qfloor_le ((x - b) / s)) as F1. pose proof (Qlt_floor ((x - b) / s)) as F2. rewrite inject_Z_plus in F2. change (inject_Z 1) with 1%Q in F2.
        pose proof (Qmult_le_compat_r _ _ s F1 (Qlt_le_weak _ _ Hs)). pose proof (Qmult_lt_compat_r _ _ s Hs F2). split; lra. }
    split.
    + intros [|y c] [|y' c'] Hc Hc' L H H'; try (exfalso; exact Hc); try (exfalso; exact Hc'). cbn [tile contains] in H, H'. destruct H as [H1 H2]. destruct H' as [H1' H2'].
      apply HF in H1. apply HF in H1'. f_equal; [congruence|]. cbn in L. apply in_grid_cons in Hc as [_ Hc]. apply in_grid_cons in Hc' as [_ Hc']. apply IH1; auto.
    + intros H L. cbn [combine map fst snd contains] in H. destruct H as [H1 H2]. cbn in L. destruct (IH2 H2 ltac:(lia)) as (c & Hc & Hh).
      exists (Qfloor ((x - b) / s) :: c). split; [|cbn [tile contains]; split; [now apply HF|exact Hh]]. apply in_grid_cons. split; [|exact Hc].
      pose proof (proj2 (HF _) eq_refl) as [F1 F2]. destruct H1 as [G1 G2]. split.
      * destruct (Z.le_gt_cases 0 (Qfloor ((x - b) / s))) as [|Hneg]; [assumption|]. exfalso.
        assert (inject_Z (Qfloor ((x - b) / s)) <= inject_Z (-1))%Q by (rewrite <- Zle_Qle; lia). change (inject_Z (-1)) with (-1#1)%Q in *. nra.
      * destruct (Z.lt_ge_cases (Qfloor ((x - b) / s)) m) as [|Hbig]; [assumption|]. exfalso. assert (inject_Z m <= inject_Z (Qfloor ((x - b) / s)))%Q by (rewrite <- Zle_Qle; lia). nra.
Qed.
Print Assumptions C50_tiles.

(** Four boxes of length 2 on a ring; one particle has moved to the next box,
    one hasn't, and one has crossed the border of the ring. *)
Definition ring (k : Z) (parts : Z -> list (list Q)) (p : place) : boxcell Q (list Q) :=
  match p with
  | Some [x] => mkBoxCell [(0 + inject_Z x * inject_Z k)%Q] [inject_Z k] (parts x)
  | _ => mkBoxCell [] [] []
  end.

Lemma ring_moderate m k parts : 1 <= m -> 0 < k ->
  (forall x p, 0 <= x < m -> In p (parts x) -> exists d y z, p = [y] /\ -1 <= d <= 1 /\ (x + d) mod m = z /\ (inject_Z z * inject_Z k <= y < inject_Z z * inject_Z k + inject_Z k)%Q) ->
  moderate (fun p => p) [true] [m] (ring k parts).
Proof.
  intros Hm Hk H. assert (Hlen : forall c, in_grid [m] c -> exists x, c = [x] /\ 0 <= x < m).
  { intros [|x [|y c]] Hc; try (exfalso; exact Hc); [exists x; split; [reflexivity|]; cbn in Hc; lia|]. apply in_grid_cons in Hc as [_ Hc]. destruct Hc. }
  split; [reflexivity|]. split; [|split].
  - intros c Hc. destruct (Hlen c Hc) as (x & -> & _). reflexivity.
  - intros c c' p Hc Hc' H1 H2. destruct (Hlen c Hc) as (x & -> & _). destruct (Hlen c' Hc') as (x' & -> & _).
    assert (Hkk : Forall (fun s => 0 < s)%Q [inject_Z k]) by (constructor; [change 0%Q with (inject_Z 0); now rewrite <- Zlt_Qlt|constructor]).
    apply (proj1 (C50_tiles [0%Q] [inject_Z k] [m] p eq_refl Hkk) [x] [x'] Hc Hc' eq_refl); assumption.
  - intros c p Hc Hp. destruct (Hlen c Hc) as (x & -> & Hx). cbn [ring bx_parts] in Hp. destruct (H x p Hx Hp) as (d & y & z & -> & Hd & Hz & Hy). exists [z]. split.
    + exists [d]. split; [reflexivity|]. split; [repeat constructor; lia|]. cbn. now rewrite Hz.
    + cbn. split; [|exact I]. rewrite Qplus_0_l. exact Hy.
Qed.

Example C50_example :
  let g := ring 2 (fun x => if x =? 0 then [[3#2]; [2]]%Q else if x =? 3 then [[1]]%Q else []) in
  large_enough [true] [4] /\ moderate (fun p => p) [true] [4] g /\
  particles [4] g = [[3#2]; [2]; [1]]%Q /\
  map (fun c => option_map (fun r => bx_parts (result_state r)) (copy_over g (cell_hood [true] [4] c) 1 exact (fun p => p) (Some 2%nat) 0)) (all_coords [4]) =
    [Some [[1]; [3#2]]; Some [[2]]; Some []; Some []]%Q.
Proof.
  split; [cbn; lia|]. split; [|split; vm_compute; reflexivity]. apply ring_moderate; [lia|lia|]. intros x p Hx Hp.
  destruct (Z.eqb_spec x 0) as [->|].
  - destruct Hp as [<-|[<-|[]]].
    + exists 0, (3#2)%Q, 0. repeat split; try lia; vm_compute; congruence.
    + exists 1, 2%Q, 1. repeat split; try lia; vm_compute; congruence.
  - destruct (Z.eqb_spec x 3) as [->|]; [|destruct Hp]. destruct Hp as [<-|[]]. exists 1, 1%Q, 0. repeat split; try lia; vm_compute; congruence.
Qed.

(** ** C91: small tori *)

(** On a torus of two cells each cell meets the other one twice. *)
Theorem C91_small_torus_refuted : exists g g', moderate (fun p : list Q => p) [true] [2] g /\
  (forall c, in_grid [2] c -> copy_over g (cell_hood [true] [2] c) 1 exact (fun p => p) None 0 = Some (Done (g' (Some c)))) /\
  (length (particles [2%Z] g) < length (particles [2%Z] g'))%nat.
Proof.
  exists (ring 1 (fun x => if x =? 0 then [[1]]%Q else [])), (ring 1 (fun x => if x =? 1 then [[1]; [1]]%Q else [])). split; [|split].
  - apply ring_moderate; [lia|lia|]. intros x p Hx Hp. destruct (Z.eqb_spec x 0) as [->|]; [|destruct Hp]. destruct Hp as [<-|[]].
    exists 1, 1%Q, 1. repeat split; try lia; vm_compute; congruence.
  - intros [|x [|y c]] Hc; try (exfalso; exact Hc).
    + cbn in Hc. assert (E : x = 0 \/ x = 1) by lia. destruct E as [-> | ->]; vm_compute; reflexivity.
    + apply in_grid_cons in Hc as [_ Hc]. destruct Hc.
  - vm_compute. apply le_n.
Qed.
Print Assumptions C91_small_torus_refuted.

(** ** C92: doubles *)

Definition f01 : spec_float := S754_finite false 7205759403792794 (-56).

(** Ten boxes of length 0.1, the i-th one at i * 0.1: as 5 * 0.1 + 0.1 is less
    than 6 * 0.1, there's a gap. *)
Definition row (parts : Z -> list (list spec_float)) (p : place) : boxcell spec_float (list spec_float) :=
  match p with
  | Some [x] => mkBoxCell [a_mul ieee (a_ofZ ieee x) f01] [f01] (parts x)
  | _ => mkBoxCell [] [] []
  end.

Theorem C92_double_gaps_refuted : exists g x, let p := [a_add ieee (a_mul ieee (a_ofZ ieee x) f01) f01] in
  g = row (fun y => if y =? x then [p] else []) /\ 0 <= x < 9 /\ particles [10] g = [p] /\
  map (fun c => option_map (fun r => bx_parts (result_state r)) (copy_over g (cell_hood [false] [10] c) 1 ieee (fun p => p) None 0)) (all_coords [10]) =
    map (fun _ => Some []) (all_coords [10]).
Proof. eexists. exists 5. split; [reflexivity|]. split; [lia|]. split; vm_compute; reflexivity. Qed.
Print Assumptions C92_double_gaps_refuted.
