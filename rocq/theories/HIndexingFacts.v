(** Facts on H-indexing. *)
From Verif Require Import Base ListFacts RegionSpec RegionModel RegionRep RegionIterModel
  CoordModel CoordSpec RegionOpsModel RegionOps CoordFacts RegionHistory RegionHist RegionReach PartitionSpec PartitionModel
  PartitionFacts StripingFacts CheckerFacts BisectionFacts SfcModel SfcFacts ZcurveFacts HilbertFacts HIndexingModel.
From Coq Require Import Permutation.

Definition tgood (t : tri) : Prop :=
  exists k f y x oy ox, t = mkTri k f [y; x] [oy; ox] /\ 1 <= y /\ 1 <= x /\ (f < 4)%nat.

Definition tvol (t : tri) : Z := prod (t_dim t).

Lemma h_triv y x : 1 <= y -> 1 <= x -> has_trivial [y; x] = true -> y = 1 \/ x = 1.
Proof.
  intros Hy Hx H. unfold has_trivial in H. apply orb_prop in H. cbn [prod csum length] in H.
  change (Z.of_nat 2) with 2 in H. assert (E : (y - 1) * (x - 1) = 0) by lia. apply Z.mul_eq_0 in E. lia.
Qed.

(** ** The parts of a triangle *)

Lemma tri_subs k f y x oy ox : 2 <= y -> 2 <= x ->
  let l := x / 2 in let r := x - l in let u := y / 2 in let w := y - u in
  let sub := tri_sub (mkTri k f [y; x] [oy; ox]) in
  (f = 0%nat -> sub 0%nat = mkTri 0 0 [w; l] [oy; ox] /\ sub 1%nat = mkTri 0 1 [u; l] [oy - w; ox + l] /\
                sub 2%nat = mkTri 0 2 [u; l] [oy - y; ox] /\ sub 3%nat = mkTri 0 0 [u; r] [oy - w; ox + l]) /\
  (f = 1%nat -> sub 0%nat = mkTri 0 1 [w; r] [oy; ox] /\ sub 1%nat = mkTri 0 3 [w; l] [oy - w; ox - r] /\
                sub 2%nat = mkTri 0 0 [w; l] [oy; ox - x] /\ sub 3%nat = mkTri 0 1 [u; l] [oy - w; ox - r]) /\
  (f = 2%nat -> sub 0%nat = mkTri 0 2 [u; l] [oy; ox] /\ sub 1%nat = mkTri 0 0 [u; r] [oy + u; ox + l] /\
                sub 2%nat = mkTri 0 3 [u; r] [oy; ox + x] /\ sub 3%nat = mkTri 0 2 [w; r] [oy + u; ox + l]) /\
  (f = 3%nat -> sub 0%nat = mkTri 0 3 [u; r] [oy; ox] /\ sub 1%nat = mkTri 0 2 [w; r] [oy + u; ox - r] /\
                sub 2%nat = mkTri 0 1 [w; r] [oy + y; ox] /\ sub 3%nat = mkTri 0 3 [w; l] [oy + u; ox - r]).
Proof.
  intros Hy Hx l r u w sub. assert (Hl : 0 <= l <= x) by (unfold l; lia). assert (Hu : 0 <= u <= y) by (unfold u; lia).
  assert (Hsub : forall a b, tri_sub (mkTri k f [y; x] [oy; ox]) a = b -> sub a = b) by (intros; auto).
  split; [|split; [|split]]; intros ->; (split; [|split; [|split]]); apply Hsub; unfold tri_sub;
    cbn [t_type t_dim t_org tri_offset tri_next_type nth zsub zadd map]; fold l u r w; f_equal; two.
Qed.

Lemma sub_spec t i : tgood t -> has_trivial (t_dim t) = false -> (i < 4)%nat ->
  tgood (tri_sub t i) /\ tvol (tri_sub t i) < tvol t /\ t_cnt (tri_sub t i) = 0.
Proof.
  intros (k & f & y & x & oy & ox & -> & Hy & Hx & Hf) Ht Hi. cbn [t_dim] in Ht. apply h_nontriv in Ht; [|lia|lia].
  pose proof (tri_subs k f y x oy ox ltac:(lia) ltac:(lia)) as H. cbv zeta in H. destruct H as (H0 & H1 & H2 & H3).
  assert (1 <= y / 2 < y /\ 1 <= x / 2 < x) by lia.
  assert (G : forall dy dx f' oy' ox', 1 <= dy < y -> 1 <= dx < x -> (f' < 4)%nat ->
    tgood (mkTri 0 f' [dy; dx] [oy'; ox']) /\ tvol (mkTri 0 f' [dy; dx] [oy'; ox']) < tvol (mkTri k f [y; x] [oy; ox]) /\
    t_cnt (mkTri 0 f' [dy; dx] [oy'; ox']) = 0).
  { intros. split; [do 6 eexists; split; [reflexivity|]; lia|]. split; auto. unfold tvol. cbn [t_dim prod]. nia. }
  four f; [specialize (H0 eq_refl); destruct H0 as (Q0 & Q1 & Q2 & Q3)
          |specialize (H1 eq_refl); destruct H1 as (Q0 & Q1 & Q2 & Q3)
          |specialize (H2 eq_refl); destruct H2 as (Q0 & Q1 & Q2 & Q3)
          |specialize (H3 eq_refl); destruct H3 as (Q0 & Q1 & Q2 & Q3)];
    four i; rewrite ?Q0, ?Q1, ?Q2, ?Q3; apply G; lia.
Qed.

Lemma tvol_pos t : tgood t -> 1 <= tvol t.
Proof. intros (k & f & y & x & oy & ox & -> & Hy & Hx & Hf). unfold tvol. cbn [t_dim prod]. nia. Qed.

(** ** Recursive enumeration *)

Section Fold.
Context {A : Type}.
Variable leaf : tri -> list A.

Fixpoint hfold (fuel : nat) (t : tri) : list A :=
  if has_trivial (t_dim t) then leaf t
  else match fuel with
       | O => []
       | S f => flat_map (fun i => hfold f (tri_sub t i)) [0; 1; 2; 3]%nat
       end.

Definition hall (t : tri) : list A := hfold (Z.to_nat (tvol t)) t.

Lemma hfold_fuel : forall f f' t, tgood t -> tvol t <= Z.of_nat f -> tvol t <= Z.of_nat f' -> hfold f t = hfold f' t.
Proof.
  induction f as [|f IH]; intros f' t Hg Hf Hf'; pose proof (tvol_pos t Hg); [lia|].
  destruct f' as [|f']; [lia|]. cbn [hfold]. destruct (has_trivial (t_dim t)) eqn:Ht; auto.
  apply flat_map_ext_in. intros i Hi. destruct (sub_spec t i Hg Ht) as (G & V & _).
  - cbn [In] in Hi. lia.
  - apply IH; auto; lia.
Qed.

Lemma hall_fuel f t : tgood t -> tvol t <= Z.of_nat f -> hfold f t = hall t.
Proof. intros. apply hfold_fuel; auto. lia. Qed.

Lemma hall_triv t : has_trivial (t_dim t) = true -> hall t = leaf t.
Proof. intros H. unfold hall. destruct (Z.to_nat (tvol t)); cbn [hfold]; now rewrite H. Qed.

Lemma hall_rec t : tgood t -> has_trivial (t_dim t) = false ->
  hall t = flat_map (fun i => hall (tri_sub t i)) [0; 1; 2; 3]%nat.
Proof.
  intros Hg Ht. pose proof (tvol_pos t Hg). unfold hall at 1. destruct (Z.to_nat (tvol t)) as [|f] eqn:E; [lia|].
  cbn [hfold]. rewrite Ht. apply flat_map_ext_in. intros i Hi. destruct (sub_spec t i Hg Ht) as (G & V & _).
  - cbn [In] in Hi. lia.
  - apply hall_fuel; auto. lia.
Qed.

(** Both triangles of a rectangle, along either diagonal. *)
Definition pair_a (py px y x : Z) : list A := hall (mkTri 0 2 [y; x] [py; px]) ++ hall (mkTri 0 1 [y; x] [py + y; px + x]).
Definition pair_b (py px y x : Z) : list A := hall (mkTri 0 0 [y; x] [py + y; px]) ++ hall (mkTri 0 3 [y; x] [py; px + x]).

Lemma hall4 k f y x oy ox : 2 <= y -> 2 <= x -> (f < 4)%nat ->
  hall (mkTri k f [y; x] [oy; ox]) =
  hall (tri_sub (mkTri k f [y; x] [oy; ox]) 0) ++ hall (tri_sub (mkTri k f [y; x] [oy; ox]) 1) ++
  hall (tri_sub (mkTri k f [y; x] [oy; ox]) 2) ++ hall (tri_sub (mkTri k f [y; x] [oy; ox]) 3).
Proof.
  intros Hy Hx Hf. rewrite hall_rec.
  - cbn [flat_map]. now rewrite app_nil_r.
  - do 6 eexists; split; [reflexivity|]; lia.
  - cbn [t_dim]. unfold has_trivial. cbn [prod csum length]. change (Z.of_nat 2) with 2. apply orb_false_intro; nia.
Qed.

Lemma pair_a_rec py px y x : 2 <= y -> 2 <= x ->
  let l := x / 2 in let r := x - l in let u := y / 2 in let w := y - u in
  Permutation (pair_a py px y x)
    (pair_a py px u l ++ pair_b py (px + l) u r ++ pair_b (py + u) px w l ++ pair_a (py + u) (px + l) w r).
Proof.
  intros Hy Hx l r u w. unfold pair_a at 1. rewrite !hall4 by lia.
  destruct (tri_subs 0 2 y x py px Hy Hx) as (_ & _ & H & _). destruct (H eq_refl) as (E0 & E1 & E2 & E3).
  destruct (tri_subs 0 1 y x (py + y) (px + x) Hy Hx) as (_ & H' & _). destruct (H' eq_refl) as (F0 & F1 & F2 & F3).
  rewrite E0, E1, E2, E3, F0, F1, F2, F3. fold l u r w. unfold pair_a, pair_b.
  replace (py + y - w) with (py + u) by (unfold w; lia). replace (px + x - r) with (px + l) by (unfold r; lia).
  replace (px + x - x) with px by lia. replace (py + y) with (py + u + w) by (unfold w; lia).
  replace (px + x) with (px + l + r) by (unfold r; lia).
  generalize (hall (mkTri 0 2 [u; l] [py; px])), (hall (mkTri 0 0 [u; r] [py + u; px + l])),
    (hall (mkTri 0 3 [u; r] [py; px + l + r])), (hall (mkTri 0 2 [w; r] [py + u; px + l])),
    (hall (mkTri 0 1 [w; r] [py + u + w; px + l + r])), (hall (mkTri 0 3 [w; l] [py + u; px + l])),
    (hall (mkTri 0 0 [w; l] [py + u + w; px])), (hall (mkTri 0 1 [u; l] [py + u; px + l])).
  intros a b c d e f g h. rewrite <- !app_assoc. apply Permutation_app_head.
  (* b c d e f g h ~ h b c g f d e *)
  transitivity (h ++ b ++ c ++ d ++ e ++ f ++ g).
  { rewrite !app_assoc. rewrite <- !app_assoc. repeat rewrite app_assoc. rewrite <- (app_assoc _ g h).
    rewrite <- !app_assoc. apply Permutation_trans with ((b ++ c ++ d ++ e ++ f ++ g) ++ h).
    - rewrite <- !app_assoc. reflexivity.
    - apply Permutation_trans with (h ++ (b ++ c ++ d ++ e ++ f ++ g)); [apply Permutation_app_comm|reflexivity]. }
  do 3 apply Permutation_app_head. transitivity ((f ++ g) ++ d ++ e).
  - rewrite (app_assoc d e). apply Permutation_app_comm.
  - rewrite !app_assoc. do 2 apply Permutation_app_tail. apply Permutation_app_comm.
Qed.

Lemma pair_b_rec py px y x : 2 <= y -> 2 <= x ->
  let l := x / 2 in let r := x - l in let u := y / 2 in let w := y - u in
  Permutation (pair_b py px y x)
    (pair_a py px u l ++ pair_b py (px + l) u r ++ pair_b (py + u) px w l ++ pair_a (py + u) (px + l) w r).
Proof.
  intros Hy Hx l r u w. unfold pair_b at 1. rewrite !hall4 by lia.
  destruct (tri_subs 0 0 y x (py + y) px Hy Hx) as (H & _). destruct (H eq_refl) as (E0 & E1 & E2 & E3).
  destruct (tri_subs 0 3 y x py (px + x) Hy Hx) as (_ & _ & _ & H'). destruct (H' eq_refl) as (F0 & F1 & F2 & F3).
  rewrite E0, E1, E2, E3, F0, F1, F2, F3. fold l u r w. unfold pair_a, pair_b.
  replace (py + y - w) with (py + u) by (unfold w; lia). replace (px + x - r) with (px + l) by (unfold r; lia).
  replace (py + y - y) with py by lia. replace (py + y) with (py + u + w) by (unfold w; lia).
  replace (px + x) with (px + l + r) by (unfold r; lia).
  generalize (hall (mkTri 0 0 [w; l] [py + u + w; px])), (hall (mkTri 0 1 [u; l] [py + u; px + l])),
    (hall (mkTri 0 2 [u; l] [py; px])), (hall (mkTri 0 0 [u; r] [py + u; px + l])),
    (hall (mkTri 0 3 [u; r] [py; px + l + r])), (hall (mkTri 0 2 [w; r] [py + u; px + l])),
    (hall (mkTri 0 1 [w; r] [py + u + w; px + l + r])), (hall (mkTri 0 3 [w; l] [py + u; px + l])).
  intros a b c d e f g h. rewrite <- !app_assoc.
  (* a b c d e f g h ~ c b d e a h f g *)
  transitivity ((b ++ c ++ d ++ e) ++ a ++ f ++ g ++ h).
  { rewrite (app_assoc e), (app_assoc d), (app_assoc c), (app_assoc b), (app_assoc a).
    rewrite (app_assoc (b ++ c ++ d ++ e)). rewrite <- !app_assoc.
    transitivity ((a ++ (b ++ c ++ d ++ e)) ++ f ++ g ++ h); [rewrite <- !app_assoc; reflexivity|].
    transitivity (((b ++ c ++ d ++ e) ++ a) ++ f ++ g ++ h); [apply Permutation_app_tail, Permutation_app_comm|].
    rewrite <- !app_assoc. reflexivity. }
  rewrite <- !app_assoc. transitivity (c ++ b ++ d ++ e ++ a ++ f ++ g ++ h).
  { rewrite (app_assoc b), (app_assoc c). apply Permutation_app_tail, Permutation_app_comm. }
  do 5 apply Permutation_app_head. rewrite (app_assoc f). apply Permutation_app_comm.
Qed.
End Fold.

(** Strong induction over rectangles. *)
Lemma rect_ind (P : Z -> Z -> Z -> Z -> Prop) :
  (forall py px y x, 1 <= y -> 1 <= x -> has_trivial [y; x] = true -> P py px y x) ->
  (forall py px y x, 2 <= y -> 2 <= x ->
     (forall py' px' y' x', 1 <= y' < y -> 1 <= x' < x -> P py' px' y' x') -> P py px y x) ->
  forall py px y x, 1 <= y -> 1 <= x -> P py px y x.
Proof.
  intros H0 H1. assert (H : forall n py px y x, y < Z.of_nat n -> 1 <= y -> 1 <= x -> P py px y x).
  { induction n as [|n IH]; intros py px y x Hn Hy Hx; [lia|]. destruct (has_trivial [y; x]) eqn:Ht; [auto|].
    apply h_nontriv in Ht; [|lia|lia]. apply H1; try lia. intros. apply IH; lia. }
  intros. apply (H (Z.to_nat (y + 1))); lia.
Qed.

(** ** Coordinates *)

Definition hline (t : tri) : list coord :=
  match t_dim t with
  | [y; x] =>
      if Nat.odd (t_type t) then []
      else
        let start := if (t_type t =? 0)%nat then zadd (t_org t) [-1; 0] else t_org t in
        if 1 <? x then map (fun k => zadd start [0; Z.of_nat k]) (seq 0 (Z.to_nat x))
        else map (fun k => zadd start [if (t_type t =? 0)%nat then - Z.of_nat k else Z.of_nat k; 0]) (seq 0 (Z.to_nat y))
  | _ => []
  end.

Definition htravel : tri -> list coord := hall hline.

Definition tiles (L : list coord) (py px y x : Z) : Prop :=
  NoDup L /\ (forall c, In c L <-> inside [py; px] [y; x] c) /\ Z.of_nat (length L) = y * x.

Lemma tiles_perm L L' py px y x : Permutation L L' -> tiles L' py px y x -> tiles L py px y x.
Proof.
  intros H (N & I & E). split; [eapply Permutation_NoDup; [symmetry; eauto|auto]|]. split.
  - intros c. rewrite <- I. split; apply Permutation_in; auto. now symmetry.
  - now rewrite (Permutation_length H).
Qed.

Lemma NoDup_app4 {X} (A B C D : list X) : NoDup A -> NoDup B -> NoDup C -> NoDup D ->
  (forall x, In x A -> ~ In x B /\ ~ In x C /\ ~ In x D) -> (forall x, In x B -> ~ In x C /\ ~ In x D) -> (forall x, In x C -> ~ In x D) ->
  NoDup (A ++ B ++ C ++ D).
Proof.
  intros HA HB HC HD H1 H2 H3. apply nodup_app; auto; [apply nodup_app; auto; [apply nodup_app; auto|]|].
  - intros x Hx. rewrite in_app_iff. specialize (H2 x Hx). tauto.
  - intros x Hx. rewrite !in_app_iff. specialize (H1 x Hx). tauto.
Qed.

Lemma tiles_quad A B C D py px y x : 2 <= y -> 2 <= x ->
  let l := x / 2 in let r := x - l in let u := y / 2 in let w := y - u in
  tiles A py px u l -> tiles B py (px + l) u r -> tiles C (py + u) px w l -> tiles D (py + u) (px + l) w r ->
  tiles (A ++ B ++ C ++ D) py px y x.
Proof.
  intros Hy Hx l r u w (NA & IA & EA) (NB & IB & EB) (NC & IC & EC) (ND & ID & ED).
  assert (0 < l < x) by (unfold l; lia). assert (0 < u < y) by (unfold u; lia).
  assert (Hc2 : forall py' px' y' x' c, inside [py'; px'] [y'; x'] c <-> exists a b, c = [a; b] /\ py' <= a < py' + y' /\ px' <= b < px' + x').
  { intros. destruct c as [|a [|b [|]]]; cbn [inside]; (split; [try tauto|intros (a' & b' & E & H'); try discriminate]).
    - intros (H1 & H2 & _). eauto.
    - injection E as -> ->. tauto. }
  split; [|split].
  - apply NoDup_app4; auto; intros c; rewrite ?IA, ?IB, ?IC, ?ID, ?Hc2; intros (a & b & -> & Ha & Hb).
    + split; [|split]; intros (a' & b' & [= <- <-] & Ha' & Hb'); lia.
    + split; intros (a' & b' & [= <- <-] & Ha' & Hb'); lia.
    + intros (a' & b' & [= <- <-] & Ha' & Hb'); lia.
  - intros c. rewrite !in_app_iff, IA, IB, IC, ID, !Hc2. split.
    + intros [(a & b & -> & Ha & Hb)|[(a & b & -> & Ha & Hb)|[(a & b & -> & Ha & Hb)|(a & b & -> & Ha & Hb)]]]; exists a, b; split; auto; lia.
    + intros (a & b & -> & Ha & Hb). destruct (Z_lt_le_dec a (py + u)), (Z_lt_le_dec b (px + l)).
      * left. exists a, b. split; auto; lia.
      * right; left. exists a, b. split; auto; lia.
      * right; right; left. exists a, b. split; auto; lia.
      * right; right; right. exists a, b. split; auto; lia.
  - rewrite !app_length, !Nat2Z.inj_add, EA, EB, EC, ED. unfold r, w. ring.
Qed.

Lemma tiles_line (f : nat -> coord) n py px y x : (forall i j, (i < n)%nat -> (j < n)%nat -> f i = f j -> i = j) ->
  (forall c, inside [py; px] [y; x] c <-> exists i, (i < n)%nat /\ f i = c) -> Z.of_nat n = y * x ->
  tiles (map f (seq 0 n)) py px y x.
Proof.
  intros Hi Hc Hn. split; [|split].
  - apply NoDup_nth_error. intros i j Hl E. rewrite map_length, seq_length in Hl.
    rewrite nth_error_map in E. rewrite (nth_error_nth' _ 0%nat) in E by (now rewrite seq_length). rewrite seq_nth in E by auto. cbn in E.
    destruct (Nat.lt_ge_cases j n) as [L|L].
    + rewrite nth_error_map, (nth_error_nth' _ 0%nat), seq_nth in E by (rewrite ?seq_length; auto). cbn in E. injection E as E. auto.
    + rewrite (proj2 (nth_error_None _ _)) in E by (now rewrite map_length, seq_length). discriminate.
  - intros c. rewrite in_map_iff, Hc. split; intros (i & A & B); exists i.
    + apply in_seq in B. split; auto. lia.
    + split; auto. apply in_seq. lia.
  - now rewrite map_length, seq_length.
Qed.

Lemma pairs_tile py px y x : 1 <= y -> 1 <= x ->
  tiles (pair_a hline py px y x) py px y x /\ tiles (pair_b hline py px y x) py px y x.
Proof.
  revert py px y x. apply rect_ind.
  - intros py px y x Hy Hx Ht. unfold pair_a, pair_b. rewrite !(hall_triv hline) by exact Ht.
    unfold hline. cbn [t_dim t_type t_org Nat.odd Nat.even negb Nat.eqb]. rewrite !app_nil_r.
    pose proof (h_triv y x Hy Hx Ht) as Hd. destruct (Z.ltb_spec 1 x) as [L|L].
    + assert (y = 1) by lia. subst y. split; apply tiles_line; try lia.
      * intros i j _ _ [= E]. lia.
      * intros [|a [|b [|]]]; cbn [inside]; try (split; [tauto|intros (i & _ & E); discriminate]). split.
        -- intros (H1 & H2 & _). exists (Z.to_nat (b - px)). split; [lia|]. cbn [zadd]. two.
        -- intros (i & Hi & [= <- <-]). lia.
      * intros i j _ _ [= E]. lia.
      * intros [|a [|b [|]]]; cbn [inside]; try (split; [tauto|intros (i & _ & E); discriminate]). split.
        -- intros (H1 & H2 & _). exists (Z.to_nat (b - px)). split; [lia|]. cbn [zadd]. two.
        -- intros (i & Hi & [= <- <-]). lia.
    + assert (x = 1) by lia. subst x. split; apply tiles_line; try lia.
      * intros i j _ _ [= E]. lia.
      * intros [|a [|b [|]]]; cbn [inside]; try (split; [tauto|intros (i & _ & E); discriminate]). split.
        -- intros (H1 & H2 & _). exists (Z.to_nat (a - py)). split; [lia|]. cbn [zadd]. two.
        -- intros (i & Hi & [= <- <-]). lia.
      * intros i j _ _ [= E]. lia.
      * intros [|a [|b [|]]]; cbn [inside]; try (split; [tauto|intros (i & _ & E); discriminate]). split.
        -- intros (H1 & H2 & _). exists (Z.to_nat (py + y - 1 - a)). split; [lia|]. cbn [zadd]. two.
        -- intros (i & Hi & [= <- <-]). lia.
  - intros py px y x Hy Hx IH. assert (1 <= y / 2 < y /\ 1 <= x / 2 < x) by lia. split.
    + eapply tiles_perm; [apply pair_a_rec; auto|]. apply tiles_quad; auto; apply IH; lia.
    + eapply tiles_perm; [apply pair_b_rec; auto|]. apply tiles_quad; auto; apply IH; lia.
Qed.

(** ** Number of leaves, lengths, translation *)

Definition leaves (t : tri) : nat := length (hall (fun _ => [tt]) t).

Lemma pairs_leaves py px y x : 1 <= y -> 1 <= x ->
  Z.of_nat (length (pair_a (fun _ => [tt]) py px y x)) <= 2 * (y * x) /\
  Z.of_nat (length (pair_b (fun _ => [tt]) py px y x)) <= 2 * (y * x).
Proof.
  revert py px y x. apply rect_ind.
  - intros py px y x Hy Hx Ht. unfold pair_a, pair_b. rewrite !hall_triv by exact Ht. cbn [app length]. assert (1 <= y * x) by nia. split; lia.
  - intros py px y x Hy Hx IH. assert (1 <= y / 2 < y /\ 1 <= x / 2 < x) by lia.
    rewrite (Permutation_length (pair_a_rec (fun _ => [tt]) py px y x Hy Hx)).
    rewrite (Permutation_length (pair_b_rec (fun _ => [tt]) py px y x Hy Hx)).
    rewrite !app_length, !Nat2Z.inj_add.
    assert (Hall : forall py' px' y' x', 1 <= y' < y -> 1 <= x' < x ->
      Z.of_nat (length (pair_a (fun _ => [tt]) py' px' y' x')) <= 2 * (y' * x')) by (intros; now apply IH).
    assert (Hbll : forall py' px' y' x', 1 <= y' < y -> 1 <= x' < x ->
      Z.of_nat (length (pair_b (fun _ => [tt]) py' px' y' x')) <= 2 * (y' * x')) by (intros; now apply IH).
    pose proof (Hall py px (y / 2) (x / 2) ltac:(lia) ltac:(lia)).
    pose proof (Hall (py + y / 2) (px + x / 2) (y - y / 2) (x - x / 2) ltac:(lia) ltac:(lia)).
    pose proof (Hbll py (px + x / 2) (y / 2) (x - x / 2) ltac:(lia) ltac:(lia)).
    pose proof (Hbll (py + y / 2) px (y - y / 2) (x / 2) ltac:(lia) ltac:(lia)).
    replace (2 * (y * x)) with (2 * (y / 2 * (x / 2)) + (2 * (y / 2 * (x - x / 2)) + (2 * ((y - y / 2) * (x / 2)) + 2 * ((y - y / 2) * (x - x / 2))))) by ring.
    lia.
Qed.

Lemma leaves_pos : forall n t, tvol t <= Z.of_nat n -> tgood t -> (1 <= leaves t)%nat.
Proof.
  induction n as [|n IH]; intros t Hn Hg; pose proof (tvol_pos t Hg); [lia|]. unfold leaves.
  destruct (has_trivial (t_dim t)) eqn:Ht; [rewrite hall_triv by auto; cbn; lia|].
  rewrite hall_rec by auto. cbn [flat_map]. rewrite !app_length. destruct (sub_spec t 0 Hg Ht ltac:(lia)) as (G & V & _).
  pose proof (IH (tri_sub t 0) ltac:(lia) G). unfold leaves in *. lia.
Qed.

Lemma leaves_ge1 t : tgood t -> (1 <= leaves t)%nat.
Proof. intros H. pose proof (tvol_pos t H). apply (leaves_pos (Z.to_nat (tvol t))); auto. lia. Qed.

Lemma leaves_bound t : tgood t -> Z.of_nat (leaves t) <= 2 * tvol t.
Proof.
  intros (k & f & y & x & oy & ox & -> & Hy & Hx & Hf). unfold leaves, tvol. cbn [t_dim prod].
  assert (Ek : forall oy ox, length (hall (fun _ => [tt]) (mkTri k f [y; x] [oy; ox])) = length (hall (fun _ => [tt]) (mkTri 0 f [y; x] [oy; ox]))).
  { intros a b. unfold hall, tvol. cbn [t_dim]. destruct (Z.to_nat (prod [y; x])); reflexivity. }
  rewrite Ek. four f.
  - destruct (pairs_leaves (oy - y) ox y x Hy Hx) as [_ H]. unfold pair_b in H. rewrite app_length in H.
    replace (oy - y + y) with oy in H by lia. lia.
  - destruct (pairs_leaves (oy - y) (ox - x) y x Hy Hx) as [H _]. unfold pair_a in H. rewrite app_length in H.
    replace (oy - y + y) with oy in H by lia. replace (ox - x + x) with ox in H by lia. lia.
  - destruct (pairs_leaves oy ox y x Hy Hx) as [H _]. unfold pair_a in H. rewrite app_length in H. lia.
  - destruct (pairs_leaves oy (ox - x) y x Hy Hx) as [_ H]. unfold pair_b in H. rewrite app_length in H.
    replace (ox - x + x) with ox in H by lia. lia.
Qed.

Lemma tri_length_spec : forall fuel t, tgood t -> tvol t <= Z.of_nat fuel ->
  tri_length fuel t = Some (Z.of_nat (length (htravel t))).
Proof.
  induction fuel as [|fuel IH]; intros t Hg Hf; pose proof (tvol_pos t Hg); [lia|].
  cbn [tri_length]. unfold htravel. destruct (has_trivial (t_dim t)) eqn:Ht.
  - rewrite hall_triv by auto. f_equal. destruct Hg as (k & f & y & x & oy & ox & -> & Hy & Hx & Hf'). unfold hline.
    cbn [t_dim t_type] in *. destruct (Nat.odd f); auto. pose proof (h_triv y x Hy Hx Ht). cbn [prod].
    destruct (Z.ltb_spec 1 x); rewrite map_length, seq_length; nia.
  - assert (Hs : forall i, (i < 4)%nat -> tri_length fuel (tri_sub t i) = Some (Z.of_nat (length (htravel (tri_sub t i))))).
    { intros i Hi. destruct (sub_spec t i Hg Ht Hi) as (G & V & _). apply IH; auto. lia. }
    rewrite !Hs by lia. cbn [obind]. rewrite hall_rec by auto. cbn [flat_map]. rewrite !app_length. unfold htravel. f_equal. cbn [length]. lia.
Qed.
