(** C147, C149: cells with several containers *)
From Coq Require Import Sorted QArith.
From Verif Require Import Base ListFacts CoordModel CoordSpec CoordFacts RegionOpsModel GridModel GridFacts ArrayModel ArraySpec ArrayFacts ParamModel GridSpec BoxModel BoxSpec BoxFacts MultiModel MultiSpec MultiFacts.
From Coq Require Import Lia.
Open Scope Z_scope.

(** C147: looking up an element by its ID yields the one element around which has
    this ID, or an exception if there's none. *)
Theorem C147_lookup : forall N V (cells : place -> list (member N V)) hood n kinds w m id,
  (1 <= n <= 3)%nat -> layout cells hood n kinds -> sees cells hood n w -> nth_error kinds m = Some Keyed ->
  adapter_get cells hood n m id = Some (see_id w m id).
Proof. intros. now apply (adapter_spec cells hood n kinds). Qed.
Print Assumptions C147_lookup.

(** What can be seen is well-defined if IDs are unique among the cells around. *)
Theorem C147_view : forall N V (cells : place -> list (member N V)) hood n kinds (v : V),
  (1 <= n <= 3)%nat -> layout cells hood n kinds -> (unambiguous cells hood n <-> exists w, sees cells hood n w).
Proof.
  intros N V cells hood n kinds v Hn Hlay. split; [intros H; now apply (view_of cells hood n kinds v)|]. intros (w & Hs & _) m id r1 c1 l1 v1 r2 c2 l2 v2 M1 E1 I1 H1 M2 E2 I2 H2.
  assert (see_id w m id = Some v1) as W1 by (apply Hs; eauto 8). assert (see_id w m id = Some v2) as W2 by (apply Hs; eauto 8). congruence.
Qed.
Print Assumptions C147_view.

(** C147: an update gives each element the state it computes from the old grid,
    no matter how the containers are ordered. Spawned particles come last and
    aren't updated yet. IDs and the boxes' geometry remain. If the update throws, then
    because of an element's update(), or because a box's capacity doesn't suffice. *)
Theorem C147_update : forall N V (cells : place -> list (member N V)) hood n kinds w (A : arith N) pos cap kern nano,
  (1 <= n <= 3)%nat -> layout cells hood n kinds -> sees cells hood n w ->
  (forall i v, (i < length kinds)%nat -> typed kinds n (kern i nano v) /\ spawns_back cap i (kern i nano v)) ->
  let own := carried cells hood n A pos nano in
  let extra := spawned cells hood n w A pos kern nano in
  exists r, multi_update cells hood n A pos cap kern nano = Some r /\
  match r with
  | Done new => length new = length kinds /\
      forall m old, nth_error (cells (hood (diagonal n 0))) m = Some old ->
        exists mem vs, nth_error new m = Some mem /\ same_frame old mem /\ elements mem = Some (vs ++ extra m) /\
          map Some vs = map (fun e => fst (eval w (kern m nano e))) (own m)
  | Threw _ => (exists m e, In e (own m) /\ fst (eval w (kern m nano e)) = None) \/
      (exists m k, nth_error kinds m = Some Boxed /\ cap m = Some k /\ (k < length (own m) + length (extra m))%nat)
  end.
Proof.
  intros N V cells hood n kinds w A pos cap kern nano Hn Hlay Hsee Hkern own extra. set (home := cells (hood (diagonal n 0))).
  destruct (Hlay (diagonal n 0) (moore_zero n)) as [Hkinds _]. fold home in Hkinds. assert (HK : length home = length kinds) by (rewrite <- Hkinds; symmetry; apply map_length).
  unfold multi_update. fold home. destruct (copies cells hood n kinds Hn Hlay A pos cap nano (length home) 0 eq_refl) as (r & -> & Hr). cbn [obind]. fold home in Hr. destruct r as [new0|new0].
  2:{ eexists. split; [reflexivity|]. right. destruct Hr as (m & k & Hb & Hk & Hlt). exists m, k. split; [exact Hb|]. split; [exact Hk|]. fold own in Hlt. lia. }
  destruct Hr as [L0 Hall]. cbn [Nat.add] in Hall. rewrite L0, HK.
  set (F := fun m => nth m home (MBox (mkBoxCell [] [] []))).
  assert (HF : forall m k, nth_error kinds m = Some k -> kind_of (F m) = k).
  { intros m k Hk. rewrite <- Hkinds, nth_error_map in Hk. unfold F. destruct (nth_error home m) as [x|] eqn:E; [|discriminate]. rewrite (nth_error_nth _ _ _ E). cbn in Hk. congruence. }
  assert (HFn : forall m, (m < length kinds)%nat -> nth_error home m = Some (F m)) by (intros m Hm; apply nth_error_nth'; lia).
  assert (Hst : state kinds F new0 own).
  { split; [lia|]. intros m Hm. apply (Hall m (F m)). now apply HFn. }
  destruct (all_updates cells hood n kinds w Hn Hlay Hsee cap kern nano Hkern F HF (length kinds) 0 new0 own own eq_refl Hst (fun _ _ => eq_refl)) as (r & -> & Hr).
  assert (Hex : forall m, spawned_from w kern nano own 0 (length kinds) m = extra m) by (intros m; unfold extra, spawned; fold home; now rewrite HK).
  exists r. split; [reflexivity|]. destruct r as [new|new].
  - destruct Hr as (vs & Hvs & [L Hnew]). split; [exact L|]. intros m old Ho. assert (Hm : (m < length kinds)%nat) by (rewrite <- HK; apply nth_error_Some; fold home in Ho; rewrite Ho; discriminate).
    destruct (Hnew m Hm) as (mem & E1 & E2 & E3). rewrite (HFn m Hm) in Ho. injection Ho as <-. exists mem, (vs m). split; [exact E1|]. split; [exact E2|].
    split; [rewrite E3; cbn; now rewrite Hex|]. apply Hvs. lia.
  - destruct Hr as [(m & e & _ & Hin & He)|(m & k & Hb & Hk & Hlt)]; [left; now exists m, e|right]. exists m, k. split; [exact Hb|]. split; [exact Hk|]. rewrite <- Hex. exact Hlt.
Qed.
Print Assumptions C147_update.

(** A row of three cells, each with an element whose ID is 10 + x, particles
    between x and x + 1, and a number. The elements add up their neighbors to the
    left (whose edge is empty, which throws) and spawn a particle if the
    sum is large; particles move to the right by the sum of the numbers around;
    the number is the count of particles. *)
Definition ex_elem (x : Z) (p : place) : ccell Q := mkCC [10 + x; 0] [inject_Z x; 0%Q] 1.
Definition ex_cells (p : place) : list (member Q Q) :=
  match p with
  | Some [x] => [MBox (mkBoxCell [inject_Z x] [1%Q] (if x =? 1 then [(3 # 2)%Q; (5 # 2)%Q] else [])); MContainer (ex_elem x p); MSingle (inject_Z (x * x))]
  | _ => [MBox (mkBoxCell [0%Q] [0%Q] []); MContainer (mkCC [0; 0] [0%Q; 0%Q] 0); MSingle 7%Q]
  end.
Definition ex_hood (c : Z) : coord -> place := cell_hood [false] [3] [c].
Definition ex_kern (i nano : nat) (v : Q) : kernel Q :=
  match i with
  | O => KAt 2 [-1] (fun a => KAt 2 [1] (fun b => KDone (Qred (v + a + b))))
  | S O => KId 1 (10 + Qround.Qfloor v - 1) (fun l => match l with None => KRaise | Some a => KSpawn 0 (Qred (v + a)) (KDone (Qred (v + a))) end)
  | S (S _) => KAll 0 (fun l => KDone (inject_Z (Z.of_nat (length l))))
  end.
Definition ex_kinds : list kind := [Boxed; Keyed; Lone].

Lemma ex_hood_cases c rel : moore 1 rel -> 0 <= c < 3 -> exists x, rel = [x] /\ (ex_hood c rel = Some [c + x] /\ 0 <= c + x < 3 \/ ex_hood c rel = None).
Proof.
  intros [L H] Hc. destruct rel as [|x [|]]; try discriminate. exists x. split; [reflexivity|]. unfold ex_hood, cell_hood. cbn [zadd denotes]. destruct ((0 <=? c + x) && (c + x <? 3)) eqn:E; [left|right]; cbn.
  - split; [reflexivity|]. lia.
  - reflexivity.
Qed.

Lemma ex_layout c : 0 <= c < 3 -> layout ex_cells (ex_hood c) 1 ex_kinds.
Proof.
  intros Hc rel Hr. destruct (ex_hood_cases c rel Hr Hc) as (x & -> & [[-> Hx]| ->]); cbn [ex_cells map kind_of].
  - split; [reflexivity|]. intros [|[|[|[|m]]]] cc E; try discriminate E. injection E as <-. exists [(10 + (c + x), inject_Z (c + x))]. split; [reflexivity|]. split; [repeat constructor|]. split; reflexivity.
  - split; [reflexivity|]. intros [|[|[|[|m]]]] cc E; try discriminate E. injection E as <-. exists []. split; [reflexivity|]. split; [repeat constructor|]. split; reflexivity.
Qed.

Lemma ex_unambiguous c : 0 <= c < 3 -> unambiguous ex_cells (ex_hood c) 1.
Proof.
  intros Hc. assert (H : forall m id r cc l v, moore 1 r -> nth_error (ex_cells (ex_hood c r)) m = Some (MContainer cc) -> cc_items cc = Some l -> In (id, v) l -> v = inject_Z (id - 10)).
  { intros m id r cc l v Hr E I Hin. destruct (ex_hood_cases c r Hr Hc) as (x & -> & [[D Hx]|D]); rewrite D in E; cbn [ex_cells] in E; destruct m as [|[|[|[|m]]]]; try discriminate E; injection E as <-; unfold cc_items in I; cbn [cc_num cc_ids cc_cells ex_elem Z.to_nat Pos.to_nat Pos.iter_op Init.Nat.add vec_read obind] in I.
    - change (Some [(10 + (c + x), inject_Z (c + x))] = Some l) in I. assert (l = [(10 + (c + x), inject_Z (c + x))]) as -> by congruence. destruct Hin as [Hin|[]]. pose proof (f_equal fst Hin) as H1. apply (f_equal snd) in Hin. cbn [fst snd] in H1, Hin. rewrite <- Hin, <- H1. f_equal. lia.
    - injection I as <-. destruct Hin. }
  intros m id r1 c1 l1 v1 r2 c2 l2 v2 M1 E1 I1 H1 M2 E2 I2 H2. now rewrite (H m id r1 c1 l1 v1), (H m id r2 c2 l2 v2).
Qed.

Example ex_C147 : (exists w, sees ex_cells (ex_hood 2) 1 w) /\
  (forall i v, (i < 3)%nat -> typed ex_kinds 1 (ex_kern i 0 v) /\ spawns_back (fun _ => Some 3%nat) i (ex_kern i 0 v)) /\
  adapter_get ex_cells (ex_hood 2) 1 1 11 = Some (Some 1%Q) /\ adapter_get ex_cells (ex_hood 2) 1 1 10 = Some None /\
  multi_update ex_cells (ex_hood 2) 1 exact (fun v => [v]) (fun _ => Some 3%nat) ex_kern 0 =
    Some (Done [MBox (mkBoxCell [2%Q] [1%Q] [(21 # 2)%Q; 3%Q]); MContainer (mkCC [12; 0] [3%Q; 0%Q] 1); MSingle 2%Q]) /\
  (exists l, multi_update ex_cells (ex_hood 0) 1 exact (fun v => [v]) (fun _ => Some 3%nat) ex_kern 0 = Some (Threw l)).
Proof.
  split; [apply (view_of ex_cells (ex_hood 2) 1 ex_kinds 0%Q); [lia|apply ex_layout; lia|apply ex_unambiguous; lia]|]. split.
  - intros [|[|[|i]]] v Hi; cbn [ex_kern typed spawns_back].
    + repeat split; try reflexivity; repeat constructor; cbn; discriminate.
    + split; [split; [reflexivity|]|]; intros [a|]; cbn; auto with arith.
    + repeat split.
    + lia.
  - repeat split; try (vm_compute; reflexivity). eexists. vm_compute. reflexivity.
Qed.

(** C149: BoxCell::updateCargo() fixes the end of its container so that new
    particles "won't be immediately updated, too". That isn't so if the particle
    is spawned in a container which follows: here the element of the first box spawns
    a particle in the second one, which is updated at once. *)
Definition two_boxes (p : place) : list (member Q Q) :=
  match p with
  | Some _ => [MBox (mkBoxCell [0%Q] [1%Q] [(1 # 2)%Q]); MBox (mkBoxCell [0%Q] [1%Q] [])]
  | None => [MBox (mkBoxCell [0%Q] [0%Q] []); MBox (mkBoxCell [0%Q] [0%Q] [])]
  end.
Definition two_kern (i nano : nat) (v : Q) : kernel Q :=
  match i with O => KSpawn 1 (1 # 4)%Q (KDone v) | S _ => KDone (Qred (v + (1 # 4))) end.

Theorem C149_spawned_later_refuted : exists (cells : place -> list (member Q Q)) hood kinds w kern new mem p p',
  layout cells hood 1 kinds /\ sees cells hood 1 w /\ (forall i v, typed kinds 1 (kern i O v)) /\
  multi_update cells hood 1 exact (fun v => [v]) (fun _ => None) kern 0 = Some (Done new) /\
  carried cells hood 1 exact (fun v => [v]) 0 1 = [] /\ spawned cells hood 1 w exact (fun v => [v]) kern 0 1 = [p] /\
  nth_error new 1 = Some mem /\ elements mem = Some [p'] /\ p' <> p /\ fst (eval w (kern 1%nat O p)) = Some p'.
Proof.
  set (hood := cell_hood [false] [1] [0]).
  assert (Hlay : layout two_boxes hood 1 [Boxed; Boxed]).
  { intros rel _. destruct (hood rel); cbn; (split; [reflexivity|]); intros [|[|m]] cc E; try discriminate E; destruct m; discriminate E. }
  destruct (view_of two_boxes hood 1 _ 0%Q ltac:(lia) Hlay) as (w & Hw).
  { intros m id r1 c1 l1 v1 r2 c2 l2 v2 _ E. exfalso. destruct (hood r1); cbn in E; destruct m as [|[|m]]; try discriminate E; destruct m; discriminate E. }
  exists two_boxes, hood, [Boxed; Boxed], w, two_kern. do 4 eexists. split; [exact Hlay|]. split; [exact Hw|]. split; [intros [|i] v; cbn; auto|].
  split; [vm_compute; reflexivity|]. split; [reflexivity|]. split; [reflexivity|]. split; [reflexivity|]. split; [reflexivity|]. split; [|reflexivity]. discriminate.
Qed.
Print Assumptions C149_spawned_later_refuted.
