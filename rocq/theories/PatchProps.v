(** Properties C25, C26: PatchBuffer and PatchBufferFixed. *)
From Verif Require Import Base ListFacts PatchModel PatchSpec PatchFacts.
From Coq Require Import Sorted.

(** C25: a PatchBuffer is an unbounded queue. *)
Theorem C25_patch_buffer_queue C (cs : list coord) (ops : list (bop C)) :
  timely None cs (mkQueue [] []) ops ->
  snd (brun (pbuf_step cs) pbuf_init ops) = snd (brun (queue_step None cs) (mkQueue [] []) ops).
Proof.
  intros H. apply pbuf_run; auto.
  - split; [split; [constructor|tauto]|split; reflexivity].
  - split; [constructor|intros x t []].
Qed.
Print Assumptions C25_patch_buffer_queue.

Lemma queue_pushes {C} cap cs (R : list nat) : forall (q : queue C) ops,
  brun (queue_step cap cs) q (map OPush R ++ ops) =
  (let '(q', rs) := brun (queue_step cap cs) (mkQueue (rev R ++ q_pending q) (q_items q)) ops in (q', map (fun _ => RVoid) R ++ rs)).
Proof.
  induction R as [|t R IH]; intros q ops; cbn [map rev app brun queue_step].
  - destruct q as [p i]. cbn. destruct (brun (queue_step cap cs) (mkQueue p i) ops). reflexivity.
  - rewrite IH. cbn [q_pending q_items]. rewrite <- app_assoc. cbn [app].
    destruct (brun (queue_step cap cs) (mkQueue (rev R ++ t :: q_pending q) (q_items q)) ops). reflexivity.
Qed.

Lemma timely_nopush {C} cap cs (ops : list (bop C)) : (forall t, ~ In (OPush t) ops) -> forall q, timely cap cs q ops.
Proof.
  induction ops as [|o ops IH]; intros H q; cbn; auto. split.
  - intros t ->. exfalso. apply (H t). now left.
  - apply IH. intros t Ht. apply (H t). now right.
Qed.

Lemma timely_pushes {C} cap cs (R : list nat) : forall (q : queue C) ops, q_items q = [] ->
  (forall q, timely cap cs q ops) -> timely cap cs q (map OPush R ++ ops).
Proof.
  induction R as [|t R IH]; intros q ops Hq H; cbn [map app timely]; [auto|]. split.
  - intros t' _. rewrite Hq. constructor.
  - apply IH; auto.
Qed.

Lemma queue_puts {C} cs (G : nat -> grid C) ts : StronglySorted lt ts -> forall q ops,
  (forall x, In x (q_pending q) -> In x ts) ->
  exists pend, brun (queue_step None cs) q (map (fun t => OPut (G t) t) ts ++ ops) =
    (let '(q', rs) := brun (queue_step None cs)
       (mkQueue pend (q_items q ++ map (fun t => (t, map (G t) cs)) (filter (fun t => existsb (Nat.eqb t) (q_pending q)) ts))) ops
     in (q', map (fun _ => RVoid) ts ++ rs)).
Proof.
  induction 1 as [|t ts Hts IH Ht]; intros q ops Hsub; cbn [map app filter].
  - exists (q_pending q). rewrite app_nil_r. destruct q as [p i]. cbn. destruct (brun (queue_step None cs) (mkQueue p i) ops). reflexivity.
  - cbn [brun queue_step]. rewrite Forall_forall in Ht.
    assert (E : existsb (fun x => Nat.ltb x t) (q_pending q) = false).
    { apply Bool.not_true_iff_false. rewrite existsb_exists. intros (x & Hx & Hlt). apply Hsub in Hx.
      destruct Hx as [<-|Hx]; [lia|]. specialize (Ht x Hx). lia. }
    rewrite E. destruct (existsb (Nat.eqb t) (q_pending q)) eqn:E2; cbn [queue_full].
    + edestruct (IH (mkQueue (filter (fun x => negb (Nat.eqb t x)) (q_pending q)) (q_items q ++ [(t, map (G t) cs)])) ops) as (pend & E3).
      { cbn [q_pending]. intros x Hx. apply filter_In in Hx. destruct Hx as [Hx Hn]. apply Hsub in Hx. destruct Hx as [<-|Hx]; auto.
        rewrite Nat.eqb_refl in Hn. discriminate. }
      exists pend. rewrite E3. clear E3. cbn [q_items q_pending].
      assert (Ef : filter (fun t0 => existsb (Nat.eqb t0) (filter (fun x => negb (Nat.eqb t x)) (q_pending q))) ts =
                   filter (fun t0 => existsb (Nat.eqb t0) (q_pending q)) ts).
      { apply filter_ext_in. intros x Hx. specialize (Ht x Hx). apply Bool.eq_iff_eq_true. rewrite !existsb_exists. split.
        - intros (y & Hy & Hxy). apply filter_In in Hy. exists y. tauto.
        - intros (y & Hy & Hxy). exists y. split; auto. apply filter_In. split; auto. apply Nat.eqb_eq in Hxy. subst y.
          destruct (Nat.eqb_spec t x); [lia|reflexivity]. }
      rewrite Ef, <- app_assoc. cbn [app map]. destruct (brun _ _ ops). reflexivity.
    + edestruct (IH q ops) as (pend & E3).
      { intros x Hx. destruct (Hsub x Hx) as [<-|]; auto. exfalso. apply Bool.not_true_iff_false in E2. apply E2, existsb_exists.
        exists t. split; auto. apply Nat.eqb_refl. }
      exists pend. rewrite E3. clear E3. destruct (brun _ _ ops). reflexivity.
Qed.

Lemma queue_gets {C} cap cs (G : nat -> grid C) (dst : grid C) R : forall pend,
  Forall2 (fun t r => exists g', r = RGrid g' /\ (forall c, In c cs -> g' c = G t c) /\ (forall c, ~ In c cs -> g' c = dst c))
    R (snd (brun (queue_step cap cs) (mkQueue pend (map (fun t => (t, map (G t) cs)) R)) (map (fun t => OGet dst t true) R))).
Proof.
  induction R as [|t R IH]; intros pend; cbn [map brun queue_step q_items]; [constructor|].
  rewrite Nat.eqb_refl. cbn [q_pending]. specialize (IH pend).
  destruct (brun (queue_step cap cs) _ _) as [q rs]. cbn [snd] in *. constructor; auto.
  destruct (load_save cs dst (G t)) as (g' & E & H1 & H2). unfold save_region in E. rewrite E. exists g'. split; [reflexivity|]. auto.
Qed.

(** Charged with any steps and offered the grid at increasing steps, it
    yields the region as it was at the requested steps. *)
Theorem C25_patch_buffer C (cs : list coord) (R ts : list nat) (G : nat -> grid C) (dst : grid C) :
  StronglySorted lt ts -> incl R ts ->
  let asked := filter (fun t => existsb (Nat.eqb t) R) ts in
  let rs := snd (brun (pbuf_step cs) pbuf_init
     (map OPush R ++ map (fun t => OPut (G t) t) ts ++ map (fun t => OGet dst t true) asked)) in
  (forall t, In t asked <-> In t R) /\
  exists gets, rs = map (fun _ => RVoid) R ++ map (fun _ => RVoid) ts ++ gets /\
    Forall2 (fun t r => exists g', r = RGrid g' /\
      (forall c, In c cs -> g' c = G t c) /\ (forall c, ~ In c cs -> g' c = dst c)) asked gets.
Proof.
  intros Hts Hin asked rs. split.
  - intros t. unfold asked. rewrite filter_In, existsb_exists. split.
    + intros (_ & x & Hx & E). apply Nat.eqb_eq in E. now subst.
    + intros Ht. split; [auto|]. exists t. split; [auto|apply Nat.eqb_refl].
  - unfold rs. clear rs. rewrite C25_patch_buffer_queue.
    + rewrite queue_pushes. cbn [q_pending q_items]. rewrite app_nil_r.
      destruct (queue_puts cs G ts Hts (mkQueue (rev R) []) (map (fun t => OGet dst t true) asked)) as (pend & E).
      { cbn. intros x Hx. apply Hin. now apply in_rev. }
      rewrite E. clear E. cbn [q_items q_pending app].
      assert (Ea : filter (fun t => existsb (Nat.eqb t) (rev R)) ts = asked).
      { apply filter_ext. intros t. apply Bool.eq_iff_eq_true. rewrite !existsb_exists. split; intros (x & Hx & E); exists x; (split; [|auto]); [now apply in_rev|now apply in_rev in Hx]. }
      rewrite Ea. pose proof (queue_gets None cs G dst asked pend) as Hg.
      destruct (brun _ _ _) as [q' rs']. cbn [snd] in *. exists rs'. split; [reflexivity|exact Hg].
    + apply timely_pushes; [reflexivity|]. apply timely_nopush. intros t H. apply in_app_or in H.
      destruct H as [H|H]; apply in_map_iff in H; destruct H as (x & E & _); discriminate.
Qed.
Print Assumptions C25_patch_buffer.

(** C26: a PatchBufferFixed of size [k] is a queue of at most [k] patches. *)
Theorem C26_patch_buffer_fixed C (k : nat) (dflt : C) (cs : list coord) (ops : list (bop C)) :
  (1 <= k)%nat -> timely (Some k) cs (mkQueue [] []) ops ->
  snd (brun (fbuf_step cs) (fbuf_init k dflt cs) ops) = snd (brun (queue_step (Some k) cs) (mkQueue [] []) ops).
Proof.
  intros Hk H. apply (fbuf_run k cs ops); auto.
  - now apply fbuf_init_rel.
  - split; [constructor|intros x t []].
Qed.
Print Assumptions C26_patch_buffer_fixed.

(** Concrete grids, by their cells 0, 1, 2. *)
Definition show (r : bres Z) : option (list Z) :=
  match r with RGrid g => Some (map g [[0]; [1]; [2]]) | RVoid => Some [] | _ => None end.

Example C25_example :
  let G := fun (t : nat) (c : coord) => Z.of_nat t * 10 + hd 0 c in
  StronglySorted lt [3; 4; 6; 7]%nat /\ incl [6; 3]%nat [3; 4; 6; 7]%nat /\
  map show (snd (brun (pbuf_step [[1]; [2]]) pbuf_init
     ([OPush 6; OPush 3]%nat ++ map (fun t => OPut (G t) t) [3; 4; 6; 7]%nat ++ map (fun t => OGet (fun _ => 0) t true) [3; 6]%nat)))
  = [Some []; Some []; Some []; Some []; Some []; Some []; Some [0; 31; 32]; Some [0; 61; 62]].
Proof. split; [repeat constructor|]. split; [intros x H; cbn in *; tauto|]. vm_compute. reflexivity. Qed.

(** Full and empty buffers; the ring wraps around. *)
Example C26_example :
  let G := fun (t : nat) (c : coord) => Z.of_nat t * 10 + hd 0 c in
  let z := fun _ : coord => 0 in
  let ops := [OGet z 1 true; OPush 1; OPush 2; OPush 3; OPush 4; OPut (G 1%nat) 1; OPut (G 2%nat) 2; OPut (G 3%nat) 3;
              OGet z 1 true; OPut (G 3%nat) 3; OGet z 3 true; OGet z 2 false; OGet z 2 true; OPut (G 4%nat) 4; OGet z 3 true; OGet z 4 true; OGet z 5 true]%nat in
  timely (Some 2%nat) [[1]; [2]] (mkQueue [] []) ops /\
  map show (snd (brun (fbuf_step [[1]; [2]]) (fbuf_init 2 0 [[1]; [2]]) ops)) =
  [None; Some []; Some []; Some []; Some []; Some []; Some []; None; Some [0; 11; 12]; Some []; None; Some [0; 21; 22];
   Some [0; 21; 22]; Some []; Some [0; 31; 32]; Some [0; 41; 42]; None].
Proof.
  cbn zeta. split; [|vm_compute; reflexivity]. cbn. repeat (split; [intros t [= <-]; repeat constructor|] || (split; [intros t; discriminate|])). exact I.
Qed.

(** C62: requests for steps before one which is already stored mix patches
    up, as the steps are sorted, but the patches aren't. *)
Theorem C62_late_request_refuted : exists (cs : list coord) (g3 g5 dst g' : grid Z) c,
  let ops := [OPush 5; OPut g5 5; OPush 3; OPut g3 3; OGet dst 3 true]%nat in
  snd (brun (pbuf_step cs) pbuf_init ops) = [RVoid; RVoid; RVoid; RVoid; RGrid g'] /\
  In c cs /\ g' c <> g3 c.
Proof.
  exists [[0]], (fun _ => 3), (fun _ => 5), (fun _ => 0). eexists. exists [0]. split; [vm_compute; reflexivity|].
  split; [now left|]. vm_compute. discriminate.
Qed.
Print Assumptions C62_late_request_refuted.
