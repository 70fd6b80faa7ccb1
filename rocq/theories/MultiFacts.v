(** Lemmas about cells with several containers. *)
From Coq Require Import Sorted Permutation.
From Verif Require Import Base ListFacts CoordModel CoordSpec CoordFacts RegionOpsModel GridModel GridFacts ArrayModel ArraySpec ArrayFacts ParamModel GridSpec BoxModel BoxSpec BoxFacts MultiModel MultiSpec.

(** ** Lists *)

Lemma put_spec {T} (l : list T) : forall i x, (i < length l)%nat -> exists l', vec_put l i x = Some l' /\ length l' = length l /\
  nth_error l' i = Some x /\ forall j, j <> i -> nth_error l' j = nth_error l j.
Proof.
  induction l as [|y l IH]; intros i x Hi; cbn in Hi; [lia|]. destruct i as [|i]; cbn [vec_put].
  - eexists. split; [reflexivity|]. split; [reflexivity|]. split; [reflexivity|]. intros [|j] Hj; [lia|reflexivity].
  - destruct (IH i x ltac:(lia)) as (l' & -> & H1 & H2 & H3). eexists. split; [reflexivity|]. split; [cbn; lia|]. split; [exact H2|]. intros [|j] Hj; [reflexivity|]. apply H3. lia.
Qed.

Lemma put_mid {T} (a : list T) y b x : vec_put (a ++ y :: b) (length a) x = Some (a ++ x :: b).
Proof. induction a as [|z a IH]; [reflexivity|]. cbn [app length vec_put]. now rewrite IH. Qed.

Lemma vec_read_some {T} (l : list T) : forall k i r, 0 <= i -> vec_read l i k = Some r -> length r = k /\ r = firstn k (skipn (Z.to_nat i) l).
Proof.
  induction k as [|k IH]; intros i r Hi E; cbn in E; [injection E as <-; now split|]. destruct (vec_get l i) as [v|] eqn:Ev; [|discriminate]. cbn in E.
  destruct (vec_read l (i + 1) k) as [r'|] eqn:Er; [|discriminate]. cbn in E. injection E as <-. destruct (IH (i + 1) r' ltac:(lia) Er) as [H1 H2]. split; [cbn; lia|].
  unfold vec_get in Ev. destruct (Z.ltb_spec i 0); [lia|]. rewrite H2. replace (Z.to_nat (i + 1)) with (S (Z.to_nat i)) by lia. revert Ev. generalize (Z.to_nat i). clear. intros m. revert l.
  induction m as [|m IHm]; intros [|y l] Ev; try discriminate; cbn in *; [congruence|]. now apply IHm.
Qed.

Lemma map_fst_combine {S T} (a : list S) : forall b : list T, length a = length b -> map fst (combine a b) = a.
Proof. induction a as [|x a IH]; intros [|y b] H; cbn in *; try discriminate; [reflexivity|]. now rewrite IH by lia. Qed.

Lemma map_snd_combine {S T} (a : list S) : forall b : list T, length a = length b -> map snd (combine a b) = b.
Proof. induction a as [|x a IH]; intros [|y b] H; cbn in *; try discriminate; [reflexivity|]. now rewrite IH by lia. Qed.

(** ** ContainerCells *)

Lemma proper_crep {V} (c : ccell V) items : proper c items -> crep (Z.of_nat (length (cc_ids c))) c items.
Proof.
  intros (Hi & Hs & Hn & Hl). split; [exact Hs|]. split; [exact Hn|]. unfold cc_items in Hi. rewrite Hn, Nat2Z.id in Hi.
  destruct (vec_read (cc_ids c) 0 (length items)) as [ids|] eqn:E1; [|discriminate]. cbn in Hi. destruct (vec_read (cc_cells c) 0 (length items)) as [vs|] eqn:E2; [|discriminate]. cbn in Hi. injection Hi as Hi.
  apply vec_read_some in E1 as [L1 F1]; [|lia]. apply vec_read_some in E2 as [L2 F2]; [|lia]. cbn [Z.to_nat skipn] in F1, F2.
  assert (M1 : map fst items = ids) by (rewrite <- Hi, map_fst_combine; [reflexivity|lia]).
  assert (M2 : map snd items = vs) by (rewrite <- Hi, map_snd_combine; [reflexivity|lia]).
  exists (skipn (length items) (cc_ids c)), (skipn (length items) (cc_cells c)). rewrite M1, M2, F1, F2, !firstn_skipn, !Nat2Z.id. repeat split; lia.
Qed.

Lemma proper_lookup {V} (c : ccell V) items id : proper c items -> cc_lookup c id = Some (map_find items id).
Proof. intros H. now apply (crep_lookup (Z.of_nat (length (cc_ids c)))), proper_crep. Qed.

Lemma find_sorted {V} (l : list (Z * V)) id v : StronglySorted (fun a b => fst a < fst b) l -> map_find l id = Some v <-> In (id, v) l.
Proof.
  unfold map_find. induction 1 as [|[k x] l Hs IH Hx]; cbn [find fst]; [split; [discriminate|intros []]|]. rewrite Forall_forall in Hx. destruct (Z.eqb_spec k id) as [->|Hk]; cbn [option_map snd].
  - split; [intros E; left; congruence|]. intros [E|Hin]; [congruence|]. specialize (Hx _ Hin). cbn in Hx. lia.
  - rewrite IH. split; [now right|]. intros [E|Hin]; [congruence|exact Hin].
Qed.

Lemma find_none {V} (l : list (Z * V)) id : map_find l id = None <-> forall v, ~ In (id, v) l.
Proof.
  unfold map_find. induction l as [|[k x] l IH]; cbn [find fst]; [split; [intros _ v []|reflexivity]|]. destruct (Z.eqb_spec k id) as [->|Hk]; cbn [option_map].
  - split; [discriminate|]. intros H. destruct (H x). now left.
  - rewrite IH. split; [intros H v [E|Hin]; [congruence|now apply (H v)]|intros H v Hin; apply (H v); now right].
Qed.

(** ** Reading *)

Section Read.
Context {N V : Type}.
Variable cells : place -> list (member N V).
Variable hood : coord -> place.
Variable n : nat.
Variable kinds : list kind.
Variable w : view V.
Hypothesis Hn : (1 <= n <= 3)%nat.
Hypothesis Hlay : layout cells hood n kinds.
Hypothesis Hsee : sees cells hood n w.

Lemma moore_zero : moore n (diagonal n 0).
Proof using. unfold moore, diagonal. rewrite repeat_length. split; [reflexivity|]. apply Forall_forall. intros x Hx. apply repeat_spec in Hx. subst x. clear. lia. Qed.

Lemma moore_list rel : moore n rel <-> In rel (box_list (hood_box n)).
Proof using Hn. symmetry. apply hood_list_in. lia. Qed.

Lemma member_at rel m k : moore n rel -> nth_error kinds m = Some k -> exists mem, nth_error (cells (hood rel)) m = Some mem /\ kind_of mem = k.
Proof using Hlay.
  intros Hr Hk. destruct (Hlay rel Hr) as [H _]. rewrite <- H in Hk. rewrite nth_error_map in Hk. destruct (nth_error (cells (hood rel)) m) as [mem|]; [|discriminate].
  cbn in Hk. exists mem. split; [reflexivity|congruence].
Qed.

Lemma probe_spec m id rel : nth_error kinds m = Some Keyed -> moore n rel -> exists r, probe cells hood m id rel = Some r /\
  (forall v, r = Some v -> see_id w m id = Some v) /\
  (r = None -> forall v c items, nth_error (cells (hood rel)) m = Some (MContainer c) -> cc_items c = Some items -> ~ In (id, v) items).
Proof using Hlay Hsee.
  intros Hk Hr. destruct (member_at rel m Keyed Hr Hk) as (mem & Em & Hm). destruct mem as [c|b|x]; try discriminate. destruct (Hlay rel Hr) as [_ Hc]. destruct (Hc m c Em) as (items & Hp).
  unfold probe, old_member. rewrite Em. cbn [obind as_container]. rewrite (proper_lookup c items id Hp). eexists. split; [reflexivity|]. pose proof Hp as (Hi & Hs & _). split.
  - intros v Hv. apply Hsee. apply (find_sorted items id v Hs) in Hv. exists rel, c, items. auto.
  - intros Hf v c' items' E1 E2. injection E1 as <-. rewrite Hi in E2. injection E2 as <-. now apply find_none.
Qed.

Lemma probe_all_spec m id : nth_error kinds m = Some Keyed -> forall rels, (forall rel, In rel rels -> moore n rel) -> exists r, probe_all cells hood n m id rels = Some r /\
  (forall v, r = Some v -> see_id w m id = Some v) /\
  (r = None -> forall rel v c items, In rel rels -> rel <> diagonal n 0 -> nth_error (cells (hood rel)) m = Some (MContainer c) -> cc_items c = Some items -> ~ In (id, v) items).
Proof using Hlay Hsee.
  intros Hk. induction rels as [|rel rels IH]; intros Hrels; cbn [probe_all].
  - exists None. split; [reflexivity|]. split; [discriminate|]. intros _ rel v c items [].
  - destruct (IH (fun r H => Hrels r (or_intror H))) as (r & Er & H1 & H2). destruct (CoordModel.coord_eqb rel (diagonal n 0)) eqn:E0.
    + apply ceq_spec in E0. exists r. split; [exact Er|]. split; [exact H1|]. intros Hr rel' v c items [<-|Hin] Hne; [congruence|now apply (H2 Hr)].
    + destruct (probe_spec m id rel Hk (Hrels rel (or_introl eq_refl))) as (q & Eq & G1 & G2). rewrite Eq. cbn [obind]. destruct q as [v|].
      * exists (Some v). split; [reflexivity|]. split; [exact G1|discriminate].
      * exists r. split; [exact Er|]. split; [exact H1|]. intros Hr rel' v c items [<-|Hin] Hne; [now apply (G2 eq_refl)|now apply (H2 Hr)].
Qed.

Lemma adapter_spec m id : nth_error kinds m = Some Keyed -> adapter_get cells hood n m id = Some (see_id w m id).
Proof using Hn Hlay Hsee.
  intros Hk. unfold adapter_get. destruct (probe_spec m id (diagonal n 0) Hk moore_zero) as (q & Eq & G1 & G2). rewrite Eq. cbn [obind]. destruct q as [v|]; [now rewrite (G1 v eq_refl)|].
  rewrite hood_coords by lia. cbn [obind]. destruct (probe_all_spec m id Hk (box_list (hood_box n))) as (r & Er & H1 & H2); [intros rel H; now apply moore_list|]. rewrite Er. f_equal.
  destruct r as [v|]; [now rewrite (H1 v eq_refl)|]. destruct (see_id w m id) as [v|] eqn:Es; [|reflexivity]. exfalso. apply Hsee in Es. destruct Es as (rel & c & items & Hr & Ec & Ei & Hin).
  destruct (CoordModel.coord_eqb rel (diagonal n 0)) eqn:E0.
  - apply ceq_spec in E0. subst rel. now apply (G2 eq_refl v c items).
  - apply (H2 eq_refl rel v c items); auto; [now apply moore_list|]. intros ->. rewrite (proj2 (ceq_spec (diagonal n 0) (diagonal n 0)) eq_refl) in E0. discriminate.
Qed.

Lemma single_spec m rel : nth_error kinds m = Some Lone -> moore n rel -> single_get cells hood n m rel = Some (see_at w m rel).
Proof using Hlay Hsee.
  intros Hk Hr. unfold single_get. assert (Em : in_moore n rel = true).
  { destruct Hr as [L F]. unfold in_moore. rewrite L, Nat.eqb_refl. cbn. apply forallb_forall. intros x Hx. rewrite Forall_forall in F. specialize (F x Hx). cbn in F. clear - F. lia. }
  rewrite Em. destruct (member_at rel m Lone Hr Hk) as (mem & E & Hm). destruct mem as [c|b|x]; try discriminate. unfold old_member. rewrite E. cbn [obind as_single]. f_equal.
  symmetry. now apply (proj1 (proj2 Hsee)).
Qed.

Lemma old_boxes_parts m c : bx_parts (old_boxes cells m (hood c)) = box_parts cells hood m c.
Proof using. unfold old_boxes, box_parts. destruct (nth_error (cells (hood c)) m) as [[x|b|x]|]; reflexivity. Qed.

Lemma hood_parts m : hood_particles (old_boxes cells m) hood n = Some (flat_map (box_parts cells hood m) (box_list (hood_box n))).
Proof using Hn.
  rewrite hood_particles_spec by exact Hn. f_equal. induction (box_list (hood_box n)) as [|c l IH]; [reflexivity|]. cbn [flat_map]. now rewrite IH, old_boxes_parts.
Qed.

Lemma all_spec m : nth_error kinds m = Some Boxed -> all_get cells hood n m = Some (see_all w m).
Proof using Hn Hlay Hsee.
  intros Hk. unfold all_get. destruct (member_at (diagonal n 0) m Boxed moore_zero Hk) as (mem & E & Hm). destruct mem as [c|b|x]; try discriminate. unfold old_member. rewrite E. cbn [obind as_box].
  rewrite hood_parts. f_equal. symmetry. apply Hsee.
Qed.

End Read.

(** ** Writing *)

Lemma frame_kind {N V} (a b : member N V) : same_frame a b -> kind_of b = kind_of a.
Proof. destruct a, b; cbn; tauto. Qed.

Lemma meant_cons {V} m i (v : V) l : meant_for m ((i, v) :: l) = (if (i =? m)%nat then [v] else []) ++ meant_for m l.
Proof. unfold meant_for. cbn [filter fst]. destruct (i =? m)%nat; reflexivity. Qed.

Section Run.
Context {N V : Type}.
Variable cells : place -> list (member N V).
Variable hood : coord -> place.
Variable n : nat.
Variable kinds : list kind.
Variable w : view V.
Hypothesis Hn : (1 <= n <= 3)%nat.
Hypothesis Hlay : layout cells hood n kinds.
Hypothesis Hsee : sees cells hood n w.
Variable cap : nat -> option nat.
Variable kern : nat -> nat -> V -> kernel V.
Variable nano : nat.
Hypothesis Hkern : forall i v, (i < length kinds)%nat -> typed kinds n (kern i nano v) /\ spawns_back cap i (kern i nano v).
Variable F : nat -> member N V. (* members after copyOver *)
Hypothesis HF : forall m k, nth_error kinds m = Some k -> kind_of (F m) = k.

(** The cell holds the elements [E]. *)
Definition state (new : list (member N V)) (E : nat -> list V) : Prop :=
  length new = length kinds /\
  forall m, (m < length kinds)%nat -> exists mem, nth_error new m = Some mem /\ same_frame (F m) mem /\ elements mem = Some (E m).

(** A capacity is exceeded. *)
Definition overfull (size : nat -> nat) : Prop := exists m k, nth_error kinds m = Some Boxed /\ cap m = Some k /\ (k < size m)%nat.

Lemma state_ext new E E' : state new E -> (forall m, (m < length kinds)%nat -> E m = E' m) -> state new E'.
Proof using. intros [L H] He. split; [exact L|]. intros m Hm. destruct (H m Hm) as (mem & H1 & H2 & H3). exists mem. rewrite <- (He m Hm). auto. Qed.

Lemma run_spec cur k : forall new E, typed kinds n k -> spawns_back cap cur k -> state new E ->
  exists new' r, run_kernel cells hood n cap cur k new = Some (new', r) /\
    match r with
    | Some v => fst (eval w k) = Some v /\ state new' (fun m => E m ++ meant_for m (snd (eval w k)))
    | None => fst (eval w k) = None \/ overfull (fun m => length (E m) + length (meant_for m (snd (eval w k))))%nat
    end.
Proof using Hn Hlay Hsee HF.
  clear Hkern kern nano. induction k as [v| |m id k IH|m c k IH|m k IH|m v k IH]; intros new E Ht Hs Hst; cbn [run_kernel typed spawns_back eval] in *.
  - exists new, (Some v). split; [reflexivity|]. split; [reflexivity|]. apply (state_ext _ _ _ Hst). intros; cbn. now rewrite app_nil_r.
  - exists new, None. split; [reflexivity|now left].
  - destruct Ht as [Hk Ht]. rewrite (adapter_spec cells hood n kinds w Hn Hlay Hsee m id Hk). cbn [obind]. apply IH; auto.
  - destruct Ht as (Hk & Hm & Ht). rewrite (single_spec cells hood n kinds w Hlay Hsee m c Hk Hm). cbn [obind]. apply IH; auto.
  - destruct Ht as [Hk Ht]. rewrite (all_spec cells hood n kinds w Hn Hlay Hsee m Hk). cbn [obind]. apply IH; auto.
  - destruct Ht as [Hk Ht]. destruct Hs as [Hc Hs]. assert (Hm : (m < length kinds)%nat) by (apply nth_error_Some; congruence). pose proof Hst as [L Hall].
    destruct (Hall m Hm) as (mem & Em & Hfr & Hel). pose proof (frame_kind _ _ Hfr) as Hkd. rewrite (HF m Boxed Hk) in Hkd. destruct mem as [x|b|x]; try discriminate. cbn in Hel. injection Hel as Hel.
    rewrite Em. cbn [obind as_box].
    assert (Hg : ((m =? cur)%nat && match cap m with None => true | Some _ => false end) = false).
    { destruct (Nat.eqb_spec m cur) as [->|]; [|reflexivity]. destruct Hc as [Hc|[_ Hc]]; [lia|]. destruct (cap cur); [reflexivity|congruence]. }
    rewrite Hg. clear Hg.
    assert (Hgo : exists new' r, obind (vec_put new m (MBox (mkBoxCell (bx_origin b) (bx_dim b) (bx_parts b ++ [v])))) (run_kernel cells hood n cap cur k) = Some (new', r) /\
      match r with
      | Some v0 => fst (eval w k) = Some v0 /\ state new' (fun m0 => E m0 ++ meant_for m0 ((m, v) :: snd (eval w k)))
      | None => fst (eval w k) = None \/ overfull (fun m0 => length (E m0) + length (meant_for m0 ((m, v) :: snd (eval w k))))%nat
      end).
    { destruct (put_spec new m (MBox (mkBoxCell (bx_origin b) (bx_dim b) (bx_parts b ++ [v]))) ltac:(lia)) as (new1 & -> & L1 & P1 & P2). cbn [obind].
      destruct (IH new1 (fun m0 => E m0 ++ (if (m =? m0)%nat then [v] else []))) as (new' & r & Er & Hr); auto.
      - split; [lia|]. intros m0 Hm0. destruct (Nat.eqb_spec m m0) as [<-|Hne].
        + eexists. split; [exact P1|]. split; [|cbn; now rewrite Hel]. destruct (F m); cbn in *; try tauto.
        + rewrite (P2 m0) by lia. destruct (Hall m0 Hm0) as (mem0 & E0 & F0 & G0). exists mem0. rewrite app_nil_r. auto.
      - exists new', r. split; [exact Er|]. destruct r as [v0|].
        + destruct Hr as [H1 H2]. split; [exact H1|]. apply (state_ext _ _ _ H2). intros m0 _. now rewrite meant_cons, <- app_assoc.
        + destruct Hr as [H1|(m0 & k0 & Hm0 & Hk0 & Hlt)]; [now left|right]. exists m0, k0. split; [exact Hm0|]. split; [exact Hk0|]. rewrite meant_cons, app_length. rewrite app_length in Hlt. lia. }
    unfold push. destruct (cap m) as [c|] eqn:Ec; [|exact Hgo]. destruct (Nat.ltb_spec (length (bx_parts b)) c) as [Hlt|Hge]; [exact Hgo|].
    exists new, None. split; [reflexivity|]. right. exists m, c. split; [exact Hk|]. split; [exact Ec|]. cbn [fst snd]. rewrite meant_cons, Nat.eqb_refl, app_length. cbn [length]. rewrite Hel in Hge. lia.
Qed.

(** The particles spawned by several elements of the member [i]. *)
Definition offspring (i m : nat) (l : list V) : list V := flat_map (fun e => meant_for m (snd (eval w (kern i nano e)))) l.

Lemma set_element_spec i mem a e b v' : same_frame (F i) mem -> (i < length kinds)%nat -> elements mem = Some (a ++ e :: b) ->
  exists mem', set_element mem (length a) v' = Some mem' /\ same_frame (F i) mem' /\ elements mem' = Some (a ++ v' :: b).
Proof using.
  clear HF Hkern Hn Hlay Hsee kern cap n nano. intros Hfr Hi Hel. destruct mem as [c|c|x]; cbn [set_element elements] in *.
  - destruct (F i) as [f|f|f]; cbn in Hfr; try tauto. destruct Hfr as (H1 & H2 & H3). apply vec_read_some in Hel as [HL HE]; [|lia]. cbn [Z.to_nat skipn] in HE.
    rewrite app_length in HL. cbn [length] in HL. unfold vec_set. destruct (Z.ltb_spec (Z.of_nat (length a)) 0); [lia|]. rewrite Nat2Z.id.
    assert (Ec : cc_cells c = a ++ e :: (b ++ skipn (Z.to_nat (cc_num c)) (cc_cells c))).
    { rewrite <- (firstn_skipn (Z.to_nat (cc_num c)) (cc_cells c)) at 1. rewrite <- HE, <- app_assoc. reflexivity. }
    assert (Ep : vec_put (cc_cells c) (length a) v' = Some (a ++ v' :: b ++ skipn (Z.to_nat (cc_num c)) (cc_cells c))) by (rewrite Ec at 1; apply put_mid).
    rewrite Ep. cbn [option_map]. eexists. split; [reflexivity|]. cbn [same_frame elements cc_ids cc_num cc_cells]. split.
    + split; [exact H1|]. split; [exact H2|]. rewrite <- H3. rewrite Ec at 2. rewrite !app_length. reflexivity.
    + rewrite <- HL. replace (length a + S (length b))%nat with (length (a ++ v' :: b)) by (rewrite app_length; reflexivity).
      change (a ++ v' :: b ++ skipn (length (a ++ v' :: b)) (cc_cells c)) with (a ++ (v' :: b) ++ skipn (length (a ++ v' :: b)) (cc_cells c)). rewrite app_assoc.
      change ((a ++ v' :: b) ++ skipn (length (a ++ v' :: b)) (cc_cells c)) with ([] ++ (a ++ v' :: b) ++ skipn (length (a ++ v' :: b)) (cc_cells c)). now apply vec_read_app.
  - injection Hel as Hel. rewrite Hel, put_mid. cbn [option_map]. eexists. split; [reflexivity|]. destruct (F i) as [f|f|f]; cbn in *; try tauto.
  - injection Hel as Hel. destruct a as [|y a]; [|destruct a; discriminate]. destruct b; [|discriminate]. exists (MSingle v'). destruct (F i); cbn in *; tauto.
Qed.

Lemma cargo_spec i : (i < length kinds)%nat -> forall todo new E pre post, state new E -> E i = pre ++ todo ++ post ->
  exists r, update_cargo cells hood n cap kern nano i (length pre) (length todo) new = Some r /\
    match r with
    | Done new' => exists vs, map Some vs = map (fun e => fst (eval w (kern i nano e))) todo /\
        state new' (fun m => (if (m =? i)%nat then pre ++ vs ++ post else E m) ++ offspring i m todo)
    | Threw _ => (exists e, In e todo /\ fst (eval w (kern i nano e)) = None) \/ overfull (fun m => length (E m) + length (offspring i m todo))%nat
    end.
Proof using Hn Hlay Hsee HF Hkern.
  intros Hi. induction todo as [|e todo IH]; intros new E pre post Hst HE; cbn [length update_cargo].
  - exists (Done new). split; [reflexivity|]. exists []. split; [reflexivity|]. apply (state_ext _ _ _ Hst). intros m _. cbn. rewrite app_nil_r. destruct (Nat.eqb_spec m i) as [->|]; [exact HE|reflexivity].
  - pose proof Hst as [L Hall]. destruct (Hall i Hi) as (mem & Em & Hfr & Hel). rewrite Em. cbn [obind]. rewrite Hel. cbn [obind]. rewrite HE. cbn [app].
    rewrite nth_error_app2, Nat.sub_diag by lia. cbn [nth_error obind]. destruct (Hkern i e Hi) as [Ht Hs].
    destruct (run_spec i (kern i nano e) new E Ht Hs Hst) as (new1 & r & Er & Hr). rewrite Er. cbn [obind]. destruct r as [v'|].
    + destruct Hr as [Hv Hst1]. pose proof Hst1 as [L1 Hall1]. destruct (Hall1 i Hi) as (mem1 & Em1 & Hfr1 & Hel1). rewrite Em1. cbn [obind].
      rewrite HE in Hel1. rewrite <- !app_assoc in Hel1. cbn [app] in Hel1.
      destruct (set_element_spec i mem1 pre e _ v' Hfr1 Hi Hel1) as (mem2 & E2 & Hfr2 & Hel2). rewrite E2. cbn [obind].
      destruct (put_spec new1 i mem2 ltac:(lia)) as (new2 & -> & L2 & P1 & P2). cbn [obind].
      set (sp := snd (eval w (kern i nano e))) in *.
      assert (Hst2 : state new2 (fun m => (if (m =? i)%nat then pre ++ v' :: todo ++ post else E m) ++ meant_for m sp)).
      { split; [lia|]. intros m Hm. destruct (Nat.eqb_spec m i) as [->|Hne].
        - exists mem2. split; [exact P1|]. split; [exact Hfr2|]. rewrite Hel2, <- !app_assoc. cbn [app]. now rewrite <- app_assoc.
        - rewrite P2 by exact Hne. apply Hall1. exact Hm. }
      specialize (IH new2 _ (pre ++ [v']) (post ++ meant_for i sp) Hst2). cbn beta in IH. rewrite Nat.eqb_refl in IH. rewrite <- !app_assoc in IH. cbn [app] in IH. rewrite <- !app_assoc in IH. specialize (IH eq_refl).
      rewrite app_length in IH. cbn [length] in IH. rewrite Nat.add_1_r in IH. destruct IH as (r & Er2 & Hr). exists r. split; [exact Er2|]. destruct r as [new'|new'].
      * destruct Hr as (vs & Hvs & Hst'). exists (v' :: vs). split; [cbn [map]; now rewrite Hvs, Hv|]. apply (state_ext _ _ _ Hst'). intros m Hm. cbn [offspring flat_map]. fold (offspring i m todo). fold sp.
        destruct (Nat.eqb_spec m i) as [->|Hne]; rewrite <- ?app_assoc; cbn [app]; rewrite <- ?app_assoc; reflexivity.
      * destruct Hr as [(e' & Hin & He')|(m & k & Hm & Hk & Hlt)]; [left; exists e'; split; [now right|exact He']|right]. exists m, k. split; [exact Hm|]. split; [exact Hk|].
        cbn [offspring flat_map]. fold (offspring i m todo). fold sp. rewrite app_length. rewrite app_length in Hlt. destruct (Nat.eqb_spec m i) as [->|Hne]; [|lia].
        rewrite HE. rewrite !app_length in *. cbn [length app] in *. rewrite !app_length in *. lia.
    + exists (Threw new1). split; [reflexivity|]. destruct Hr as [Hr|(m & k & Hm & Hk & Hlt)]; [left; exists e; split; [now left|exact Hr]|right]. exists m, k. split; [exact Hm|]. split; [exact Hk|].
      cbn [offspring flat_map]. rewrite app_length. lia.
Qed.

(** The spawned particles of the members from [i] on. *)
Definition spawned_from (E : nat -> list V) (i count m : nat) : list V := flat_map (fun j => offspring j m (E j)) (seq i count).

Lemma offspring_back i m l : (i < length kinds)%nat -> (i < m)%nat -> offspring i m l = [].
Proof using Hkern.
  intros Hi Hm. unfold offspring. apply BoxFacts.flat_map_nil. intros e _. destruct (Hkern i e Hi) as [_ Hs]. revert Hs. generalize (kern i nano e). clear - Hm. intros k.
  induction k as [v| |m' id k IH|m' c k IH|m' k IH|m' v k IH]; cbn [spawns_back eval snd]; intros Hs; try reflexivity; auto.
  destruct Hs as [Hc Hs]. rewrite meant_cons, (IH Hs). destruct (Nat.eqb_spec m' m); [lia|reflexivity].
Qed.

Lemma all_updates : forall count i new E0 E, (i + count = length kinds)%nat -> state new E -> (forall m, (i <= m < length kinds)%nat -> E m = E0 m) ->
  exists r, update_all cells hood n cap kern nano i count new = Some r /\
    match r with
    | Done new' => exists vs, (forall m, (i <= m < length kinds)%nat -> map Some (vs m) = map (fun e => fst (eval w (kern m nano e))) (E0 m)) /\
        state new' (fun m => (if (m <? i)%nat then E m else vs m) ++ spawned_from E0 i count m)
    | Threw _ => (exists m e, (i <= m < length kinds)%nat /\ In e (E0 m) /\ fst (eval w (kern m nano e)) = None) \/
        overfull (fun m => length (E m) + length (spawned_from E0 i count m))%nat
    end.
Proof using Hn Hlay Hsee HF Hkern.
  induction count as [|count IH]; intros i new E0 E Hc Hst HE; cbn [update_all].
  - exists (Done new). split; [reflexivity|]. exists (fun _ => []). split; [intros; lia|]. apply (state_ext _ _ _ Hst). intros m Hm. destruct (Nat.ltb_spec m i); [|lia]. cbn. now rewrite app_nil_r.
  - assert (Hi : (i < length kinds)%nat) by lia. pose proof Hst as [L Hall]. destruct (Hall i Hi) as (mem & Em & Hfr & Hel). rewrite Em. cbn [obind]. rewrite Hel. cbn [obind].
    destruct (cargo_spec i Hi (E i) new E [] [] Hst) as (r & Er & Hr); [now rewrite app_nil_r|]. cbn [length] in Er. rewrite Er. cbn [obind]. destruct r as [new1|new1].
    + destruct Hr as (vs & Hvs & Hst1). rewrite (HE i ltac:(lia)) in Hvs.
      destruct (IH (S i) new1 E0 (fun m => (if (m =? i)%nat then vs else E m) ++ offspring i m (E i)) ltac:(lia)) as (r & Er1 & Hr1).
      * apply (state_ext _ _ _ Hst1). intros m _. cbn. now rewrite app_nil_r.
      * intros m Hm. rewrite offspring_back by lia. destruct (Nat.eqb_spec m i); [lia|]. rewrite app_nil_r. apply HE. lia.
      * exists r. split; [exact Er1|]. destruct r as [new'|new'].
        -- destruct Hr1 as (us & Hus & Hst'). exists (fun m => if (m =? i)%nat then vs else us m). split.
           ++ intros m Hm. destruct (Nat.eqb_spec m i) as [->|]; [exact Hvs|]. apply Hus. lia.
           ++ apply (state_ext _ _ _ Hst'). intros m Hm. unfold spawned_from. cbn [seq flat_map]. rewrite (HE i ltac:(lia)).
              destruct (Nat.ltb_spec m (S i)), (Nat.ltb_spec m i), (Nat.eqb_spec m i); try lia; rewrite <- ?app_assoc; try reflexivity.
              rewrite (offspring_back i m) by lia. reflexivity.
        -- destruct Hr1 as [(m & e & Hm & Hin & He)|(m & k & Hm & Hk & Hlt)]; [left; exists m, e; split; [lia|auto]|right]. exists m, k. split; [exact Hm|]. split; [exact Hk|].
           unfold spawned_from in *. cbn [seq flat_map]. rewrite (HE i ltac:(lia)) in Hlt. rewrite app_length in *. destruct (Nat.eqb_spec m i) as [->|]; [|lia].
           pose proof (f_equal (@length _) Hvs) as HL. rewrite !map_length in HL. rewrite HE by lia. lia.
    + exists (Threw new1). split; [reflexivity|]. destruct Hr as [(e & Hin & He)|(m & k & Hm & Hk & Hlt)].
      * left. exists i, e. split; [lia|]. split; [now rewrite <- HE by lia|exact He].
      * right. exists m, k. split; [exact Hm|]. split; [exact Hk|]. unfold spawned_from. cbn [seq flat_map]. rewrite <- (HE i) by lia. rewrite app_length. lia.
Qed.

End Run.

(** ** copyOver *)

Lemma contained_spec {N V} (A : arith N) (pos : V -> list N) cap o d : forall found l,
  match add_contained A pos cap o d found l with
  | Done l' => l' = l ++ filter (fun p => position_ok A (pos p) o d) found
  | Threw _ => exists k, cap = Some k /\ (k < length l + length (filter (fun p => position_ok A (pos p) o d) found))%nat
  end.
Proof.
  induction found as [|p found IH]; intros l; cbn [add_contained filter]; [now rewrite app_nil_r|]. destruct (position_ok A (pos p) o d); [|apply IH].
  unfold push. destruct cap as [k|]; [destruct (Nat.ltb_spec (length l) k)|].
  - specialize (IH (l ++ [p])). destruct (add_contained _ _ _ _ _ _ _); [now rewrite IH, <- app_assoc|]. destruct IH as (k' & E & Hk). exists k'. split; [exact E|]. rewrite app_length in Hk. cbn [length] in *. lia.
  - exists k. split; [reflexivity|]. cbn [length]. lia.
  - specialize (IH (l ++ [p])). destruct (add_contained _ _ _ _ _ _ _); [now rewrite IH, <- app_assoc|]. destruct IH as (k' & E & _). discriminate.
Qed.

Section Copy.
Context {N V : Type}.
Variable cells : place -> list (member N V).
Variable hood : coord -> place.
Variable n : nat.
Variable kinds : list kind.
Hypothesis Hn : (1 <= n <= 3)%nat.
Hypothesis Hlay : layout cells hood n kinds.
Variable A : arith N.
Variable pos : V -> list N.
Variable cap : nat -> option nat.
Variable nano : nat.

Lemma copy_spec i old : nth_error (cells (hood (diagonal n 0))) i = Some old -> exists r, copy_member cells hood n A pos cap nano i = Some r /\
  match r with
  | Done m => same_frame old m /\ elements m = Some (carried cells hood n A pos nano i)
  | Threw _ => kind_of old = Boxed /\ exists k, cap i = Some k /\ (k < length (carried cells hood n A pos nano i))%nat
  end.
Proof using Hn Hlay.
  intros Ho. unfold copy_member, old_member, carried. rewrite Ho. cbn [obind]. destruct old as [c|b|v].
  - eexists. split; [reflexivity|]. split; [now repeat split|]. destruct (Hlay (diagonal n 0) (moore_zero n)) as [_ Hc]. destruct (Hc i c Ho) as (items & Hp). pose proof (proper_crep c items Hp) as Hr. pose proof Hp as (-> & _).
    destruct Hr as (_ & Hnum & pad & padc & _ & E2 & _). cbn [elements]. rewrite Hnum, Nat2Z.id, E2. rewrite <- (map_length snd items). change (map snd items ++ padc) with ([] ++ map snd items ++ padc). now apply vec_read_app.
  - unfold copy_over. assert (Eb : old_boxes cells i (hood (diagonal n 0)) = b) by (unfold old_boxes; now rewrite Ho). rewrite Eb. destruct nano as [|nn].
    + rewrite (hood_parts cells hood n Hn). cbn [option_map]. set (found := flat_map _ _). pose proof (contained_spec A pos (cap i) (bx_origin b) (fadd A (bx_origin b) (bx_dim b)) found []) as H.
      destruct (add_contained _ _ _ _ _ _ _) as [l|l]; eexists; (split; [reflexivity|]).
      * cbn [app] in H. split; [now split|]. cbn [elements bx_parts]. now rewrite H.
      * cbn [length Nat.add] in H. now split.
    + eexists. split; [reflexivity|]. split; [now split|reflexivity].
  - eexists. split; [reflexivity|]. now split.
Qed.

Lemma copies : forall count i, (i + count = length (cells (hood (diagonal n 0))))%nat -> exists r, copy_all cells hood n A pos cap nano i count = Some r /\
  match r with
  | Done l => length l = count /\ forall j old, nth_error (cells (hood (diagonal n 0))) (i + j) = Some old ->
      exists mem, nth_error l j = Some mem /\ same_frame old mem /\ elements mem = Some (carried cells hood n A pos nano (i + j))
  | Threw _ => exists m k, nth_error kinds m = Some Boxed /\ cap m = Some k /\ (k < length (carried cells hood n A pos nano m))%nat
  end.
Proof using Hn Hlay.
  induction count as [|count IH]; intros i Hi; cbn [copy_all].
  - exists (Done []). split; [reflexivity|]. split; [reflexivity|]. intros j old Hj. assert (nth_error (cells (hood (diagonal n 0))) (i + j) <> None) as Hne by congruence. apply nth_error_Some in Hne. lia.
  - destruct (nth_error (cells (hood (diagonal n 0))) i) as [old|] eqn:Ho; [|apply nth_error_None in Ho; lia]. destruct (copy_spec i old Ho) as (r & -> & Hr). cbn [obind]. destruct r as [m|m].
    + destruct (IH (S i) ltac:(lia)) as (r' & -> & Hr'). cbn [option_map]. destruct r' as [l|l]; eexists; (split; [reflexivity|]).
      * destruct Hr' as [L Hall]. split; [cbn; lia|]. intros [|j] old' Hj.
        -- rewrite Nat.add_0_r in *. rewrite Ho in Hj. injection Hj as <-. exists m. cbn [nth_error]. tauto.
        -- replace (i + S j)%nat with (S i + j)%nat in * by lia. now apply Hall.
      * exact Hr'.
    + eexists. split; [reflexivity|]. exists i. destruct Hr as (Hb & k & Hk & Hlt). exists k. split; [|now split]. destruct (Hlay (diagonal n 0) (moore_zero n)) as [Hkinds _]. rewrite <- Hkinds, nth_error_map, Ho. cbn. now rewrite Hb.
Qed.

End Copy.

(** ** Views *)

Lemma view_of {N V} (cells : place -> list (member N V)) hood n kinds (v0 : V) : (1 <= n <= 3)%nat -> layout cells hood n kinds -> unambiguous cells hood n -> exists w, sees cells hood n w.
Proof.
  intros Hn Hlay Hun.
  exists (mkView (fun m id => match adapter_get cells hood n m id with Some r => r | None => None end)
                 (fun m rel => match nth_error (cells (hood rel)) m with Some (MSingle v) => v | _ => v0 end)
                 (fun m => flat_map (box_parts cells hood m) (box_list (hood_box n)))).
  split; [|split; [|reflexivity]]; [|intros m rel v _ E; cbn; now rewrite E]. intros m id v. cbn [see_id].
  assert (Hprobe : forall rel, moore n rel -> nth_error kinds m = Some Keyed -> exists c items, nth_error (cells (hood rel)) m = Some (MContainer c) /\ cc_items c = Some items /\ probe cells hood m id rel = Some (map_find items id) /\
    (forall x, map_find items id = Some x <-> In (id, x) items)).
  { intros rel Hr Hk. destruct (member_at cells hood n kinds Hlay rel m Keyed Hr Hk) as (mem & Em & Hm). destruct mem as [c|b|x]; try discriminate. destruct (Hlay rel Hr) as [_ Hc]. destruct (Hc m c Em) as (items & Hp).
    exists c, items. split; [exact Em|]. split; [apply Hp|]. split; [|intros x; now apply find_sorted, Hp]. unfold probe, old_member. rewrite Em. cbn [obind as_container]. now apply proper_lookup. }
  destruct (nth_error kinds m) as [k|] eqn:Hk.
  2:{ split.
      - intros E. exfalso. unfold adapter_get, probe, old_member in E. destruct (Hlay (diagonal n 0) (moore_zero n)) as [H _]. rewrite <- H, nth_error_map in Hk. destruct (nth_error (cells (hood (diagonal n 0))) m); discriminate.
      - intros (rel & c & items & Hr & Ec & _). destruct (Hlay rel Hr) as [H _]. rewrite <- H, nth_error_map, Ec in Hk. discriminate. }
  destruct (match k with Keyed => true | _ => false end) eqn:Hkd.
  2:{ split.
      - intros E. exfalso. unfold adapter_get, probe, old_member in E. destruct (member_at cells hood n kinds Hlay (diagonal n 0) m k (moore_zero n) Hk) as (mem & Em & Hm). rewrite Em in E. destruct mem, k; discriminate.
      - intros (rel & c & items & Hr & Ec & _). destruct (Hlay rel Hr) as [H _]. rewrite <- H, nth_error_map, Ec in Hk. cbn in Hk. injection Hk as <-. discriminate. }
  assert (k = Keyed) as -> by (destruct k; congruence).
  assert (Hsound : forall rels, (forall rel, In rel rels -> moore n rel) -> exists r, probe_all cells hood n m id rels = Some r /\
    (forall x, r = Some x -> exists rel c items, moore n rel /\ nth_error (cells (hood rel)) m = Some (MContainer c) /\ cc_items c = Some items /\ In (id, x) items) /\
    (r = None -> forall rel c items x, In rel rels -> rel <> diagonal n 0 -> nth_error (cells (hood rel)) m = Some (MContainer c) -> cc_items c = Some items -> ~ In (id, x) items)).
  { induction rels as [|rel rels IH]; intros Hrels; cbn [probe_all].
    - exists None. split; [reflexivity|]. split; [discriminate|intros _ rel c items x []].
    - destruct (IH (fun r H => Hrels r (or_intror H))) as (r & Er & H1 & H2). destruct (CoordModel.coord_eqb rel (diagonal n 0)) eqn:E0.
      + apply ceq_spec in E0. exists r. split; [exact Er|]. split; [exact H1|]. intros Hr rel' c items x [<-|Hin] Hne; [congruence|now apply (H2 Hr)].
      + destruct (Hprobe rel (Hrels rel (or_introl eq_refl)) eq_refl) as (c & items & Ec & Ei & -> & Hf). cbn [obind]. destruct (map_find items id) as [x|] eqn:Ef.
        * exists (Some x). split; [reflexivity|]. split; [|discriminate]. intros x' Ex. injection Ex as <-. exists rel, c, items. split; [now apply Hrels; left|]. split; [exact Ec|]. split; [exact Ei|]. now apply Hf.
        * exists r. split; [exact Er|]. split; [exact H1|]. intros Hr rel' c' items' x [<-|Hin] Hne Ec' Ei'; [|now apply (H2 Hr rel' c')].
          rewrite Ec in Ec'. injection Ec' as <-. rewrite Ei in Ei'. injection Ei' as <-. intros Hx. apply Hf in Hx. discriminate. }
  unfold adapter_get. destruct (Hprobe (diagonal n 0) (moore_zero n) eq_refl) as (c0 & items0 & Ec0 & Ei0 & -> & Hf0). cbn [obind]. destruct (map_find items0 id) as [x|] eqn:Ef0.
  - pose proof (proj1 (Hf0 x) eq_refl) as Hin. split.
    + intros E. injection E as <-. exists (diagonal n 0), c0, items0. split; [apply moore_zero|]. auto.
    + intros (rel & c & items & Hr & Ec & Ei & Hx). f_equal. exact (Hun m id _ _ _ _ _ _ _ _ (moore_zero n) Ec0 Ei0 Hin Hr Ec Ei Hx).
  - rewrite hood_coords by lia. cbn [obind]. destruct (Hsound (box_list (hood_box n))) as (r & -> & H1 & H2); [intros rel H; now apply (moore_list n Hn)|]. split.
    + intros ->. now apply H1.
    + intros (rel & c & items & Hr & Ec & Ei & Hx). destruct r as [x|].
      * destruct (H1 x eq_refl) as (rel' & c' & items' & Hr' & Ec' & Ei' & Hx'). f_equal. exact (Hun m id _ _ _ _ _ _ _ _ Hr' Ec' Ei' Hx' Hr Ec Ei Hx).
      * exfalso. destruct (CoordModel.coord_eqb rel (diagonal n 0)) eqn:E0.
        -- apply ceq_spec in E0. subst rel. rewrite Ec0 in Ec. injection Ec as <-. rewrite Ei0 in Ei. injection Ei as <-. apply Hf0 in Hx. discriminate.
        -- apply (H2 eq_refl rel c items v); auto; [now apply (moore_list n Hn)|]. intros ->. rewrite (proj2 (ceq_spec _ _) eq_refl) in E0. discriminate.
Qed.
