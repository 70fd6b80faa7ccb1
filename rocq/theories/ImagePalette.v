(** Facts on Colors, Palette and QuickPalette. *)
From Coq Require Import QArith Qround.
From Verif Require Import Base ParamModel ImageModel ImageSpec.
From Coq Require Import Lqa Lia Sorting.Sorted.
Import ListNotations.
Local Open Scope Z_scope.

(** ** Color *)

Lemma color_ints_value r g b : byte r -> byte g -> byte b -> color_ints r g b = 255 * 2 ^ 24 + r * 2 ^ 16 + g * 2 ^ 8 + b.
Proof. unfold byte. intros. unfold color_ints. apply Z.mod_small. change (2 ^ 24) with 16777216. change (2 ^ 16) with 65536. change (2 ^ 8) with 256. change (2 ^ 32) with 4294967296. lia. Qed.

Lemma color_channels r g b : byte r -> byte g -> byte b ->
  red (color_ints r g b) = r /\ green (color_ints r g b) = g /\ blue (color_ints r g b) = b /\ opaque (color_ints r g b).
Proof.
  intros Hr Hg Hb. rewrite color_ints_value by assumption. unfold byte in *. unfold red, green, blue, opaque.
  replace (255 * 2 ^ 24 + r * 2 ^ 16 + g * 2 ^ 8 + b) with (((255 * 256 + r) * 256 + g) * 256 + b) by (change (2 ^ 24) with 16777216; change (2 ^ 16) with 65536; change (2 ^ 8) with 256; lia).
  assert (H1 : ((((255 * 256 + r) * 256 + g) * 256 + b) / 256) = (255 * 256 + r) * 256 + g).
  { symmetry. apply (Z.div_unique_pos _ 256 _ b); lia. }
  assert (H2 : (((255 * 256 + r) * 256 + g) / 256) = 255 * 256 + r).
  { symmetry. apply (Z.div_unique_pos _ 256 _ g); lia. }
  change (2 ^ 16) with (256 * 256). change (2 ^ 8) with 256. rewrite <- Z.div_div by lia. rewrite H1, H2.
  split; [|split; [|split]].
  - symmetry. apply (Z.mod_unique_pos _ 256 255 r); lia.
  - symmetry. apply (Z.mod_unique_pos _ 256 (255 * 256 + r) g); lia.
  - symmetry. apply (Z.mod_unique_pos _ 256 ((255 * 256 + r) * 256 + g) b); lia.
  - change (2 ^ 24) with 16777216. change (2 ^ 32) with 4294967296. lia.
Qed.

Lemma channels_byte c : byte (red c) /\ byte (green c) /\ byte (blue c).
Proof. unfold byte, red, green, blue. repeat split; try apply Z.mod_pos_bound; lia. Qed.

(** ** Sorted maps *)

Lemma exists_last_or {X} (l : list X) : l = [] \/ exists l' x, l = l' ++ [x].
Proof. destruct l as [|x l] using rev_ind; [now left|right; eauto]. Qed.

Section Order.
Context {N : Type} (A : arith N).
Hypothesis lt_irrefl : forall a, a_lt A a a = false.
Hypothesis lt_trans : forall a b c, a_lt A a b = true -> a_lt A b c = true -> a_lt A a c = true.
Hypothesis lt_split : forall a b c, a_lt A a b = true -> a_lt A a c = true \/ a_lt A c b = true.

Definition eqv (a b : N) : Prop := a_lt A a b = false /\ a_lt A b a = false.

Lemma lt_asym a b : a_lt A a b = true -> a_lt A b a = false.
Proof using lt_irrefl lt_trans. intros H. destruct (a_lt A b a) eqn:E; [|reflexivity]. pose proof (lt_trans a b a H E). rewrite lt_irrefl in *. discriminate. Qed.

Lemma eqv_lt_l a b c : eqv a b -> a_lt A a c = a_lt A b c.
Proof using lt_split.
  intros [H1 H2]. destruct (a_lt A a c) eqn:E1.
  - destruct (lt_split a c b E1); congruence.
  - destruct (a_lt A b c) eqn:E2; [|reflexivity]. destruct (lt_split b c a E2); congruence.
Qed.

Lemma eqv_lt_r a b c : eqv a b -> a_lt A c a = a_lt A c b.
Proof using lt_split.
  intros [H1 H2]. destruct (a_lt A c a) eqn:E1.
  - destruct (lt_split c a b E1); congruence.
  - destruct (a_lt A c b) eqn:E2; [|reflexivity]. destruct (lt_split c b a E2); congruence.
Qed.

Lemma eqv_sym a b : eqv a b -> eqv b a.
Proof using. unfold eqv. tauto. Qed.
Lemma eqv_refl a : eqv a a.
Proof using lt_irrefl. unfold eqv. auto. Qed.
Lemma eqv_trans a b c : eqv a b -> eqv b c -> eqv a c.
Proof using lt_split. intros H1 H2. unfold eqv. rewrite (eqv_lt_l a b c H1), (eqv_lt_r a b c H1). exact H2. Qed.

Definition key_lt (p q : N * color) : Prop := a_lt A (fst p) (fst q) = true.

Lemma map_put_in v c : forall m k d, StronglySorted key_lt m ->
  (In (k, d) (map_put A v c m) -> (eqv k v /\ d = c) \/ (In (k, d) m /\ ~ eqv k v)).
Proof using lt_irrefl lt_trans lt_split.
  induction m as [|[k0 d0] m IH]; intros k d Hs Hi; cbn [map_put] in Hi.
  - destruct Hi as [E|[]]. injection E as <- <-. left. split; [apply eqv_refl|reflexivity].
  - apply StronglySorted_inv in Hs. destruct Hs as [Hs Hf]. rewrite Forall_forall in Hf. destruct (a_lt A v k0) eqn:E1; [|destruct (a_lt A k0 v) eqn:E2].
    + destruct Hi as [E|Hi]; [injection E as <- <-; left; split; [apply eqv_refl|reflexivity]|]. right. split; [exact Hi|]. intros [_ H].
      destruct Hi as [E|Hi]; [injection E as <- <-; congruence|]. pose proof (lt_trans v k0 k E1 (Hf (k, d) Hi)). congruence.
    + destruct Hi as [E|Hi]; [injection E as <- <-; right; split; [now left|intros [H _]; congruence]|].
      destruct (IH k d Hs Hi) as [H|[H1 H2]]; [now left|right; split; [now right|exact H2]].
    + destruct Hi as [E|Hi]; [injection E as <- <-; left; split; [split; assumption|reflexivity]|]. right. split; [now right|]. intros [_ H].
      pose proof (Hf (k, d) Hi) as H3. unfold key_lt in H3. cbn in H3. rewrite (eqv_lt_l k0 v k (conj E2 E1)) in H3. congruence.
Qed.

Lemma map_put_has v c : forall m, exists k, In (k, c) (map_put A v c m) /\ eqv k v.
Proof using lt_irrefl.
  induction m as [|[k0 d0] m IH]; cbn [map_put].
  - exists v. split; [now left|apply eqv_refl].
  - destruct (a_lt A v k0) eqn:E1; [|destruct (a_lt A k0 v) eqn:E2].
    + exists v. split; [now left|apply eqv_refl].
    + destruct IH as (k & H1 & H2). exists k. split; [now right|exact H2].
    + exists k0. split; [now left|split; assumption].
Qed.

Lemma map_put_keeps v c : forall m k d, In (k, d) m -> ~ eqv k v -> In (k, d) (map_put A v c m).
Proof using.
  induction m as [|[k0 d0] m IH]; intros k d Hi Hn; [destruct Hi|]. cbn [map_put]. destruct (a_lt A v k0) eqn:E1; [|destruct (a_lt A k0 v) eqn:E2].
  - now right.
  - destruct Hi as [E|Hi]; [now left|right; now apply IH].
  - destruct Hi as [E|Hi]; [|now right]. injection E as <- <-. now contradiction Hn.
Qed.

Lemma map_put_sorted v c : forall m, StronglySorted key_lt m -> StronglySorted key_lt (map_put A v c m).
Proof using lt_irrefl lt_trans lt_split.
  induction m as [|[k0 d0] m IH]; intros Hs; cbn [map_put].
  - repeat constructor.
  - pose proof Hs as Hs'. apply StronglySorted_inv in Hs. destruct Hs as [Hs Hf]. destruct (a_lt A v k0) eqn:E1; [|destruct (a_lt A k0 v) eqn:E2].
    + constructor; [exact Hs'|]. constructor; [exact E1|]. eapply Forall_impl; [|exact Hf]. intros [k d] H. unfold key_lt in *. cbn in *. now apply (lt_trans v k0 k).
    + constructor; [now apply IH|]. apply Forall_forall. intros [k d] Hi. destruct (map_put_in v c m k d Hs Hi) as [[He _]|[Hi' _]].
      * unfold key_lt. cbn. now rewrite (eqv_lt_r k v k0 He).
      * rewrite Forall_forall in Hf. now apply Hf.
    + constructor; [exact Hs|]. exact Hf.
Qed.

Lemma palette_inv calls : let m := palette_of A calls in
  StronglySorted key_lt m /\
  (forall v c, assigned eqv calls v c -> exists k, In (k, c) m /\ eqv k v) /\
  (forall k c, In (k, c) m -> exists k' c', In (k', c') calls /\ eqv k' k).
Proof using lt_irrefl lt_trans lt_split.
  cbn zeta. unfold palette_of. induction calls as [|[v0 c0] calls IH] using rev_ind.
  - cbn. split; [constructor|]. split; [|intros k c []]. intros v c (l1 & k & l2 & E & _). now destruct l1.
  - rewrite fold_left_app. cbn [fold_left fst snd]. destruct IH as (H1 & H2 & H3). change (fold_left (fun (m : cmap) p => map_put A (fst p) (snd p) m) calls []) with (palette_of A calls) in *. generalize dependent (palette_of A calls). intros m H1 H2 H3.
    split; [now apply map_put_sorted|]. split.
    + intros v c (l1 & k & l2 & E & Hk & Hl). destruct (exists_last_or l2) as [->|(l2' & [k' c'] & ->)].
      * apply app_inj_tail in E. destruct E as [-> E]. injection E as -> ->. destruct (map_put_has k c m) as (k' & Hi & Hk'). exists k'. split; [exact Hi|]. now apply eqv_trans with k.
      * rewrite app_comm_cons, app_assoc in E. apply app_inj_tail in E. destruct E as [-> E]. injection E as -> ->.
        destruct (H2 v c) as (k2 & Hi & Hk2). { exists l1, k, l2'. split; [reflexivity|]. split; [exact Hk|]. intros k3 c3 Hi3. apply (Hl k3 c3). apply in_or_app. now left. }
        exists k2. split; [|exact Hk2]. apply map_put_keeps; [exact Hi|]. intros He. apply (Hl k' c'); [apply in_or_app; right; now left|].
        apply eqv_trans with k2; [now apply eqv_sym|exact Hk2].
    + intros k c Hi. destruct (map_put_in v0 c0 m k c H1 Hi) as [[He ->]|[Hi' _]].
      * exists v0, c0. split; [apply in_or_app; right; now left|now apply eqv_sym].
      * destruct (H3 k c Hi') as (k' & c' & Hi2 & He). exists k', c'. split; [apply in_or_app; now left|exact He].
Qed.

Lemma upper_bound_spec v : forall m prev, StronglySorted key_lt m -> exists l1 l2, m = l1 ++ l2 /\
  Forall (fun p => a_lt A v (fst p) = false) l1 /\ Forall (fun p => a_lt A v (fst p) = true) l2 /\
  upper_bound A prev v m = (match rev l1 with p :: _ => Some p | [] => prev end, match l2 with p :: _ => Some p | [] => None end).
Proof using lt_trans.
  induction m as [|[k d] m IH]; intros prev Hs; cbn [upper_bound].
  - exists [], []. repeat split; constructor.
  - pose proof Hs as Hs'. apply StronglySorted_inv in Hs. destruct Hs as [Hs Hf]. destruct (a_lt A v k) eqn:E.
    + exists [], ((k, d) :: m). split; [reflexivity|]. split; [constructor|]. split; [|reflexivity]. constructor; [exact E|].
      eapply Forall_impl; [|exact Hf]. intros [k' d'] H. unfold key_lt in H. cbn in *. now apply lt_trans with k.
    + destruct (IH (Some (k, d)) Hs) as (l1 & l2 & -> & F1 & F2 & ->). exists ((k, d) :: l1), l2. split; [reflexivity|]. split; [now constructor|]. split; [exact F2|].
      cbn [rev]. destruct (rev l1); reflexivity.
Qed.

(** The neighbours of [v]. *)
Lemma sorted_split l1 p l2 q : StronglySorted key_lt (l1 ++ p :: l2) -> In q l1 -> key_lt q p.
Proof using.
  induction l1 as [|x l1 IH]; intros Hs Hi; [destruct Hi|]. cbn [app] in Hs. apply StronglySorted_inv in Hs. destruct Hs as [Hs Hf].
  destruct Hi as [->|Hi]; [|now apply IH]. rewrite Forall_forall in Hf. apply Hf, in_or_app. right. now left.
Qed.

Lemma sorted_tail l1 p l2 q : StronglySorted key_lt (l1 ++ p :: l2) -> In q l2 -> key_lt p q.
Proof using.
  induction l1 as [|x l1 IH]; intros Hs Hi; cbn [app] in Hs; apply StronglySorted_inv in Hs; destruct Hs as [Hs Hf]; [|now apply IH].
  rewrite Forall_forall in Hf. now apply Hf.
Qed.

Definition is_mark (calls : list (N * color)) (k : N) : Prop := exists k' c', In (k', c') calls /\ eqv k' k.

Lemma lower_is calls v a ca : assigned eqv calls a ca -> a_lt A v a = false ->
  (forall k c, In (k, c) calls -> a_lt A a k = true -> a_lt A v k = true) ->
  exists k, eqv k a /\ fst (upper_bound A None v (palette_of A calls)) = Some (k, ca).
Proof using lt_irrefl lt_trans lt_split.
  intros Ha Hv Hn. destruct (palette_inv calls) as (H1 & H2 & H3). destruct (upper_bound_spec v _ None H1) as (l1 & l2 & E & F1 & F2 & ->). cbn [fst].
  destruct (H2 a ca Ha) as (k & Hi & Hk). exists k. split; [exact Hk|]. rewrite E in Hi. apply in_app_or in Hi. destruct Hi as [Hi|Hi].
  2: { rewrite Forall_forall in F2. specialize (F2 _ Hi). cbn in F2. rewrite (eqv_lt_r k a v Hk) in F2. congruence. }
  destruct (exists_last_or l1) as [->|(l1' & [k' d'] & ->)]; [destruct Hi|]. rewrite rev_app_distr. cbn [rev app].
  apply in_app_or in Hi. destruct Hi as [Hi|[Ei|[]]]; [|congruence]. exfalso. rewrite E, <- app_assoc in H1. cbn [app] in H1.
  pose proof (sorted_split l1' (k', d') l2 (k, ca) H1 Hi) as Hlt. unfold key_lt in Hlt. cbn in Hlt. rewrite (eqv_lt_l k a k' Hk) in Hlt.
  destruct (H3 k' d') as (k2 & c2 & Hi2 & He). { rewrite E. apply in_or_app. left. apply in_or_app. right. now left. }
  rewrite <- (eqv_lt_r k2 k' a He) in Hlt. pose proof (Hn k2 c2 Hi2 Hlt) as Hx. rewrite (eqv_lt_r k2 k' v He) in Hx.
  rewrite Forall_forall in F1. specialize (F1 (k', d') ltac:(apply in_or_app; right; now left)). cbn in F1. congruence.
Qed.

Lemma upper_is calls v b cb : assigned eqv calls b cb -> a_lt A v b = true ->
  (forall k c, In (k, c) calls -> a_lt A k b = true -> a_lt A v k = false) ->
  exists k, eqv k b /\ snd (upper_bound A None v (palette_of A calls)) = Some (k, cb).
Proof using lt_irrefl lt_trans lt_split.
  intros Hb Hv Hn. destruct (palette_inv calls) as (H1 & H2 & H3). destruct (upper_bound_spec v _ None H1) as (l1 & l2 & E & F1 & F2 & ->). cbn [snd].
  destruct (H2 b cb Hb) as (k & Hi & Hk). exists k. split; [exact Hk|]. rewrite E in Hi. apply in_app_or in Hi. destruct Hi as [Hi|Hi].
  { rewrite Forall_forall in F1. specialize (F1 _ Hi). cbn in F1. rewrite (eqv_lt_r k b v Hk) in F1. congruence. }
  destruct l2 as [|[k' d'] l2]; [destruct Hi|]. destruct Hi as [Ei|Hi]; [congruence|]. exfalso. rewrite E in H1.
  pose proof (sorted_tail l1 (k', d') l2 (k, cb) H1 Hi) as Hlt. unfold key_lt in Hlt. cbn in Hlt. rewrite (eqv_lt_r k b k' Hk) in Hlt.
  destruct (H3 k' d') as (k2 & c2 & Hi2 & He). { rewrite E. apply in_or_app. right. now left. }
  rewrite <- (eqv_lt_l k2 k' b He) in Hlt. pose proof (Hn k2 c2 Hi2 Hlt) as Hx. rewrite (eqv_lt_r k2 k' v He) in Hx.
  rewrite Forall_forall in F2. specialize (F2 (k', d') (or_introl eq_refl)). cbn in F2. congruence.
Qed.

Lemma no_upper calls v : (forall k c, In (k, c) calls -> a_lt A v k = false) -> snd (upper_bound A None v (palette_of A calls)) = None.
Proof using lt_irrefl lt_trans lt_split.
  intros Hn. destruct (palette_inv calls) as (H1 & H2 & H3). destruct (upper_bound_spec v _ None H1) as (l1 & l2 & E & F1 & F2 & ->). cbn [snd].
  destruct l2 as [|[k d] l2]; [reflexivity|]. destruct (H3 k d) as (k2 & c2 & Hi2 & He). { rewrite E. apply in_or_app. right. now left. }
  inversion F2 as [|? ? Hf _]; subst. cbn in Hf. rewrite <- (eqv_lt_r k2 k v He), (Hn k2 c2 Hi2) in Hf. discriminate.
Qed.

Lemma no_lower calls v : (forall k c, In (k, c) calls -> a_lt A v k = true) -> fst (upper_bound A None v (palette_of A calls)) = None.
Proof using lt_irrefl lt_trans lt_split.
  intros Hn. destruct (palette_inv calls) as (H1 & H2 & H3). destruct (upper_bound_spec v _ None H1) as (l1 & l2 & E & F1 & F2 & ->). cbn [fst].
  destruct (exists_last_or l1) as [->|(l1' & [k d] & ->)]; [reflexivity|]. destruct (H3 k d) as (k2 & c2 & Hi2 & He). { rewrite E. apply in_or_app. left. apply in_or_app. right. now left. }
  apply Forall_app in F1. destruct F1 as [_ F1]. inversion F1 as [|? ? Hf _]; subst. cbn in Hf. rewrite <- (eqv_lt_r k2 k v He), (Hn k2 c2 Hi2) in Hf. discriminate.
Qed.

(** What a Palette returns, before the components are mixed. *)
Theorem palette_cases calls v :
  (calls = [] -> palette_get A (palette_of A calls) v = LogicError) /\
  (forall a c, assigned eqv calls a c -> a_lt A v a = true -> (forall k d, In (k, d) calls -> a_lt A k a = false) ->
     palette_get A (palette_of A calls) v = Looked (Some c)) /\
  (forall a c, assigned eqv calls a c -> a_lt A v a = false -> (forall k d, In (k, d) calls -> a_lt A a k = false) ->
     palette_get A (palette_of A calls) v = Looked (Some c)) /\
  (forall a b ca cb, assigned eqv calls a ca -> assigned eqv calls b cb -> a_lt A v a = false -> a_lt A v b = true ->
     (forall k d, In (k, d) calls -> a_lt A a k = true -> a_lt A k b = false) ->
     exists k1 k2, eqv k1 a /\ eqv k2 b /\ palette_get A (palette_of A calls) v =
       (let delta := a_sub A k2 k1 in let o1 := a_sub A v k1 in let o2 := a_sub A delta o1 in
        Looked (color_nums A (mix A (red ca) (red cb) o1 o2 delta) (mix A (green ca) (green cb) o1 o2 delta) (mix A (blue ca) (blue cb) o1 o2 delta)))).
Proof using lt_irrefl lt_trans lt_split.
  split; [|split; [|split]].
  - intros ->. reflexivity.
  - intros a c Ha Hv Hn. destruct (upper_is calls v a c Ha Hv) as (k & Hk & Eu).
    { intros k d Hi Hk. rewrite (Hn k d Hi) in Hk. discriminate. }
    assert (El : fst (upper_bound A None v (palette_of A calls)) = None).
    { apply no_lower. intros k3 d Hi. destruct (lt_split v a k3 Hv) as [H|H]; [exact H|]. rewrite (Hn k3 d Hi) in H. discriminate. }
    unfold palette_get. destruct (upper_bound A None v (palette_of A calls)) as [lo up]. cbn in Eu, El. subst. reflexivity.
  - intros a c Ha Hv Hn. destruct (lower_is calls v a c Ha Hv) as (k & Hk & El).
    { intros k d Hi Hk. rewrite (Hn k d Hi) in Hk. discriminate. }
    assert (Eu : snd (upper_bound A None v (palette_of A calls)) = None).
    { apply no_upper. intros k3 d Hi. destruct (a_lt A v k3) eqn:E; [|reflexivity]. destruct (lt_split v k3 a E) as [H|H]; [congruence|]. rewrite (Hn k3 d Hi) in H. discriminate. }
    unfold palette_get. destruct (upper_bound A None v (palette_of A calls)) as [lo up]. cbn in Eu, El. subst. reflexivity.
  - intros a b ca cb Ha Hb Hva Hvb Hn.
    destruct (lower_is calls v a ca Ha Hva) as (k1 & Hk1 & El).
    { intros k d Hi Hk. pose proof (Hn k d Hi Hk) as H. destruct (lt_split v b k Hvb); congruence. }
    destruct (upper_is calls v b cb Hb Hvb) as (k2 & Hk2 & Eu).
    { intros k d Hi Hk. destruct (a_lt A v k) eqn:E; [|reflexivity]. destruct (lt_split v k a E) as [H|H]; [congruence|]. rewrite (Hn k d Hi H) in Hk. discriminate. }
    exists k1, k2. split; [exact Hk1|]. split; [exact Hk2|].
    unfold palette_get. destruct (upper_bound A None v (palette_of A calls)) as [lo up]. cbn in Eu, El. subst. reflexivity.
Qed.
End Order.
