(** Facts on filters for GPUs. *)
From Coq Require Import Permutation.
From Verif Require Import Base ListFacts RegionSpec RegionStreaks RegionOpsModel GridModel GridFacts SellFacts SoAModel CudaFilterModel.

Lemma each_app {A S} (f : A -> S -> option S) a : forall b m, each f (a ++ b) m = obind (each f a m) (each f b).
Proof. induction a as [|x a IH]; intros b m; [reflexivity|]. cbn [app each]. destruct (f x m); [apply IH|reflexivity]. Qed.

Lemma each_each {A B S} (f : B -> S -> option S) (g : A -> list B) l : forall m, each (fun a => each f (g a)) l m = each f (flat_map g l) m.
Proof. induction l as [|a l IH]; intros m; [reflexivity|]. cbn [flat_map each]. rewrite each_app. destruct (each f (g a) m); [apply IH|reflexivity]. Qed.

Lemma each_ext {A S} (f g : A -> S -> option S) l : (forall a m, In a l -> f a m = g a m) -> forall m, each f l m = each g l m.
Proof. induction l as [|a l IH]; intros H m; [reflexivity|]. cbn [each]. rewrite (H a m) by now left. destruct (g a m); [|reflexivity]. apply IH. intros; apply H; now right. Qed.

Lemma vec_get_in {A} (l : list A) i : 0 <= i < Z.of_nat (length l) -> exists v, vec_get l i = Some v.
Proof. intros H. unfold vec_get. destruct (Z.ltb_spec i 0); [lia|]. destruct (nth_error l (Z.to_nat i)) eqn:E; [eauto|]. apply nth_error_None in E. lia. Qed.

Lemma vec_get_out {A} (l : list A) i v : vec_get l i = Some v -> 0 <= i < Z.of_nat (length l).
Proof. unfold vec_get. destruct (Z.ltb_spec i 0); [discriminate|]. intros E. assert (Hn : nth_error l (Z.to_nat i) <> None) by congruence. apply nth_error_Some in Hn. lia. Qed.

Section Copy.
Context {X V : Type} (put : V -> X -> X) (rd : Z -> option V) (Hput : forall v x, put v (put v x) = put v x).

(** All that is read and written exists, and what is written to a place is
    always the same. *)
Definition sound (L : list (Z * Z)) (m : list X) : Prop :=
  (forall p s, In (p, s) L -> 0 <= p < Z.of_nat (length m) /\ rd s <> None) /\ (forall p s s', In (p, s) L -> In (p, s') L -> s = s').

Lemma copy_spec L : forall m, sound L m -> exists m', each (step put rd) L m = Some m' /\ length m' = length m /\
  (forall p s v x, In (p, s) L -> rd s = Some v -> vec_get m p = Some x -> vec_get m' p = Some (put v x)) /\
  (forall p, (forall s, ~ In (p, s) L) -> vec_get m' p = vec_get m p).
Proof using Hput.
  induction L as [|[p0 s0] L IH]; intros m [H1 H2]; [exists m; repeat split; auto; intros ? ? ? ? []|].
  destruct (H1 p0 s0 (or_introl eq_refl)) as [Hp Hs]. destruct (rd s0) as [v0|] eqn:Ev; [|congruence]. destruct (vec_get_in m p0 Hp) as (x0 & Ex).
  destruct (vec_set_spec m p0 (put v0 x0) Hp) as (m1 & E1 & L1 & G1).
  destruct (IH m1) as (m' & E & Lm & G & G'). { split; [intros p s Hi; rewrite L1; apply H1; now right|intros p s s' A B; eapply H2; right; eauto]. }
  exists m'. cbn [each]. unfold step at 1. cbn [fst snd]. rewrite Ev. cbn [obind]. rewrite Ex. cbn [obind]. rewrite E1. cbn [obind]. split; [exact E|]. split; [lia|]. split.
  - intros p s v x Hi Hv Hx. destruct (in_dec (list_eq_dec Z.eq_dec) [p; s] (map (fun w => [fst w; snd w]) L)) as [Hd|Hd].
    + apply in_map_iff in Hd. destruct Hd as ([p' s'] & Eq & Hd). cbn in Eq. injection Eq as -> ->. rewrite (G p s v (if p0 =? p then put v0 x0 else x) Hd Hv).
      * f_equal. destruct (Z.eqb_spec p0 p) as [<-|]; [|reflexivity]. assert (s = s0) as -> by (eapply H2; [right; exact Hd|left; reflexivity]). assert (v0 = v) as -> by congruence. assert (x0 = x) as -> by congruence. apply Hput.
      * rewrite G1, Hx. now destruct (p0 =? p).
    + destruct Hi as [Eq|Hi]; [|exfalso; apply Hd; apply in_map_iff; exists (p, s); auto]. injection Eq as -> ->. rewrite G'.
      * rewrite G1, Z.eqb_refl. congruence.
      * intros s' Hi. apply Hd. apply in_map_iff. exists (p, s'). split; [|exact Hi]. cbn. f_equal. f_equal. symmetry. eapply H2; [left; reflexivity|right; exact Hi].
  - intros p Hn. rewrite G'; [|intros s Hi; apply (Hn s); now right]. rewrite G1. destruct (Z.eqb_spec p0 p) as [<-|]; [|reflexivity]. exfalso. apply (Hn s0). now left.
Qed.

Lemma sound_same L1 L2 m : (forall w, In w L1 <-> In w L2) -> sound L1 m -> sound L2 m.
Proof using. intros H [A B]. split; [intros p s Hi; apply A; now apply H|intros p s s' Hi Hi'; apply (B p); now apply H]. Qed.

Lemma copy_same L1 L2 m : (forall w, In w L1 <-> In w L2) -> sound L1 m -> each (step put rd) L1 m = each (step put rd) L2 m.
Proof using Hput.
  intros H S1. destruct (copy_spec L1 m S1) as (m1 & E1 & N1 & G1 & G1'). destruct (copy_spec L2 m (sound_same _ _ _ H S1)) as (m2 & E2 & N2 & G2 & G2').
  rewrite E1, E2. f_equal. apply SellFacts.vec_get_ext; [lia|]. intros p Hp. destruct (vec_get_in m p) as (x & Ex); [lia|].
  destruct (in_dec Z.eq_dec p (map fst L1)) as [Hd|Hd].
  - apply in_map_iff in Hd. destruct Hd as ([p' s] & Eq & Hd). cbn in Eq. subst p'. destruct S1 as [S1 _]. destruct (S1 p s Hd) as [_ Hr]. destruct (rd s) as [v|] eqn:Ev; [|congruence].
    rewrite (G1 p s v x Hd Ev Ex), (G2 p s v x (proj1 (H _) Hd) Ev Ex). reflexivity.
  - rewrite G1', G2'; [reflexivity| |]; intros s Hi; apply Hd; apply in_map_iff; exists (p, s); split; auto. now apply H.
Qed.
End Copy.

Lemma zrange_mem a b x : In x (zrange a b) <-> a <= x < b.
Proof. apply zrange_in. Qed.

Lemma diag_mem n p s : In (p, s) (map (fun q => (q, q)) (zrange 0 n)) <-> p = s /\ 0 <= p < n.
Proof.
  rewrite in_map_iff. split; [intros (q & E & H); apply zrange_mem in H; injection E as <- <-; auto|]. intros [-> H]. exists s. split; [reflexivity|]. now apply zrange_mem.
Qed.

Lemma memcpy_spec {V} (src : list V) n dst : 0 <= n <= Z.of_nat (length src) -> n <= Z.of_nat (length dst) -> exists m, memcpy src n dst = Some m /\ length m = length dst /\
  (forall p, 0 <= p < n -> vec_get m p = vec_get src p) /\ (forall p, n <= p -> vec_get m p = vec_get dst p).
Proof.
  intros Hn Hd. destruct (copy_spec assign (vec_get src) ltac:(reflexivity) (map (fun q => (q, q)) (zrange 0 n)) dst) as (m & E & Lm & G & G').
  - split; [intros p s Hi; apply diag_mem in Hi; destruct Hi as [<- Hi]; split; [lia|]; destruct (vec_get_in src p) as (v & Ev); [lia|congruence]|]. intros p s s' Hi Hi'. apply diag_mem in Hi, Hi'. lia.
  - exists m. split; [exact E|]. split; [exact Lm|]. split.
    + intros p Hp. destruct (vec_get_in src p) as (v & Ev); [lia|]. destruct (vec_get_in dst p) as (x & Ex); [lia|]. rewrite Ev. apply (G p p v x); auto. apply diag_mem. lia.
    + intros p Hp. apply G'. intros s Hi. apply diag_mem in Hi. lia.
Qed.

Lemma buffer_length {V} (junk : Z -> V) n : 0 <= n -> Z.of_nat (length (map junk (zrange 0 n))) = n.
Proof. intros H. rewrite map_length, zrange_length. lia. Qed.

(** Results may be collected in a buffer first. *)
Lemma through_back {V} (junk : Z -> V) (rd : Z -> option V) L n (tgt : list V) : 0 <= n <= Z.of_nat (length tgt) ->
  (forall p s, In (p, s) L -> 0 <= p < n /\ rd s <> None) -> (forall p s s', In (p, s) L -> In (p, s') L -> s = s') -> (forall p, 0 <= p < n -> exists s, In (p, s) L) ->
  obind (each (step assign rd) L (map junk (zrange 0 n))) (fun buf => memcpy buf n tgt) = each (step assign rd) L tgt.
Proof.
  intros Hn H1 H2 H3. pose proof (buffer_length junk n ltac:(lia)) as Hb.
  destruct (copy_spec assign rd ltac:(reflexivity) L (map junk (zrange 0 n))) as (buf & E & Lb & G & _). { split; [intros p s Hi; destruct (H1 p s Hi); split; [lia|auto]|exact H2]. }
  destruct (copy_spec assign rd ltac:(reflexivity) L tgt) as (m & E' & Lm & Gm & Gm'). { split; [intros p s Hi; destruct (H1 p s Hi); split; [lia|auto]|exact H2]. }
  rewrite E, E'. cbn [obind]. destruct (memcpy_spec buf n tgt ltac:(lia) ltac:(lia)) as (m2 & E2 & L2 & G2 & G2'). rewrite E2. f_equal. apply SellFacts.vec_get_ext; [lia|]. intros p Hp.
  destruct (Z.lt_ge_cases p n) as [Hlt|Hge].
  - destruct (H3 p ltac:(lia)) as (s & Hs). destruct (H1 p s Hs) as [_ Hr]. destruct (rd s) as [v|] eqn:Ev; [|congruence].
    destruct (vec_get_in (map junk (zrange 0 n)) p) as (x & Ex); [lia|]. destruct (vec_get_in tgt p) as (y & Ey); [lia|].
    rewrite G2 by lia. rewrite (G p s v x Hs Ev Ex), (Gm p s v y Hs Ev Ey). reflexivity.
  - rewrite G2' by lia. symmetry. apply Gm'. intros s Hs. apply H1 in Hs. lia.
Qed.

(** The source may be copied first. *)
Lemma through_front {X V} (put : V -> X -> X) (junk : Z -> V) (src : list V) L n (tgt : list X) : 0 <= n <= Z.of_nat (length src) -> (forall p s, In (p, s) L -> 0 <= s < n) ->
  obind (memcpy src n (map junk (zrange 0 n))) (fun buf => each (step put (vec_get buf)) L tgt) = each (step put (vec_get src)) L tgt.
Proof.
  intros Hn H. pose proof (buffer_length junk n ltac:(lia)) as Hb. destruct (memcpy_spec src n (map junk (zrange 0 n)) ltac:(lia) ltac:(lia)) as (buf & E & _ & G & _). rewrite E. cbn [obind].
  apply each_ext. intros [p s] m Hi. unfold step. cbn [fst snd]. rewrite G; [reflexivity|]. now apply (H p).
Qed.

(** ** Kernels *)

Lemma launch_each {X V} (put : V -> X -> X) (rd : Z -> option V) order blocks (g : Z * Z -> list (Z * Z)) m : 0 < blocks <= 2147483647 ->
  launch1 order blocks (fun th => each (step put rd) (g th)) m = each (step put rd) (flat_map g (order blocks)) m.
Proof. intros H. unfold launch1. replace ((0 <? blocks) && (blocks <=? 2147483647)) with true by lia. apply each_each. Qed.

Lemma strided_mem n : forall fuel i x, n - i <= Z.of_nat fuel -> In x (strided fuel i n) <-> exists k, 0 <= k /\ x = i + 32 * k /\ x < n.
Proof.
  induction fuel as [|fuel IH]; intros i x H; cbn [strided].
  - split; [intros []|intros (k & A & B & D); lia].
  - destruct (Z.ltb_spec i n).
    + cbn [In]. rewrite IH by lia. split.
      * intros [<-|(k & A & B & D)]; [exists 0; lia|exists (k + 1); lia].
      * intros (k & A & B & D). destruct (Z.eq_dec k 0) as [->|]; [left; lia|right; exists (k - 1); lia].
    + split; [intros []|intros (k & A & B & D); lia].
Qed.

Section Order.
Context (order : Z -> list (Z * Z)) (Ho : forall n, Permutation (threads1 n) (order n)).

Lemma order_mem n b th : In (b, th) (order n) <-> 0 <= b < n /\ 0 <= th < 32.
Proof using Ho.
  rewrite <- !zrange_mem. unfold threads1 in Ho. rewrite <- in_prod_iff. split; apply Permutation_in; [apply Permutation_sym|]; apply Ho.
Qed.

Lemma strided_all (g : Z -> Z -> Z * Z) blocks n w :
  In w (flat_map (fun th => map (fun i => g (fst th) i) (strided (Z.to_nat n) (snd th) n)) (order blocks)) <->
  exists b i, 0 <= b < blocks /\ 0 <= i < n /\ w = g b i.
Proof using Ho.
  rewrite in_flat_map. split.
  - intros ([b th] & Hth & Hw). apply order_mem in Hth. cbn [fst snd] in Hw. apply in_map_iff in Hw. destruct Hw as (i & <- & Hi). apply strided_mem in Hi; [|lia]. destruct Hi as (k & A & B & D).
    exists b, i. split; [tauto|]. split; [lia|reflexivity].
  - intros (b & i & Hb & Hi & ->). pose proof (Z.mod_pos_bound i 32 ltac:(lia)) as Hm. pose proof (Z.div_mod i 32 ltac:(lia)) as Hd. pose proof (Z.div_pos i 32 ltac:(lia) ltac:(lia)) as Hq. exists (b, i mod 32).
    split; [apply order_mem; lia|]. cbn [fst snd]. apply in_map_iff. exists i. split; [reflexivity|]. apply strided_mem; [lia|]. exists (i / 32). lia.
Qed.

Lemma cells_all num w : 0 <= num -> In w (flat_map (thread_cell num) (order (num / 32 + 1))) <-> exists i, 0 <= i < num /\ w = (i, i).
Proof using Ho.
  intros Hn. rewrite in_flat_map. split.
  - intros ([b th] & Hth & Hw). apply order_mem in Hth. unfold thread_cell in Hw. cbn [fst snd] in Hw. destruct (Z.ltb_spec (32 * b + th) num); [|destruct Hw]. destruct Hw as [<-|[]]. exists (32 * b + th). split; [lia|reflexivity].
  - intros (i & Hi & ->). pose proof (Z.mod_pos_bound i 32 ltac:(lia)) as Hm. pose proof (Z.div_mod i 32 ltac:(lia)) as Hd. pose proof (Z.div_pos i 32 ltac:(lia) ltac:(lia)) as Hq.
    pose proof (Z.div_le_mono i num 32 ltac:(lia) ltac:(lia)) as Hle. exists (i / 32, i mod 32). split; [apply order_mem; lia|]. unfold thread_cell. cbn [fst snd]. rewrite <- Hd. destruct (Z.ltb_spec i num); [now left|lia].
Qed.
End Order.

Lemma host_pairs_mem A f num w : In w (host_pairs A f num) <-> exists i j, 0 <= i < num /\ 0 <= j < A /\ w = f i j.
Proof.
  unfold host_pairs. rewrite in_flat_map. split.
  - intros (i & Hi & Hw). apply in_map_iff in Hw. destruct Hw as (j & <- & Hj). apply zrange_mem in Hi, Hj. eauto 6.
  - intros (i & j & Hi & Hj & ->). exists i. split; [now apply zrange_mem|]. apply in_map_iff. exists j. split; [reflexivity|]. now apply zrange_mem.
Qed.

Lemma split_unique b k j k' j' : 0 <= j < b -> 0 <= j' < b -> k * b + j = k' * b + j' -> k = k' /\ j = j'.
Proof. intros. assert (k = k') by nia. subst. lia. Qed.

Lemma split_exists b n p : 0 < b -> 0 <= p < n * b -> exists k j, 0 <= k < n /\ 0 <= j < b /\ p = k * b + j.
Proof.
  intros Hb Hp. pose proof (Z.mod_pos_bound p b Hb) as Hm. pose proof (Z.div_mod p b ltac:(lia)) as Hd. exists (p / b), (p mod b).
  assert (0 <= p / b) by (apply Z.div_pos; lia). assert (p / b < n) by (apply Z.div_lt_upper_bound; nia). set (q := p / b) in *. set (r := p mod b) in *. clearbody q r. lia.
Qed.
