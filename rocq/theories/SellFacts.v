(** Facts on the container SELL-C-SIGMA. *)
From Coq Require Import Permutation Sorted.
From Verif Require Import Base ListFacts RegionSpec RegionIterModel RegionStreaks RegionOpsModel GridModel GridFacts SellModel SellSpec.

(** ** Sorting *)
Section SortFacts.
Context {A : Type} (lt : A -> A -> bool).

Lemma insert_stable_perm x l : Permutation (x :: l) (insert_stable lt x l).
Proof.
  induction l as [|y l IH]; cbn; [auto|]. destruct (lt y x); [|auto].
  apply Permutation_trans with (y :: x :: l); [apply perm_swap|]. now constructor.
Qed.

Lemma stable_sort_perm l : Permutation l (stable_sort lt l).
Proof. induction l as [|x l IH]; cbn; [constructor|]. eapply Permutation_trans; [|apply insert_stable_perm]. now constructor. Qed.

(** [R]: not greater *)
Context (R : A -> A -> Prop) (HR : forall a b, lt a b = false -> R b a) (HL : forall a b, lt a b = true -> R a b)
        (Htr : forall a b c, R a b -> R b c -> R a c).

Lemma insert_stable_sorted x l : StronglySorted R l -> StronglySorted R (insert_stable lt x l).
Proof using HR HL Htr.
  induction 1 as [|y l Hs IH Hy]; cbn; [repeat constructor|]. destruct (lt y x) eqn:E.
  - constructor; [exact IH|]. apply Forall_forall. intros z Hz. apply (Permutation_in _ (Permutation_sym (insert_stable_perm x l))) in Hz.
    destruct Hz as [<-|Hz]; [now apply HL|]. rewrite Forall_forall in Hy. now apply Hy.
  - constructor; [now constructor|]. apply Forall_forall. intros z [<-|Hz]; [now apply HR|]. rewrite Forall_forall in Hy. apply Htr with y; [now apply HR|now apply Hy].
Qed.

Lemma stable_sort_sorted l : StronglySorted R (stable_sort lt l).
Proof using HR HL Htr. induction l as [|x l IH]; cbn; [constructor|]. now apply insert_stable_sorted. Qed.

Lemma stable_sort_id l : StronglySorted (fun a b => lt b a = false) l -> stable_sort lt l = l.
Proof using.
  induction 1 as [|x l Hs IH Hx]; [reflexivity|]. change (insert_stable lt x (stable_sort lt l) = x :: l). rewrite IH. destruct l as [|y l]; cbn; [reflexivity|].
  inversion Hx; subst. now rewrite H1.
Qed.
End SortFacts.

(** ** Vectors given by functions *)
Lemma zrange_nth a b i d : 0 <= i < b - a -> nth (Z.to_nat i) (zrange a b) d = a + i.
Proof.
  intros H. unfold zrange. rewrite nth_indep with (d' := a + Z.of_nat 0) by (rewrite map_length, seq_length; lia).
  rewrite (map_nth (fun i => a + Z.of_nat i)). rewrite seq_nth by lia. lia.
Qed.

Lemma zrange_nth_error a b i : 0 <= i < b - a -> nth_error (zrange a b) (Z.to_nat i) = Some (a + i).
Proof. intros H. rewrite (nth_error_nth' _ 0) by (rewrite zrange_length; lia). f_equal. now apply zrange_nth. Qed.

Lemma vec_get_fun {A} (f : Z -> A) P x : 0 <= x < P -> vec_get (map f (zrange 0 P)) x = Some (f x).
Proof.
  intros H. unfold vec_get. destruct (Z.ltb_spec x 0); [lia|]. rewrite nth_error_map, zrange_nth_error by lia. reflexivity.
Qed.

Lemma vec_get_some {A} (l : list A) i x : vec_get l i = Some x -> 0 <= i < Z.of_nat (length l).
Proof.
  unfold vec_get. destruct (Z.ltb_spec i 0); [discriminate|]. intros E. assert (nth_error l (Z.to_nat i) <> None) by congruence.
  apply nth_error_Some in H0. lia.
Qed.

Lemma vec_get_ex {A} (l : list A) i : 0 <= i < Z.of_nat (length l) -> exists x, vec_get l i = Some x.
Proof.
  intros H. unfold vec_get. destruct (Z.ltb_spec i 0); [lia|]. destruct (nth_error l (Z.to_nat i)) eqn:E; [eauto|].
  apply nth_error_None in E. lia.
Qed.

Lemma vec_get_ext {A} (a b : list A) : length a = length b -> (forall i, 0 <= i < Z.of_nat (length a) -> vec_get a i = vec_get b i) -> a = b.
Proof.
  revert b. induction a as [|x a IH]; intros [|y b] Hl H; try discriminate; [reflexivity|]. pose proof (H 0 ltac:(cbn; lia)) as H0. cbn in H0. injection H0 as ->.
  f_equal. apply IH; [now injection Hl|]. intros i Hi. specialize (H (i + 1) ltac:(cbn; lia)). unfold vec_get in *.
  destruct (Z.ltb_spec i 0); [lia|]. destruct (Z.ltb_spec (i + 1) 0); [lia|]. replace (Z.to_nat (i + 1)) with (S (Z.to_nat i)) in H by lia. exact H.
Qed.

Lemma vec_set_fun {A} (f : Z -> A) P x v : 0 <= x < P ->
  vec_set (map f (zrange 0 P)) x v = Some (map (fun z => if z =? x then v else f z) (zrange 0 P)).
Proof.
  intros H. destruct (vec_set_spec (map f (zrange 0 P)) x v) as (l' & E & Hl & H1). { rewrite map_length, zrange_length. lia. }
  rewrite E. f_equal. apply vec_get_ext; [rewrite Hl, !map_length; reflexivity|]. intros i Hi. rewrite Hl, map_length, zrange_length in Hi.
  rewrite H1, !vec_get_fun by lia. rewrite (Z.eqb_sym x i). now destruct (i =? x).
Qed.

Lemma zrange_repeat {A} (x : A) P : repeat x (Z.to_nat P) = map (fun _ => x) (zrange 0 P).
Proof. unfold zrange. rewrite map_map, Z.sub_0_r. generalize (Z.to_nat P) as n, O. induction n as [|n IH]; intros s; cbn; [reflexivity|]. f_equal. apply IH. Qed.

Lemma vec_set_app {A} (p : list A) x r v i : i = Z.of_nat (length p) -> vec_set (p ++ x :: r) i v = Some (p ++ v :: r).
Proof.
  intros ->. unfold vec_set. destruct (Z.ltb_spec (Z.of_nat (length p)) 0); [lia|]. rewrite Nat2Z.id. clear. induction p as [|y p IH]; cbn; [reflexivity|]. now rewrite IH.
Qed.

(** ** Row lengths *)
Definition cnt {V} (m : list (entry V)) (x : Z) : Z := Z.of_nat (length (filter (fun e => e_row e =? x) m)).

Lemma cnt_row_length {V} (m : list (entry V)) x : row_length m x = cnt m x.
Proof. unfold row_length, row_entries, cnt. now rewrite map_length. Qed.

Lemma count_rows_spec {V} P (m : list (entry V)) : forall f, rows_below P m ->
  count_rows (map f (zrange 0 P)) m = Some (map (fun x => f x + cnt m x) (zrange 0 P)).
Proof.
  induction m as [|[[x y] v] m IH]; intros f Hm; cbn [count_rows].
  - f_equal. apply map_ext. intros x. unfold cnt. cbn. lia.
  - inversion Hm as [|? ? Hx Hm']; subst. unfold e_row in Hx. cbn in Hx. rewrite vec_get_fun by lia. cbn [obind]. rewrite vec_set_fun by lia. cbn [obind].
    rewrite IH by exact Hm'. f_equal. apply map_ext. intros z. unfold cnt. cbn [filter e_row fst]. change (e_row (x, y, v)) with x.
    destruct (Z.eqb_spec z x) as [->|Hn].
    + rewrite Z.eqb_refl. cbn [length]. lia.
    + destruct (Z.eqb_spec x z); [lia|]. reflexivity.
Qed.

(** ** Sorting scopes *)
Lemma scope_items_spec (f : Z -> Z) P n : forall row, 0 <= row -> row + Z.of_nat n <= P ->
  scope_items (map f (zrange 0 P)) row n = Some (map (fun r => (f r, r)) (zrange row (row + Z.of_nat n))).
Proof.
  induction n as [|n IH]; intros row H0 H1.
  - cbn [scope_items]. rewrite Z.add_0_r, zrange_nil by lia. reflexivity.
  - cbn [scope_items]. rewrite vec_get_fun by lia. cbn [obind]. rewrite IH by lia. cbn [option_map]. rewrite (zrange_cons row) by lia. cbn [map].
    replace (row + 1 + Z.of_nat n) with (row + Z.of_nat (S n)) by lia. reflexivity.
Qed.

Lemma scope_store_spec items : forall p rest srt q restq id,
  id = Z.of_nat (length p) -> length q = length p -> (length items <= length rest)%nat -> length restq = length rest ->
  scope_store items id (p ++ rest, srt, q ++ restq) =
  Some (p ++ map snd items ++ skipn (length items) rest, srt ++ combine (map snd items) (zrange id (id + Z.of_nat (length items))),
        q ++ map fst items ++ skipn (length items) restq).
Proof.
  induction items as [|[k row] items IH]; intros p rest srt q restq id Hid Hq Hr Hrq.
  - cbn. now rewrite app_nil_r.
  - destruct rest as [|x rest]; [cbn in Hr; lia|]. destruct restq as [|xq restq]; [discriminate|]. cbn [scope_store].
    rewrite vec_set_app by exact Hid. cbn [obind]. rewrite vec_set_app by lia. cbn [obind].
    replace (p ++ row :: rest) with ((p ++ [row]) ++ rest) by now rewrite <- app_assoc.
    replace (q ++ k :: restq) with ((q ++ [k]) ++ restq) by now rewrite <- app_assoc.
    rewrite IH; [| rewrite app_length; cbn; lia | rewrite !app_length; cbn; lia | cbn in Hr; lia | now injection Hrq ].
    cbn [map snd fst length skipn]. rewrite <- !app_assoc. cbn [app]. rewrite (zrange_cons id) by lia. cbn [combine].
    replace (id + 1 + Z.of_nat (length items)) with (id + Z.of_nat (S (length items))) by lia. reflexivity.
Qed.

(** The order of the rows after the scopes up to [k] have been sorted. *)
Definition arranged (S : Z) (f : Z -> Z) (k : Z) (perm : list Z) : Prop :=
  Permutation perm (zrange 0 k) /\
  (forall i x, vec_get perm i = Some x -> x / S = i / S) /\
  ((forall x y, 0 <= x <= y -> y < k -> x / S = y / S -> f y <= f x) -> perm = zrange 0 k).

Definition scope_state (f : Z -> Z) (P k : Z) (perm : list Z) : list Z * list (Z * Z) * list Z :=
  (perm ++ repeat 0 (Z.to_nat (P - k)), combine perm (zrange 0 k), map f perm ++ repeat 0 (Z.to_nat (P - k))).

Lemma zrange_app a b c : a <= b <= c -> zrange a c = zrange a b ++ zrange b c.
Proof.
  intros H. unfold zrange. replace (Z.to_nat (c - a)) with (Z.to_nat (b - a) + Z.to_nat (c - b))%nat by lia. rewrite seq_app, map_app. f_equal.
  assert (G : forall m s s', a + Z.of_nat s = b + Z.of_nat s' -> map (fun i => a + Z.of_nat i) (seq s m) = map (fun i => b + Z.of_nat i) (seq s' m)).
  { induction m as [|m IH]; intros s s' E; [reflexivity|]. cbn [seq map]. rewrite E. f_equal. apply IH. lia. }
  apply G. lia.
Qed.

Lemma vec_get_app {A} (a b : list A) i : vec_get (a ++ b) i = if i <? Z.of_nat (length a) then vec_get a i else vec_get b (i - Z.of_nat (length a)).
Proof.
  unfold vec_get. destruct (Z.ltb_spec i 0); destruct (Z.ltb_spec i (Z.of_nat (length a))); destruct (Z.ltb_spec (i - Z.of_nat (length a)) 0); try lia; auto.
  - apply nth_error_app1. lia.
  - rewrite nth_error_app2 by lia. f_equal. lia.
Qed.

Lemma skipn_repeat {A} (x : A) n : forall k, skipn k (repeat x n) = repeat x (n - k).
Proof. induction n as [|n IH]; intros [|k]; cbn; auto. Qed.

Lemma combine_snoc {A B} (a : list A) : forall (b : list B) a' b', length a = length b -> combine (a ++ a') (b ++ b') = combine a b ++ combine a' b'.
Proof. induction a as [|x a IH]; intros [|y b] a' b' H; try discriminate; cbn; [reflexivity|]. f_equal. apply IH. now injection H. Qed.

Lemma arranged_step S f P a perm : 0 < S -> 0 <= a -> a * S < P -> arranged S f (a * S) perm ->
  let n := Z.min S (P - a * S) in
  let items := stable_sort (fun x y => fst y <? fst x) (map (fun r => (f r, r)) (zrange (a * S) (a * S + n))) in
  length items = Z.to_nat n /\ map fst items = map f (map snd items) /\ arranged S f (a * S + n) (perm ++ map snd items).
Proof.
  intros HS Ha HP (H1 & H2 & H3) n items. assert (Hn : 1 <= n <= S) by (unfold n; lia).
  pose proof (stable_sort_perm (fun x y : Z * Z => fst y <? fst x) (map (fun r => (f r, r)) (zrange (a * S) (a * S + n)))) as Hp. fold items in Hp.
  assert (Hlen : length items = Z.to_nat n).
  { apply Permutation_length in Hp. rewrite map_length, zrange_length in Hp. lia. }
  assert (Hlp : length perm = Z.to_nat (a * S)).
  { apply Permutation_length in H1. rewrite zrange_length in H1. lia. }
  assert (Hitem : forall p, In p items -> p = (f (snd p), snd p) /\ a * S <= snd p < a * S + n).
  { intros p Hi. apply (Permutation_in _ (Permutation_sym Hp)) in Hi. apply in_map_iff in Hi. destruct Hi as (r & <- & Hr). apply zrange_in in Hr. auto. }
  assert (Hsnd : Permutation (map snd items) (zrange (a * S) (a * S + n))).
  { apply Permutation_sym. apply (Permutation_map snd) in Hp. rewrite map_map in Hp. cbn in Hp. now rewrite map_id in Hp. }
  split; [exact Hlen|]. split.
  { rewrite map_map. apply map_ext_in. intros p Hi. destruct (Hitem p Hi) as [E _]. now rewrite E. }
  split; [|split].
  - rewrite (zrange_app 0 (a * S)) by nia. now apply Permutation_app.
  - intros i x Hx. rewrite vec_get_app in Hx. destruct (Z.ltb_spec i (Z.of_nat (length perm))) as [Hi|Hi]; [now apply H2|].
    pose proof (vec_get_some _ _ _ Hx) as Hb. rewrite map_length, Hlen in Hb.
    unfold vec_get in Hx. destruct (_ <? 0); [discriminate|]. apply nth_error_In in Hx. apply (Permutation_in _ Hsnd) in Hx. apply zrange_in in Hx.
    assert (Ex : x / S = a) by (symmetry; apply (Z.div_unique x S a (x - a * S)); lia).
    assert (Ei : i / S = a) by (symmetry; apply (Z.div_unique i S a (i - a * S)); nia). congruence.
  - intros Hd. rewrite (zrange_app 0 (a * S)) by nia. f_equal.
    + apply H3. intros x y Hx Hy. apply Hd; lia.
    + assert (E : items = map (fun r => (f r, r)) (zrange (a * S) (a * S + n))).
      { apply stable_sort_id. assert (G : forall lo hi, a * S <= lo -> hi <= a * S + n -> StronglySorted (fun x y : Z * Z => (fst x <? fst y) = false) (map (fun r => (f r, r)) (zrange lo hi))).
        { intros lo hi Hlo Hhi. remember (Z.to_nat (hi - lo)) as k eqn:Ek. revert lo Hlo Ek. induction k as [|k IH]; intros lo Hlo Ek.
          - rewrite zrange_nil by lia. constructor.
          - rewrite zrange_cons by lia. cbn [map]. constructor; [apply IH; lia|]. apply Forall_forall. intros p Hi. apply in_map_iff in Hi.
            destruct Hi as (y & <- & Hy). apply zrange_in in Hy. cbn [fst]. apply Z.ltb_ge. apply Hd; [nia|lia|].
            assert (lo / S = a) by (symmetry; apply (Z.div_unique lo S a (lo - a * S)); lia).
            assert (y / S = a) by (symmetry; apply (Z.div_unique y S a (y - a * S)); lia). congruence. }
        apply G; lia. }
      rewrite E, map_map. cbn. apply map_id.
Qed.

Lemma scopes_spec S f P nsig : 0 < S -> (nsig - 1) * S < P -> forall k a perm, k = Z.to_nat (nsig - a) -> 0 <= a <= nsig ->
  arranged S f (Z.min P (a * S)) perm ->
  exists perm', scopes S (map f (zrange 0 P)) P (zrange a nsig) (scope_state f P (Z.min P (a * S)) perm) = Some (scope_state f P (Z.min P (nsig * S)) perm') /\
    arranged S f (Z.min P (nsig * S)) perm'.
Proof.
  intros HS HP. induction k as [|k IH]; intros a perm Hk Ha Har.
  - assert (a = nsig) by lia. subst a. rewrite (zrange_nil nsig nsig) by lia. exists perm. split; [reflexivity|exact Har].
  - rewrite (zrange_cons a nsig) by lia. cbn [scopes]. assert (HaP : a * S < P) by nia. replace (Z.min P (a * S)) with (a * S) in * by lia.
    set (n := Z.min S (P - a * S)) in *. destruct (Z.ltb_spec n 0); [unfold n in *; lia|].
    rewrite scope_items_spec by (unfold n; lia). rewrite Z2Nat.id by lia. cbn [obind].
    destruct (arranged_step S f P a perm HS ltac:(lia) HaP Har) as (Hl & Hf & Har'). fold n in Hl, Hf, Har'.
    set (items := stable_sort (fun x y : Z * Z => fst y <? fst x) (map (fun r => (f r, r)) (zrange (a * S) (a * S + n)))) in *.
    assert (Hlp : length perm = Z.to_nat (a * S)).
    { destruct Har as (H1 & _). apply Permutation_length in H1. rewrite zrange_length in H1. lia. }
    unfold scope_state at 1. rewrite scope_store_spec;
      [| rewrite Hlp; nia | now rewrite map_length | rewrite repeat_length, Hl; unfold n; lia | reflexivity ].
    cbn [obind]. rewrite !skipn_repeat, Hf. rewrite !app_assoc. rewrite <- map_app.
    rewrite <- combine_snoc by (rewrite zrange_length; lia).
    rewrite Hl, Z2Nat.id by lia. rewrite <- zrange_app by lia.
    assert (En : a * S + n = Z.min P ((a + 1) * S)) by (unfold n; lia).
    replace (Z.to_nat (P - a * S) - Z.to_nat n)%nat with (Z.to_nat (P - (a * S + n))) by lia.
    rewrite En in *. apply IH; [lia|lia|exact Har'].
Qed.

(** ** Chunks *)
Lemma chunk_max_spec f P real ids : (forall i, In i ids -> exists r, vec_get real i = Some r /\ 0 <= r < P) ->
  exists M, chunk_max (map f (zrange 0 P)) real ids = Some M /\ 0 <= M /\ forall i r, In i ids -> vec_get real i = Some r -> f r <= M.
Proof.
  induction ids as [|i ids IH]; intros H; cbn [chunk_max].
  - exists 0. split; [reflexivity|]. split; [lia|]. intros i r [].
  - destruct (H i (or_introl eq_refl)) as (r & Er & Hr). rewrite Er. cbn [obind]. rewrite vec_get_fun by lia. cbn [obind].
    destruct IH as (M & EM & HM & Hall); [intros; apply H; now right|]. rewrite EM. cbn [option_map]. exists (Z.max (f r) M).
    split; [reflexivity|]. split; [lia|]. intros i' r' [<-|Hi] E; [replace r' with r by congruence; lia|]. specialize (Hall i' r' Hi E). lia.
Qed.

Lemma chunks_spec C f P real nch : 0 < C -> (forall i, 0 <= i < nch * C -> exists r, vec_get real i = Some r /\ 0 <= r < P) ->
  forall k a off, k = Z.to_nat (nch - a) -> 0 <= a <= nch ->
  exists lens offs, chunks C (map f (zrange 0 P)) real (zrange a nch) off = Some (lens, offs) /\ length offs = Datatypes.S k /\ length lens = k /\
    vec_get offs 0 = Some off /\ last offs 0 = match vec_get offs (nch - a) with Some o => o | None => 0 end /\
    forall j, a <= j < nch -> exists o len, vec_get offs (j - a) = Some o /\ vec_get offs (j - a + 1) = Some (o + len * C) /\ 0 <= len /\
      forall i r, j * C <= i < j * C + C -> vec_get real i = Some r -> f r <= len.
Proof.
  intros HC Hreal. induction k as [|k IH]; intros a off Hk Ha.
  - rewrite (zrange_nil a nch) by lia. exists [], [off]. split; [reflexivity|]. split; [reflexivity|]. split; [reflexivity|]. split; [reflexivity|].
    split; [replace (nch - a) with 0 by lia; reflexivity|]. intros j Hj. lia.
  - rewrite (zrange_cons a nch) by lia. cbn [chunks].
    destruct (chunk_max_spec f P real (zrange (a * C) (a * C + C))) as (M & EM & HM & Hall).
    { intros i Hi. apply zrange_in in Hi. apply Hreal. nia. }
    rewrite EM. cbn [obind]. destruct (IH (a + 1) (off + M * C)) as (lens & offs & E & L1 & L2 & G0 & Gl & Gj); [lia|lia|]. rewrite E. cbn [obind].
    exists (M :: lens), (off :: offs). split; [reflexivity|]. split; [cbn; lia|]. split; [cbn; lia|]. split; [reflexivity|].
    assert (Sh : forall i, 0 <= i -> vec_get (off :: offs) (i + 1) = vec_get offs i).
    { intros i Hi. unfold vec_get. destruct (Z.ltb_spec i 0); [lia|]. destruct (Z.ltb_spec (i + 1) 0); [lia|]. now replace (Z.to_nat (i + 1)) with (Datatypes.S (Z.to_nat i)) by lia. }
    split.
    + replace (nch - a) with (nch - (a + 1) + 1) by lia. rewrite Sh by lia. rewrite <- Gl. destruct offs; [discriminate|reflexivity].
    + intros j Hj. destruct (Z.eq_dec j a) as [->|Hn].
      * exists off, M. rewrite Z.sub_diag. split; [reflexivity|]. split; [now rewrite Sh by lia|]. split; [lia|]. intros i r Hi. apply Hall. apply zrange_in. lia.
      * destruct (Gj j ltac:(lia)) as (o & len & G1 & G2 & G3 & G4). exists o, len.
        split; [rewrite <- G1, <- Sh by lia; f_equal; lia|]. split; [rewrite <- G2, <- Sh by lia; f_equal; lia|]. auto.
Qed.

(** ** Lookup *)
Lemma lower_bound_spec l x q : StronglySorted (fun a b : Z * Z => fst a <= fst b) l -> In (x, q) l -> (forall q', In (x, q') l -> q' = q) ->
  lower_bound l x = Some (x, q).
Proof.
  unfold lower_bound. induction 1 as [|[y p] l Hs IH Hy]; intros Hin Hu; [destruct Hin|]. cbn [find fst].
  destruct (Z.ltb_spec y x); cbn [negb].
  - apply IH; [|intros; apply Hu; now right]. destruct Hin as [E|Hin]; [injection E; lia|exact Hin].
  - destruct Hin as [E|Hin]; [congruence|]. rewrite Forall_forall in Hy. specialize (Hy _ Hin). cbn in Hy. assert (y = x) by lia. subst y.
    rewrite (Hu p); [reflexivity|now left].
Qed.

Fixpoint index_of (l : list Z) (x : Z) : Z :=
  match l with [] => 0 | y :: l' => if y =? x then 0 else 1 + index_of l' x end.

Lemma vec_get_cons {A} (y : A) l i : 0 <= i -> vec_get (y :: l) (1 + i) = vec_get l i.
Proof.
  intros Hi. unfold vec_get. destruct (Z.ltb_spec i 0); [lia|]. destruct (Z.ltb_spec (1 + i) 0); [lia|].
  now replace (Z.to_nat (1 + i)) with (Datatypes.S (Z.to_nat i)) by lia.
Qed.

Lemma index_of_nonneg l x : 0 <= index_of l x.
Proof. induction l as [|y l IH]; cbn [index_of]; [lia|]. destruct (y =? x); lia. Qed.

Lemma index_of_get l x : In x l -> vec_get l (index_of l x) = Some x.
Proof.
  induction l as [|y l IH]; intros H; [destruct H|]. cbn [index_of]. destruct (Z.eqb_spec y x) as [->|Hn]; [reflexivity|].
  rewrite vec_get_cons by apply index_of_nonneg. apply IH. destruct H; [contradiction|assumption].
Qed.

Lemma vec_get_inj {A} (l : list A) i j x : NoDup l -> vec_get l i = Some x -> vec_get l j = Some x -> i = j.
Proof.
  intros Hn Hi Hj. pose proof (vec_get_some _ _ _ Hi). pose proof (vec_get_some _ _ _ Hj). unfold vec_get in Hi, Hj.
  destruct (_ <? 0); [discriminate|]. destruct (j <? 0); [discriminate|].
  assert (Z.to_nat i = Z.to_nat j); [|lia]. apply (proj1 (NoDup_nth_error l) Hn); [lia|congruence].
Qed.

Lemma in_combine_range (l : list Z) : forall a x q, In (x, q) (combine l (zrange a (a + Z.of_nat (length l)))) <-> vec_get l (q - a) = Some x.
Proof.
  induction l as [|y l IH]; intros a x q; cbn [length].
  - cbn. split; [tauto|]. unfold vec_get. destruct (_ <? 0); [discriminate|]. destruct (Z.to_nat (q - a)); discriminate.
  - rewrite (zrange_cons a) by lia. cbn [combine In]. replace (a + Z.of_nat (Datatypes.S (length l))) with (a + 1 + Z.of_nat (length l)) by lia. rewrite IH.
    destruct (Z_lt_le_dec a q) as [Hq|Hq].
    + replace (q - a) with (1 + (q - (a + 1))) by lia. rewrite vec_get_cons by lia. split; [intros [E|E]; [injection E; lia|exact E]|auto].
    + assert (En : vec_get l (q - (a + 1)) = None) by (unfold vec_get; destruct (Z.ltb_spec (q - (a + 1)) 0); [reflexivity|lia]). rewrite En.
      destruct (Z.eq_dec q a) as [->|Hn].
      * rewrite Z.sub_diag. cbn. split; [intros [E|E]; [injection E; congruence|discriminate]|intros E; left; congruence].
      * unfold vec_get. destruct (Z.ltb_spec (q - a) 0); [|lia]. split; [intros [E|E]; [injection E; lia|discriminate]|discriminate].
Qed.

Lemma filter_none {A} (f : A -> bool) l : (forall a, In a l -> f a = false) -> filter f l = [].
Proof. induction l as [|a l IH]; intros H; [reflexivity|]. cbn. rewrite H by now left. apply IH. intros; apply H; now right. Qed.

Lemma nth_error_lt {A} (l : list A) k e : nth_error l k = Some e -> (k < length l)%nat.
Proof. intros E. apply nth_error_Some. congruence. Qed.

Section Place.
Context {V : Type} (C nch : Z) (OFF LEN : Z -> Z) (HC : 0 < C) (H0 : OFF 0 = 0).
Context (Hoff : forall j, 0 <= j < nch -> OFF (j + 1) = OFF j + LEN j * C /\ 0 <= LEN j).

Lemma off_mono k : forall i, 0 <= i -> i + Z.of_nat k <= nch -> OFF i <= OFF (i + Z.of_nat k).
Proof using HC Hoff.
  induction k as [|k IH]; intros i Hi Hk; [rewrite Z.add_0_r; lia|]. specialize (IH i Hi ltac:(lia)).
  destruct (Hoff (i + Z.of_nat k) ltac:(lia)) as [E HL]. replace (i + Z.of_nat (Datatypes.S k)) with (i + Z.of_nat k + 1) by lia. nia.
Qed.

Lemma off_le i j : 0 <= i <= j -> j <= nch -> OFF i <= OFF j.
Proof using HC Hoff. intros H1 H2. pose proof (off_mono (Z.to_nat (j - i)) i ltac:(lia) ltac:(lia)) as H. now replace (i + Z.of_nat (Z.to_nat (j - i))) with j in H by lia. Qed.

Definition spot (q k : Z) : Z := OFF (q / C) + k * C + q mod C.

Lemma spot_bound q k : 0 <= q < nch * C -> 0 <= k < LEN (q / C) -> OFF (q / C) <= spot q k < OFF (q / C + 1) /\ 0 <= spot q k < OFF nch.
Proof using HC Hoff H0.
  intros Hq Hk. assert (Hd : 0 <= q / C < nch) by (split; [apply Z.div_pos; lia|apply Z.div_lt_upper_bound; lia]).
  pose proof (Z.mod_pos_bound q C HC) as Hm. destruct (Hoff (q / C) Hd) as [E _]. pose proof (off_le 0 (q / C) ltac:(lia) ltac:(lia)) as M1.
  pose proof (off_le (q / C + 1) nch ltac:(lia) ltac:(lia)) as M2. unfold spot. nia.
Qed.

Lemma spot_inj q k q' k' : 0 <= q < nch * C -> 0 <= q' < nch * C -> 0 <= k < LEN (q / C) -> 0 <= k' < LEN (q' / C) ->
  spot q k = spot q' k' -> q = q' /\ k = k'.
Proof using HC Hoff H0.
  intros Hq Hq' Hk Hk' E. destruct (spot_bound q k Hq Hk) as [B _]. destruct (spot_bound q' k' Hq' Hk') as [B' _].
  assert (Hd : 0 <= q / C < nch) by (split; [apply Z.div_pos; lia|apply Z.div_lt_upper_bound; lia]).
  assert (Hd' : 0 <= q' / C < nch) by (split; [apply Z.div_pos; lia|apply Z.div_lt_upper_bound; lia]).
  assert (Ed : q / C = q' / C).
  { destruct (Z.lt_trichotomy (q / C) (q' / C)) as [L|[L|L]]; [|exact L|].
    - pose proof (off_le (q / C + 1) (q' / C) ltac:(lia) ltac:(lia)). lia.
    - pose proof (off_le (q' / C + 1) (q / C) ltac:(lia) ltac:(lia)). lia. }
  unfold spot in E. rewrite Ed in E. pose proof (Z.mod_pos_bound q C HC). pose proof (Z.mod_pos_bound q' C HC).
  assert (Ek : k = k'). { assert (Ek : (k - k') * C = q' mod C - q mod C) by lia. assert (k - k' = 0) by nia. lia. }
  subst k'. split; [|reflexivity]. pose proof (Z.div_mod q C ltac:(lia)). pose proof (Z.div_mod q' C ltac:(lia)). nia.
Qed.

Context (offs : list Z) (srt : list (Z * Z)) (pos : Z -> Z) (n : Z).
Context (Hoffs : forall j, 0 <= j <= nch -> vec_get offs j = Some (OFF j)).
Context (Hsrt : forall x, 0 <= x < n -> lower_bound srt x = Some (x, pos x)).
Context (Hpos : forall x, 0 <= x < n -> 0 <= pos x < nch * C).
Context (Hinj : forall x y, 0 <= x < n -> 0 <= y < n -> pos x = pos y -> x = y).

Definition of_row (x : Z) (l : list (entry V)) : list (entry V) := filter (fun e => e_row e =? x) l.

(** Spots beyond the entries of a row aren't touched. *)
Definition blank (zero : V) (done : list (entry V)) (values : list V) (column : list Z) : Prop :=
  forall q k, 0 <= q < nch * C -> 0 <= k < LEN (q / C) -> (forall x, 0 <= x < n -> q = pos x -> cnt done x <= k) ->
    vec_get values (spot q k) = Some zero /\ vec_get column (spot q k) = Some 0.

Definition holds (done : list (entry V)) (values : list V) (column : list Z) : Prop :=
  forall x k e, 0 <= x < n -> nth_error (of_row x done) k = Some e ->
    vec_get values (spot (pos x) (Z.of_nat k)) = Some (snd e) /\ vec_get column (spot (pos x) (Z.of_nat k)) = Some (e_col e).

Lemma place_spec zero rest : forall done cur index values column,
  rows_below n (done ++ rest) -> StronglySorted entry_le rest ->
  (forall e, In e done -> e_row e <= cur) -> (forall e, In e rest -> cur <= e_row e) ->
  index = cnt done cur -> (forall x, 0 <= x < n -> cnt (done ++ rest) x <= LEN (pos x / C)) ->
  Z.of_nat (length values) = OFF nch -> Z.of_nat (length column) = OFF nch -> holds done values column -> blank zero done values column ->
  exists values' column', place C offs srt rest cur index values column = Some (values', column') /\
    holds (done ++ rest) values' column' /\ blank zero (done ++ rest) values' column'.
Proof using HC Hoff H0 Hoffs Hsrt Hpos Hinj.
  induction rest as [|[[x y] v] rest IH]; intros done cur index values column Hb Hs Hd Hr Hi Hlen L1 L2 Hh Hbl.
  - exists values, column. split; [reflexivity|]. now rewrite app_nil_r.
  - cbn [place]. inversion Hs as [|? ? Hs' Hx']; subst.
    assert (Hx : 0 <= x < n). { unfold rows_below in Hb. rewrite Forall_forall in Hb. apply (Hb (x, y, v)). apply in_or_app. right. now left. }
    assert (Hcx : cur <= x) by (apply (Hr (x, y, v)); now left).
    assert (Ei : (if x =? cur then cnt done cur else 0) = cnt done x).
    { destruct (Z.eqb_spec x cur) as [->|Hn]; [reflexivity|]. unfold cnt. rewrite (filter_none (fun e => e_row e =? x) done); [reflexivity|].
      intros e He. specialize (Hd e He). apply Z.eqb_neq. lia. }
    rewrite Ei. rewrite Hsrt by exact Hx. cbn [obind snd]. specialize (Hpos x Hx) as Hp.
    rewrite Z.quot_div_nonneg, Z.rem_mod_nonneg by lia.
    assert (Hd' : 0 <= pos x / C < nch) by (split; [apply Z.div_pos; lia|apply Z.div_lt_upper_bound; lia]).
    rewrite Hoffs by lia. cbn [obind]. fold (spot (pos x) (cnt done x)).
    assert (Hk : 0 <= cnt done x < LEN (pos x / C)).
    { specialize (Hlen x Hx). unfold cnt in *. rewrite filter_app in Hlen. rewrite app_length in Hlen. cbn [filter] in Hlen. change (e_row (x, y, v)) with x in Hlen.
      rewrite Z.eqb_refl in Hlen. cbn [length] in Hlen. lia. }
    destruct (spot_bound (pos x) (cnt done x) Hp Hk) as [_ Hsp].
    destruct (vec_set_spec values (spot (pos x) (cnt done x)) v ltac:(lia)) as (values1 & E1 & Lv & G1). rewrite E1. cbn [obind].
    destruct (vec_set_spec column (spot (pos x) (cnt done x)) y ltac:(lia)) as (column1 & E2 & Lc & G2). rewrite E2. cbn [obind].
    assert (Ea : forall e : entry V, done ++ e :: rest = (done ++ [e]) ++ rest) by (intros; now rewrite <- app_assoc).
    rewrite Ea in Hb, Hlen |- *.
    apply IH; auto.
    + intros e He. apply in_app_or in He. destruct He as [He|[<-|[]]]; [specialize (Hd e He); lia|cbn; lia].
    + intros e He. rewrite Forall_forall in Hx'. specialize (Hx' e He). unfold entry_le in Hx'. change (e_row (x, y, v)) with x in Hx'. lia.
    + unfold cnt. rewrite filter_app, app_length. cbn [filter]. change (e_row (x, y, v)) with x. rewrite Z.eqb_refl. cbn [length]. lia.
    + lia.
    + lia.
    + intros x2 k e Hx2 He. unfold of_row in He. rewrite filter_app in He. cbn [filter] in He. change (e_row (x, y, v)) with x in He.
      assert (Hk2 : 0 <= Z.of_nat k < LEN (pos x2 / C)).
      { specialize (Hlen x2 Hx2). unfold cnt in Hlen. rewrite !filter_app, !app_length in Hlen. cbn [filter] in Hlen. change (e_row (x, y, v)) with x in Hlen.
        pose proof (nth_error_lt _ _ _ He) as Hlt. rewrite app_length in Hlt. lia. }
      rewrite G1, G2. destruct (Z.eqb_spec (spot (pos x) (cnt done x)) (spot (pos x2) (Z.of_nat k))) as [Es|Es].
      * destruct (spot_inj (pos x) (cnt done x) (pos x2) (Z.of_nat k) Hp (Hpos x2 Hx2) Hk Hk2 Es) as [Ep Ek]. apply Hinj in Ep; auto. subst x2.
        rewrite Z.eqb_refl in He. rewrite nth_error_app2 in He by (unfold cnt in Ek; lia).
        replace (k - length (filter (fun e : entry V => (e_row e =? x)%Z) done))%nat with O in He by (unfold cnt in Ek; lia). cbn in He. injection He as <-. auto.
      * apply Hh; auto. unfold of_row. destruct (Nat.lt_ge_cases k (length (filter (fun e : entry V => e_row e =? x2) done))) as [Hl|Hl].
        -- rewrite nth_error_app1 in He by exact Hl. exact He.
        -- exfalso. rewrite nth_error_app2 in He by exact Hl. destruct (Z.eqb_spec x x2) as [->|Hn].
           ++ destruct (k - length (filter (fun e : entry V => (e_row e =? x2)%Z) done))%nat as [|k'] eqn:Ek; [|destruct k'; discriminate].
              apply Es. f_equal. unfold cnt. lia.
           ++ destruct (k - _)%nat; discriminate.
    + intros q k Hq Hk2 Hcq.
      assert (Hcd : forall x2, 0 <= x2 < n -> q = pos x2 -> cnt done x2 <= k).
      { intros x2 Hx2 E. specialize (Hcq x2 Hx2 E). unfold cnt in Hcq |- *. rewrite filter_app, app_length in Hcq. lia. }
      rewrite G1, G2. destruct (Z.eqb_spec (spot (pos x) (cnt done x)) (spot q k)) as [Es|Es]; [|now apply Hbl].
      exfalso. destruct (spot_inj (pos x) (cnt done x) q k Hp Hq Hk Hk2 Es) as [Ep Ek]. specialize (Hcq x Hx (eq_sym Ep)).
      unfold cnt in Hcq, Ek. rewrite filter_app, app_length in Hcq. cbn [filter] in Hcq. change (e_row (x, y, v)) with x in Hcq. rewrite Z.eqb_refl in Hcq. cbn [length] in Hcq. lia.
Qed.

(** Reading blank spots. *)
Lemma read_blank zero (s : sell V) m q : blank zero m (sl_values s) (sl_column s) -> 0 <= q < nch * C ->
  forall l k, 0 <= k -> k + Z.of_nat l <= LEN (q / C) -> (forall x, 0 <= x < n -> q = pos x -> cnt m x <= k) ->
  sell_read C s (spot q k) l = Some (repeat (0, zero) l).
Proof using.
  clear HC H0 Hoff Hoffs Hsrt Hpos Hinj. intros Hb Hq. induction l as [|l IH]; intros k Hk Hl Hc; [reflexivity|]. cbn [sell_read repeat].
  destruct (Hb q k Hq ltac:(lia) Hc) as [G1 G2]. rewrite G2, G1. cbn [obind].
  replace (spot q k + C) with (spot q (k + 1)) by (unfold spot; lia).
  rewrite IH; [reflexivity|lia|lia|]. intros x Hx E. specialize (Hc x Hx E). lia.
Qed.

Lemma read_app (s : sell V) a b : forall idx l l', sell_read C s idx a = Some l -> sell_read C s (idx + Z.of_nat a * C) b = Some l' ->
  sell_read C s idx (a + b) = Some (l ++ l').
Proof using.
  clear - C V. induction a as [|a IH]; intros idx l l' E1 E2.
  - cbn in E1. injection E1 as <-. cbn [plus app]. now rewrite Z.mul_0_l, Z.add_0_r in E2.
  - cbn [sell_read plus] in E1 |- *. destruct (vec_get (sl_column s) idx) as [y|]; [|discriminate]. destruct (vec_get (sl_values s) idx) as [v|]; [|discriminate].
    cbn [obind] in E1 |- *. destruct (sell_read C s (idx + C) a) as [l1|] eqn:E; [|discriminate]. cbn in E1. injection E1 as <-.
    rewrite (IH (idx + C) l1 l' E); [reflexivity|]. now replace (idx + C + Z.of_nat a * C) with (idx + Z.of_nat (Datatypes.S a) * C) by lia.
Qed.

(** Reading a row. *)
Lemma read_spec (s : sell V) x m l : 0 <= x < n -> holds m (sl_values s) (sl_column s) ->
  forall done, of_row x m = done ++ l ->
  sell_read C s (spot (pos x) (Z.of_nat (length done))) (length l) = Some (map (fun e => (e_col e, snd e)) l).
Proof using HC Hinj Hoff Hoffs Hpos Hsrt.
  intros Hx Hh. induction l as [|e l IH]; intros done E; [reflexivity|]. cbn [length sell_read].
  destruct (Hh x (length done) e Hx) as [G1 G2]. { rewrite E, nth_error_app2 by lia. now rewrite Nat.sub_diag. }
  rewrite G2, G1. cbn [obind]. replace (spot (pos x) (Z.of_nat (length done)) + C) with (spot (pos x) (Z.of_nat (length (done ++ [e])))).
  - rewrite IH; [reflexivity|]. rewrite E, <- app_assoc. reflexivity.
  - unfold spot. rewrite app_length. cbn. lia.
Qed.
End Place.

(** ** Initialization *)
Lemma sorted_filter {A} (R : A -> A -> Prop) f l : StronglySorted R l -> StronglySorted R (filter f l).
Proof.
  induction 1 as [|x l Hs IH Hx]; cbn; [constructor|]. destruct (f x); [|exact IH]. constructor; [exact IH|].
  apply Forall_forall. intros y Hy. apply filter_In in Hy. rewrite Forall_forall in Hx. now apply Hx.
Qed.

Lemma row_sorted {V} (m : list (entry V)) x : StronglySorted entry_le m -> StronglySorted (fun a b => fst a <= fst b) (row_entries m x).
Proof.
  intros H. apply (sorted_filter _ (fun e => e_row e =? x)) in H. unfold row_entries.
  assert (Hx : forall e, In e (filter (fun e => e_row e =? x) m) -> e_row e = x) by (intros e He; apply filter_In in He; lia).
  revert H Hx. generalize (filter (fun e => e_row e =? x) m) as l. induction l as [|e l IH]; intros H Hx; cbn [map]; [constructor|].
  inversion H as [|? ? Hs He]; subst. constructor; [apply IH; [exact Hs|intros; apply Hx; now right]|].
  apply Forall_forall. intros p Hp. apply in_map_iff in Hp. destruct Hp as (e' & <- & Hi). cbn [fst]. rewrite Forall_forall in He. specialize (He e' Hi).
  unfold entry_le in He. rewrite (Hx e) in He by now left. rewrite (Hx e') in He by now right. lia.
Qed.

Lemma filter_perm {A} (f : A -> bool) a b : Permutation a b -> Permutation (filter f a) (filter f b).
Proof.
  induction 1 as [|x a b H IH|x y a|a b c H1 IH1 H2 IH2]; cbn.
  - constructor.
  - destruct (f x); [now constructor|exact IH].
  - destruct (f x), (f y); try apply Permutation_refl. apply perm_swap.
  - now apply Permutation_trans with (filter f b).
Qed.

Lemma row_perm {V} (a b : list (entry V)) x : Permutation a b -> Permutation (row_entries a x) (row_entries b x).
Proof. intros H. apply Permutation_map. now apply filter_perm. Qed.

Lemma zrange_nodup a b : NoDup (zrange a b).
Proof.
  generalize (zrange_sorted a b). induction 1 as [|x l Hs IH Hx]; constructor; [|exact IH].
  intros Hi. rewrite Forall_forall in Hx. specialize (Hx x Hi). lia.
Qed.

(** Everything about a freshly initialized container. *)
Theorem sell_init_padded {V} (zero : V) C S n m : 1 <= C -> 1 <= S -> 1 <= n -> rows_below n m -> StronglySorted entry_le m ->
  exists s perm, sell_init_sorted zero C S (sell_make C n) m = Some s /\ sl_dim s = n /\
    let K := Z.min ((Z.quot (n - 1) C + 1) * C) ((Z.quot (n - 1) S + 1) * S) in
    n <= K /\ arranged S (cnt m) K perm /\
    (forall x q, In (x, q) (sl_sorted s) <-> vec_get perm q = Some x) /\
    (forall i x, vec_get perm i = Some x -> vec_get (sl_real s) i = Some x) /\
    (forall q x, vec_get perm q = Some x -> sell_row C s q = Some (row_entries m x)) /\
    forall q x, vec_get perm q = Some x -> vec_get (sl_rowlen s) q = Some (cnt m x) /\
      exists off len pad, vec_get (sl_chunkoff s) (q / C) = Some off /\
      vec_get (sl_chunkoff s) (q / C + 1) = Some (off + Z.of_nat len * C) /\
      sell_read C s (off + q mod C) len = Some (row_entries m x ++ repeat (0, zero) pad).
Proof.
  intros HC HS Hn Hm Hs. cbv zeta. unfold sell_init_sorted. cbn [sell_make sl_dim sl_real sl_sorted].
  rewrite !Z.quot_div_nonneg by lia. set (nch := (n - 1) / C + 1). set (nsig := (n - 1) / S + 1). set (P := nch * C).
  assert (Hd1 : 0 <= (n - 1) / C) by (apply Z.div_pos; lia). assert (Hd2 : 0 <= (n - 1) / S) by (apply Z.div_pos; lia).
  assert (HnP : n <= P). { unfold P, nch. pose proof (Z.div_mod (n - 1) C ltac:(lia)). pose proof (Z.mod_pos_bound (n - 1) C ltac:(lia)). nia. }
  assert (HnS : n <= nsig * S). { unfold nsig. pose proof (Z.div_mod (n - 1) S ltac:(lia)). pose proof (Z.mod_pos_bound (n - 1) S ltac:(lia)). nia. }
  assert (HsP : (nsig - 1) * S < P). { unfold nsig. pose proof (Z.div_mod (n - 1) S ltac:(lia)). pose proof (Z.mod_pos_bound (n - 1) S ltac:(lia)). nia. }
  assert (Hnch : 1 <= nch) by (unfold nch; lia). assert (Hnsig : 1 <= nsig) by (unfold nsig; lia). clearbody nch nsig. clear Hd1 Hd2.
  destruct (Z.ltb_spec nch 1); [lia|].
  assert (HmP : rows_below P m). { apply Forall_forall. intros e He. unfold rows_below in Hm. rewrite Forall_forall in Hm. specialize (Hm e He). lia. }
  rewrite zrange_repeat, (count_rows_spec P m (fun _ => 0) HmP). cbn [obind].
  set (f := fun x => 0 + cnt m x).
  assert (Hst : (vec_resize (@nil Z) P 0, @nil (Z * Z), map (fun _ : Z => 0) (zrange 0 P)) = scope_state f P (Z.min P (0 * S)) []).
  { unfold scope_state, vec_resize. rewrite firstn_nil. cbn [app combine map length]. rewrite Nat.sub_0_r, <- zrange_repeat.
    replace (P - Z.min P (0 * S)) with P by lia. reflexivity. }
  rewrite Hst. destruct (scopes_spec S f P nsig ltac:(lia) HsP (Z.to_nat nsig) 0 []) as (perm & Esc & Har); [lia|lia| |].
  { replace (Z.min P (0 * S)) with 0 by lia. split; [constructor|]. split; [|reflexivity]. intros i x E. unfold vec_get in E. destruct (i <? 0); [discriminate|]. destruct (Z.to_nat i); discriminate. }
  rewrite Esc. unfold scope_state at 1. cbn [obind]. fold P. set (K := Z.min P (nsig * S)) in *.
  assert (HnK : n <= K) by (apply Z.min_glb; assumption). assert (HKP : K <= P) by apply Z.le_min_l.
  clear Esc Hst HnS HsP. clearbody K.
  pose proof Har as (Hp1 & Hp2 & Hp3).
  assert (Hlp : length perm = Z.to_nat K) by (rewrite (Permutation_length Hp1), zrange_length; f_equal; lia).
  assert (Hnd : NoDup perm) by (apply (Permutation_NoDup (Permutation_sym Hp1)), zrange_nodup).
  assert (HinK : forall x, In x perm <-> 0 <= x < K).
  { intros x. rewrite <- zrange_in. split; apply Permutation_in; [exact Hp1|now apply Permutation_sym]. }
  set (real := perm ++ repeat 0 (Z.to_nat (P - K))).
  assert (Hreal : forall i x, vec_get perm i = Some x -> vec_get real i = Some x).
  { intros i x E. unfold real. rewrite vec_get_app. pose proof (vec_get_some _ _ _ E). destruct (Z.ltb_spec i (Z.of_nat (length perm))); [exact E|lia]. }
  assert (Hrealx : forall i, 0 <= i < nch * C -> exists r, vec_get real i = Some r /\ 0 <= r < P).
  { intros i Hi. fold P in Hi. unfold real. rewrite vec_get_app, Hlp. destruct (Z.ltb_spec i (Z.of_nat (Z.to_nat K))) as [L|L].
    - destruct (vec_get_ex perm i) as [x E]; [lia|]. exists x. split; [exact E|]. unfold vec_get in E. destruct (i <? 0); [discriminate|].
      apply nth_error_In in E. apply HinK in E. lia.
    - exists 0. split; [apply vec_get_repeat; lia|lia]. }
  destruct (chunks_spec C f P real nch ltac:(lia) Hrealx (Z.to_nat nch) 0 0 ltac:(lia) ltac:(lia)) as (lens & offs & Ech & L1 & L2 & G0 & Gl & Gj).
  rewrite Ech. cbn [obind]. rewrite Z.sub_0_r in Gl.
  set (OFF := fun j => match vec_get offs j with Some o => o | None => 0 end).
  set (LEN := fun j => (OFF (j + 1) - OFF j) / C).
  assert (Hoffs : forall j, 0 <= j <= nch -> vec_get offs j = Some (OFF j)).
  { intros j Hj. unfold OFF. destruct (vec_get_ex offs j) as [o E]; [lia|]. now rewrite E. }
  assert (Hoff : forall j, 0 <= j < nch -> (OFF (j + 1) = OFF j + LEN j * C /\ 0 <= LEN j) /\ forall i r, j * C <= i < j * C + C -> vec_get real i = Some r -> f r <= LEN j).
  { intros j Hj. destruct (Gj j ltac:(lia)) as (o & len & E1 & E2 & E3 & E4). rewrite Z.sub_0_r in E1, E2.
    assert (Eo : OFF j = o) by (unfold OFF; now rewrite E1). assert (Eo' : OFF (j + 1) = o + len * C) by (unfold OFF; now rewrite E2).
    assert (El : LEN j = len). { unfold LEN. rewrite Eo, Eo'. replace (o + len * C - o) with (len * C) by lia. apply Z.div_mul. lia. }
    rewrite El. split; [split; [lia|exact E3]|exact E4]. }
  assert (H0 : OFF 0 = 0) by (unfold OFF; now rewrite G0).
  assert (Hoff1 : forall j, 0 <= j < nch -> OFF (j + 1) = OFF j + LEN j * C /\ 0 <= LEN j) by (intros j Hj; apply (Hoff j Hj)).
  set (srt := stable_sort (fun a b : Z * Z => fst a <? fst b) (combine perm (zrange 0 K))).
  assert (Hsin : forall x q, In (x, q) srt <-> vec_get perm q = Some x).
  { intros x q. pose proof (in_combine_range perm 0 x q) as Q. rewrite Z.sub_0_r, Hlp in Q. replace (0 + Z.of_nat (Z.to_nat K)) with K in Q by lia. rewrite <- Q.
    unfold srt. split; apply Permutation_in; [apply Permutation_sym|]; apply stable_sort_perm. }
  assert (Hss : StronglySorted (fun a b : Z * Z => fst a <= fst b) srt).
  { apply stable_sort_sorted; intros; lia. }
  set (pos := index_of perm).
  assert (Hpg : forall x, 0 <= x < n -> vec_get perm (pos x) = Some x) by (intros x Hx; apply index_of_get, HinK; lia).
  assert (Hpos : forall x, 0 <= x < n -> 0 <= pos x < nch * C).
  { intros x Hx. pose proof (vec_get_some _ _ _ (Hpg x Hx)). fold P. lia. }
  assert (Hlb : forall x, 0 <= x < n -> lower_bound srt x = Some (x, pos x)).
  { intros x Hx. apply lower_bound_spec; [exact Hss|apply Hsin; auto|]. intros q' Hq'. apply Hsin in Hq'. apply (vec_get_inj perm _ _ x Hnd); auto. }
  assert (Hinj : forall x y, 0 <= x < n -> 0 <= y < n -> pos x = pos y -> x = y).
  { intros x y Hx Hy E. pose proof (Hpg x Hx). pose proof (Hpg y Hy). congruence. }
  assert (Hcnt : forall x, 0 <= x < n -> cnt m x <= LEN (pos x / C)).
  { intros x Hx. specialize (Hpos x Hx). assert (Hd : 0 <= pos x / C < nch) by (split; [apply Z.div_pos; lia|apply Z.div_lt_upper_bound; lia]).
    destruct (Hoff (pos x / C) Hd) as [_ Hl]. specialize (Hl (pos x) x). unfold f in Hl. rewrite Z.add_0_l in Hl. apply Hl.
    - pose proof (Z.div_mod (pos x) C ltac:(lia)). pose proof (Z.mod_pos_bound (pos x) C ltac:(lia)). lia.
    - apply Hreal. auto. }
  assert (Htot : Z.of_nat (Z.to_nat (last offs 0)) = OFF nch).
  { rewrite Gl. fold (OFF nch). apply Z2Nat.id. rewrite <- H0. apply (off_le C nch OFF LEN); [lia|exact Hoff1|lia|lia]. }
  clearbody OFF LEN.
  destruct (place_spec C nch OFF LEN ltac:(lia) H0 Hoff1 offs srt pos n Hoffs Hlb Hpos Hinj zero m [] 0 0
              (repeat zero (Z.to_nat (last offs 0))) (repeat 0 (Z.to_nat (last offs 0)))) as (values & column & Epl & Hh & Hbl).
  { exact Hm. } { exact Hs. } { intros e []. }
  { intros e He. unfold rows_below in Hm. rewrite Forall_forall in Hm. apply (Hm e He). }
  { reflexivity. } { exact Hcnt. } { now rewrite repeat_length. } { now rewrite repeat_length. }
  { intros x k e _ E. destruct k; discriminate. }
  { intros q k Hq Hk _. destruct (spot_bound C nch OFF LEN ltac:(lia) H0 Hoff1 q k Hq Hk) as [_ B]. clear - B Htot. split; apply vec_get_repeat; rewrite Htot; exact B. }
  cbn [app] in Hh, Hbl. rewrite Epl. cbn [obind].
  eexists. exists perm. split; [reflexivity|]. cbn [sl_dim sl_sorted sl_real]. split; [reflexivity|].
  split; [exact HnK|].
  split.
  { split; [exact Hp1|]. split; [exact Hp2|]. intros Hd. apply Hp3. unfold f. intros; rewrite !Z.add_0_l. now apply Hd. }
  split; [exact Hsin|]. split; [exact Hreal|].
  assert (Hrows : forall s, s = mkSell values column (map f perm ++ repeat 0 (Z.to_nat (P - K))) lens offs srt real n ->
    forall q x, vec_get perm q = Some x -> 0 <= q < nch * C /\ 0 <= q / C < nch /\ cnt m x <= LEN (q / C) /\ vec_get (sl_rowlen s) q = Some (cnt m x) /\
      (forall x', 0 <= x' < n -> q = pos x' -> x' = x) /\
      sell_read C s (OFF (q / C) + q mod C) (Z.to_nat (cnt m x)) = Some (row_entries m x)).
  { intros s -> q x Eq. pose proof (vec_get_some _ _ _ Eq) as Hq. rewrite Hlp in Hq.
  assert (HqP : 0 <= q < nch * C) by (fold P; lia).
  assert (Hd : 0 <= q / C < nch) by (split; [apply Z.div_pos; lia|apply Z.div_lt_upper_bound; lia]).
  split; [exact HqP|]. split; [exact Hd|]. cbn [sl_rowlen].
  split.
  { destruct (Hoff (q / C) Hd) as [_ Hl]. specialize (Hl q x). unfold f in Hl. rewrite Z.add_0_l in Hl. apply Hl; [|now apply Hreal].
    assert (HC' : 0 < C) by (clear - HC; lia). pose proof (Z.div_mod q C (Z.neq_sym _ _ (Z.lt_neq _ _ HC'))) as Q1. pose proof (Z.mod_pos_bound q C HC') as Q2. rewrite (Z.mul_comm (q / C)). clear - Q1 Q2. generalize dependent (C * (q / C)). generalize dependent (q mod C). intros; lia. }
  rewrite vec_get_app, map_length, Hlp. destruct (Z.ltb_spec q (Z.of_nat (Z.to_nat K))); [|lia].
  assert (Ecp : vec_get (map f perm) q = Some (cnt m x)).
  { unfold vec_get in Eq |- *. destruct (q <? 0); [discriminate|]. rewrite nth_error_map, Eq. cbn. unfold f. f_equal. }
  split; [exact Ecp|]. split; [intros x' Hx' ->; specialize (Hpg x' Hx'); congruence|]. assert (Hx : 0 <= x < K). { apply HinK. unfold vec_get in Eq. destruct (q <? 0); [discriminate|]. eapply nth_error_In; eauto. }
  destruct (Z_lt_le_dec x n) as [Hxn|Hxn].
  - assert (Eqp : q = pos x) by (apply (vec_get_inj perm _ _ x Hnd); auto; apply Hpg; lia).
    pose proof (read_spec C nch OFF LEN ltac:(lia) Hoff1 offs srt pos n Hoffs Hlb Hpos Hinj
                  (mkSell values column (map f perm ++ repeat 0 (Z.to_nat (P - K))) lens offs srt real n) x m (of_row x m) ltac:(lia) Hh [] eq_refl) as R.
    unfold spot in R. cbn [length] in R. rewrite Z.mul_0_l, Z.add_0_r, <- Eqp in R. unfold cnt. rewrite Nat2Z.id. exact R.
  - assert (En : filter (fun e => e_row e =? x) m = []).
    { apply filter_none. intros e He. unfold rows_below in Hm. rewrite Forall_forall in Hm. specialize (Hm e He). apply Z.eqb_neq. lia. }
    unfold cnt, row_entries. rewrite En. reflexivity. }
  specialize (Hrows _ eq_refl). split.
  - intros q x Eq. destruct (Hrows q x Eq) as (HqP & Hd & Hc & El & _ & Er). unfold sell_row. rewrite El. cbn [sl_chunkoff].
    rewrite Z.quot_div_nonneg, Z.rem_mod_nonneg by lia. rewrite Hoffs by lia. exact Er.
  - intros q x Eq. destruct (Hrows q x Eq) as (HqP & Hd & Hc & El & Hu & Er). split; [exact El|]. clear El. cbn [sl_chunkoff].
    exists (OFF (q / C)), (Z.to_nat (LEN (q / C))), (Z.to_nat (LEN (q / C) - cnt m x)).
    destruct (Hoff1 _ Hd) as [E1 HL]. split; [apply Hoffs; lia|]. split; [rewrite Z2Nat.id by exact HL; rewrite <- E1; apply Hoffs; lia|].
    assert (Hc0 : 0 <= cnt m x) by (unfold cnt; lia).
    replace (Z.to_nat (LEN (q / C))) with (Nat.add (Z.to_nat (cnt m x)) (Z.to_nat (LEN (q / C) - cnt m x))).
    2:{ clear - Hc Hc0 HL. generalize dependent (LEN (q / C)). intros z ? ?. lia. }
    apply read_app; [exact Er|].
    replace (OFF (q / C) + q mod C + Z.of_nat (Z.to_nat (cnt m x)) * C) with (spot C OFF q (cnt m x)).
    2:{ unfold spot. rewrite Z2Nat.id by exact Hc0. ring. }
    apply (read_blank C nch OFF LEN pos n zero _ m q); cbn [sl_values sl_column]; auto; [rewrite Z2Nat.id by (apply Zle_minus_le_0; exact Hc); rewrite Zplus_minus; apply Z.le_refl|].
    intros x' Hx' E. rewrite (Hu x' Hx' E). apply Z.le_refl.
Qed.

Theorem sell_init_spec {V} (zero : V) C S n m : 1 <= C -> 1 <= S -> 1 <= n -> rows_below n m -> StronglySorted entry_le m ->
  exists s perm, sell_init_sorted zero C S (sell_make C n) m = Some s /\ sl_dim s = n /\
    let K := Z.min ((Z.quot (n - 1) C + 1) * C) ((Z.quot (n - 1) S + 1) * S) in
    n <= K /\ arranged S (cnt m) K perm /\
    (forall x q, In (x, q) (sl_sorted s) <-> vec_get perm q = Some x) /\
    (forall i x, vec_get perm i = Some x -> vec_get (sl_real s) i = Some x) /\
    forall q x, vec_get perm q = Some x -> sell_row C s q = Some (row_entries m x).
Proof.
  intros HC HS Hn Hm Hs. destruct (sell_init_padded zero C S n m HC HS Hn Hm Hs) as (s & perm & E & Hd & HK & Ha & Hi & Hr & Hrow & _).
  exists s, perm. do 6 (split; [assumption|]). assumption.
Qed.
