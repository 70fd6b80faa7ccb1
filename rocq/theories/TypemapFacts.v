(** MPI datatypes: layout, order, extent. *)
From Coq Require Import Permutation Sorting.Sorted.
From Verif Require Import Base TypemapModel TypemapSpec.

(** Rounding *)
Lemma round_up_spec x a : 0 < a -> (a | round_up x a) /\ x <= round_up x a < x + a.
Proof.
  intros Ha. unfold round_up. split; [now exists ((x + a - 1) / a)|]. pose proof (Z.div_mod (x + a - 1) a ltac:(lia)). pose proof (Z.mod_pos_bound (x + a - 1) a Ha).
  set (q := (x + a - 1) / a) in *. set (r := (x + a - 1) mod a) in *. clearbody q r. nia.
Qed.

Lemma round_up_unique x a s : 0 < a -> (a | s) -> x <= s < x + a -> round_up x a = s.
Proof.
  intros Ha [k ->] Hs. destruct (round_up_spec x a Ha) as [[j Ej] Hr]. rewrite Ej in *. assert (j = k); [|congruence]. clear Ej. nia.
Qed.

Lemma pow_pos e : 0 < 2 ^ Z.of_nat e.
Proof. apply Z.pow_pos_nonneg; lia. Qed.

Lemma pow_divide e e' : (e <= e')%nat -> (2 ^ Z.of_nat e | 2 ^ Z.of_nat e').
Proof. intros H. exists (2 ^ Z.of_nat (e' - e)). rewrite <- Z.pow_add_r by lia. f_equal. lia. Qed.

(** Layout *)
Lemma place_spec l : Forall (fun x => 0 < fst (fst x) /\ (0 < snd x)%nat) l -> forall pos,
  let '(offs, last) := place pos l in
  length offs = length l /\ pos <= last /\
  (forall k s e num off, nth_error l k = Some (s, e, num) -> nth_error offs k = Some off -> pos <= off /\ (2 ^ Z.of_nat e | off) /\ off + s * Z.of_nat num <= last) /\
  StronglySorted Z.lt offs /\
  (l <> [] -> exists k s e num off, nth_error l k = Some (s, e, num) /\ nth_error offs k = Some off /\ off + s * Z.of_nat num = last).
Proof.
  induction 1 as [|[[s e] num] l [Hs Hn] _ IH]; intros pos.
  - cbn [place]. split; [reflexivity|]. split; [lia|]. split; [intros k s e num off Hk; now destruct k|]. split; [constructor|congruence].
  - cbn [place fst snd] in *. destruct (round_up_spec pos (2 ^ Z.of_nat e) (pow_pos e)) as [Hd Hr]. set (off0 := round_up pos _) in *. specialize (IH (off0 + s * Z.of_nat num)).
    destruct (place (off0 + s * Z.of_nat num) l) as [offs last] eqn:Ep. destruct IH as (I1 & I2 & I3 & I4 & I5). assert (0 < s * Z.of_nat num) by nia. repeat split.
    + cbn [length]. congruence.
    + lia.
    + destruct k; cbn [nth_error] in *; [injection H0 as <- <- <-; injection H1 as <-; lia|]. destruct (I3 _ _ _ _ _ H0 H1). lia.
    + destruct k; cbn [nth_error] in *; [injection H0 as <- <- <-; injection H1 as <-; exact Hd|]. now destruct (I3 _ _ _ _ _ H0 H1) as (_ & ? & _).
    + destruct k; cbn [nth_error] in *; [injection H0 as <- <- <-; injection H1 as <-; lia|]. now destruct (I3 _ _ _ _ _ H0 H1) as (_ & _ & ?).
    + constructor; [exact I4|]. apply Forall_forall. intros o Ho. destruct (In_nth_error _ _ Ho) as (k & Hk). destruct (nth_error l k) as [[[s' e'] n']|] eqn:El; [|apply nth_error_None in El; assert (nth_error offs k <> None) by congruence; apply nth_error_Some in H0; lia].
      destruct (I3 _ _ _ _ _ El Hk). lia.
    + intros _. destruct l as [|x l].
      * exists O, s, e, num, off0. split; [reflexivity|]. split; [reflexivity|]. cbn [place] in Ep. congruence.
      * destruct I5 as (k & s' & e' & n' & o' & E1 & E2 & E3); [discriminate|]. exists (S k), s', e', n', o'. auto.
Qed.

(** Sorting *)
Notation spec := (Z * typemap * nat)%type.
Definition addr (s : spec) : Z := fst (fst s).

Lemma ins_perm s l : Permutation (ins s l) (s :: l).
Proof.
  induction l as [|x l IH]; [apply Permutation_refl|]. cbn [ins]. destruct (_ <? _); [|apply Permutation_refl]. etransitivity; [apply perm_skip, IH|apply perm_swap].
Qed.

Lemma sort_perm l : Permutation (sort_specs l) l.
Proof. induction l as [|x l IH]; [constructor|]. cbn [sort_specs fold_right]. etransitivity; [apply ins_perm|]. now apply perm_skip. Qed.

Definition le_addr (a b : spec) : Prop := addr a <= addr b.

Lemma ins_sorted s l : StronglySorted le_addr l -> StronglySorted le_addr (ins s l).
Proof.
  induction 1 as [|x l Hl IH Hx]; [repeat constructor|]. cbn [ins]. fold (addr x) (addr s). destruct (Z.ltb_spec (addr x) (addr s)) as [Hlt|Hge].
  - constructor; [exact IH|]. apply Forall_forall. intros y Hy. apply (Permutation_in _ (ins_perm s l)) in Hy. rewrite Forall_forall in Hx. unfold le_addr. destruct Hy as [<-|Hy]; [lia|]. now apply Hx.
  - constructor; [now constructor|]. constructor; [unfold le_addr; lia|]. rewrite Forall_forall in *. intros y Hy. specialize (Hx y Hy). unfold le_addr in *. lia.
Qed.

Lemma sort_sorted l : StronglySorted le_addr (sort_specs l).
Proof. induction l as [|x l IH]; [constructor|]. cbn [sort_specs fold_right]. now apply ins_sorted. Qed.

Lemma sorted_unique l : StronglySorted (fun a b => addr a < addr b) l -> forall m, StronglySorted le_addr m -> Permutation m l -> m = l.
Proof.
  induction 1 as [|x l Hl IH Hx]; intros m Hm Hp.
  - apply Permutation_sym, Permutation_nil in Hp. exact Hp.
  - destruct m as [|y m]; [apply Permutation_nil in Hp; discriminate|]. inversion Hm as [|? ? Hm' Hy]; subst. rewrite Forall_forall in Hx, Hy.
    assert (y = x) as ->.
    { assert (H1 : In y (x :: l)) by (apply (Permutation_in _ Hp); now left). assert (H2 : In x (y :: m)) by (apply (Permutation_in _ (Permutation_sym Hp)); now left).
      destruct H1 as [H1|H1]; [congruence|]. destruct H2 as [H2|H2]; [congruence|]. specialize (Hx y H1). specialize (Hy x H2). unfold le_addr in Hy. lia. }
    f_equal. apply IH; [exact Hm'|]. now apply Permutation_cons_inv in Hp.
Qed.

Lemma sort_unique raw l : StronglySorted (fun a b => addr a < addr b) l -> Permutation raw l -> sort_specs raw = l.
Proof. intros H1 H2. apply sorted_unique; [exact H1|apply sort_sorted|]. etransitivity; [apply sort_perm|exact H2]. Qed.

(** Picking the members *)
Lemma pick_all {A} (l : list A) n : n = length l -> flat_map (fun k => match nth_error l k with Some x => [x] | None => [] end) (seq 0 n) = l.
Proof.
  intros ->. induction l as [|x l IH]; [reflexivity|]. cbn [length seq flat_map nth_error app]. f_equal. rewrite <- seq_shift, flat_map_concat_map, map_map, <- flat_map_concat_map. exact IH.
Qed.

Lemma pick_perm {A} (l : list A) reg : Permutation reg (seq 0 (length l)) -> Permutation (flat_map (fun k => match nth_error l k with Some x => [x] | None => [] end) reg) l.
Proof. intros H. etransitivity; [apply Permutation_flat_map; exact H|]. now rewrite pick_all. Qed.

(** Bounds of type maps *)
Lemma fold_max l : forall x, x <= fold_left Z.max l x /\ (forall y, In y l -> y <= fold_left Z.max l x) /\ (fold_left Z.max l x = x \/ In (fold_left Z.max l x) l).
Proof.
  induction l as [|y l IH]; intros x; cbn [fold_left]; [split; [lia|]; split; [intros ? []|now left]|]. destruct (IH (Z.max x y)) as (I1 & I2 & I3). split; [lia|]. split.
  - intros z [->|Hz]; [lia|now apply I2].
  - destruct I3 as [I3|I3]; [|right; now right]. destruct (Z.max_spec x y) as [[_ Hm]|[_ Hm]]; rewrite I3, Hm; [right; now left|now left].
Qed.

Lemma fold_min l : forall x, fold_left Z.min l x <= x /\ (forall y, In y l -> fold_left Z.min l x <= y) /\ (fold_left Z.min l x = x \/ In (fold_left Z.min l x) l).
Proof.
  induction l as [|y l IH]; intros x; cbn [fold_left]; [split; [lia|]; split; [intros ? []|now left]|]. destruct (IH (Z.min x y)) as (I1 & I2 & I3). split; [lia|]. split.
  - intros z [->|Hz]; [lia|now apply I2].
  - destruct I3 as [I3|I3]; [|right; now right]. destruct (Z.min_spec x y) as [[_ Hm]|[_ Hm]]; rewrite I3, Hm; [now left|right; now left].
Qed.

Lemma ub_bound t x : In x t -> m_end x <= tm_ub t.
Proof. destruct t as [|y t]; [intros []|]. cbn [tm_ub]. destruct (fold_max (map m_end t) (m_end y)) as (H1 & H2 & _). intros [->|H]; [exact H1|]. apply H2. now apply in_map. Qed.

Lemma ub_met t : t <> [] -> exists x, In x t /\ m_end x = tm_ub t.
Proof.
  destruct t as [|y t]; [congruence|]. intros _. cbn [tm_ub]. destruct (fold_max (map m_end t) (m_end y)) as (_ & _ & [H|H]); [exists y; split; [now left|congruence]|].
  apply in_map_iff in H. destruct H as (x & E & Hx). exists x. split; [now right|exact E].
Qed.

Lemma lb_zero t : (forall x, In x t -> 0 <= m_disp x) -> (exists x, In x t /\ m_disp x = 0) -> tm_lb t = 0.
Proof.
  destruct t as [|y t]; [intros _ (x & [] & _)|]. intros H0 (x & Hx & Ex). cbn [tm_lb]. destruct (fold_min (map m_disp t) (m_disp y)) as (H1 & H2 & H3).
  assert (fold_left Z.min (map m_disp t) (m_disp y) <= 0) by (destruct Hx as [->|Hx]; [lia|]; rewrite <- Ex; apply H2; now apply in_map).
  assert (0 <= fold_left Z.min (map m_disp t) (m_disp y)); [|lia]. destruct H3 as [->|H3]; [apply H0; now left|]. apply in_map_iff in H3. destruct H3 as (z & <- & Hz). apply H0. now right.
Qed.

Lemma list_max_in l x : In x l -> (x <= list_max l)%nat.
Proof. intros H. pose proof (proj1 (list_max_le l (list_max l)) (le_n _)) as F. rewrite Forall_forall in F. now apply F. Qed.

Lemma list_max_eq l m : (forall x, In x l -> (x <= m)%nat) -> (l <> [] -> In m l) -> (l = [] -> m = O) -> list_max l = m.
Proof.
  intros H1 H2 H3. destruct l as [|y l]; [now rewrite H3|]. apply Nat.le_antisymm; [apply list_max_le; now apply Forall_forall|]. apply list_max_in, H2. discriminate.
Qed.

Lemma list_max_met l : l <> [] -> In (list_max l) l.
Proof.
  induction l as [|x l IH]; [congruence|]. intros _. cbn [list_max fold_right]. fold (list_max l). destruct (Nat.max_spec x (list_max l)) as [[Hlt ->]|[_ ->]]; [|now left]. right. apply IH. intros ->. cbn in Hlt. lia.
Qed.

(** Induction on types *)
Section Ind.
Variable P : ctype -> Prop.
Hypothesis HP : forall size e, P (Prim size e).
Hypothesis HC : forall reg ms, Forall (fun m => P (fst m)) ms -> P (Class reg ms).
Fixpoint ctype_rect' (ty : ctype) : P ty :=
  match ty with
  | Prim size e => HP size e
  | Class reg ms => HC reg ms ((fix go l : Forall (fun m => P (fst m)) l := match l with [] => Forall_nil _ | m :: l' => Forall_cons m (ctype_rect' (fst m)) (go l') end) ms)
  end.
End Ind.

(** Datatypes of classes *)
Section Good.
Variable base : Z.
Notation lookup := (lookup base).
Notation mem ms := (map (fun m => match m with (t, num) => (size_of t, align_exp t, num) end) ms).

Definition good (ty : ctype) : Prop :=
  lookup ty <> [] /\ (forall x, In x (lookup ty) -> 0 <= m_disp x /\ 0 < snd (fst x)) /\ (exists x, In x (lookup ty) /\ m_disp x = 0) /\
  tm_align (lookup ty) = align_exp ty /\ tm_extent (lookup ty) = size_of ty /\ (forall o, In o (bytes_of (lookup ty)) <-> data_byte ty o) /\
  0 < size_of ty /\ (2 ^ Z.of_nat (align_exp ty) | size_of ty).

Lemma in_bytes t o : In o (bytes_of t) <-> exists x, In x t /\ m_disp x <= o < m_end x.
Proof.
  unfold bytes_of, m_end. rewrite in_flat_map. split.
  - intros (x & Hx & Ho). exists x. split; [exact Hx|]. apply in_map_iff in Ho. destruct Ho as (i & <- & Hi). apply in_seq in Hi. unfold m_disp. lia.
  - intros (x & Hx & Ho). exists x. split; [exact Hx|]. apply in_map_iff. exists (Z.to_nat (o - m_disp x)). unfold m_disp in *. split; [lia|]. apply in_seq. lia.
Qed.

Lemma good_ub ty : good ty -> tm_ub (lookup ty) <= size_of ty < tm_ub (lookup ty) + 2 ^ Z.of_nat (align_exp ty).
Proof.
  intros (G1 & G2 & G3 & G4 & G5 & _). assert (L : tm_lb (lookup ty) = 0) by (apply lb_zero; [intros x Hx; now apply G2|exact G3]).
  unfold tm_extent in G5. rewrite L, G4 in G5. destruct (round_up_spec (tm_ub (lookup ty) - 0) (2 ^ Z.of_nat (align_exp ty)) (pow_pos _)) as [_ H]. lia.
Qed.

Definition conv (x : Z * (typemap * nat)) : spec := (fst x, fst (snd x), snd (snd x)).
Definition parts (ms : list (ctype * nat)) : list (typemap * nat) := map (fun m => match m with (t, num) => (lookup t, num) end) ms.

Lemma nth_combine {A B} (l : list A) (l' : list B) k : nth_error (combine l l') k = match nth_error l k, nth_error l' k with Some a, Some b => Some (a, b) | _, _ => None end.
Proof. revert l' k. induction l as [|a l IH]; intros [|b l'] [|k]; try reflexivity. - cbn. now destruct (nth_error l k). - cbn. apply IH. Qed.

Lemma combine_map_l {A A' B} (f : A -> A') (l : list A) (l' : list B) : combine (map f l) l' = map (fun x => (f (fst x), snd x)) (combine l l').
Proof. revert l'. induction l as [|a l IH]; intros [|b l']; try reflexivity. cbn. f_equal. apply IH. Qed.

Lemma round_zero a : 0 < a -> round_up 0 a = 0.
Proof. intros Ha. apply round_up_unique; [exact Ha|apply Z.divide_0_r|lia]. Qed.

Lemma class_specs reg ms : ms <> [] -> Permutation reg (seq 0 (length ms)) -> Forall (fun m => 0 < size_of (fst m) /\ (0 < snd m)%nat) ms ->
  lookup (Class reg ms) = create_struct (map conv (combine (member_offsets ms) (parts ms))).
Proof.
  intros Hne Hp Hm. cbn [TypemapModel.lookup]. fold (parts ms). change (fst (place 0 (mem ms))) with (member_offsets ms). set (specs := combine (map (Z.add base) (member_offsets ms)) (parts ms)).
  assert (Hlen : length (member_offsets ms) = length ms /\ StronglySorted Z.lt (member_offsets ms)).
  { unfold member_offsets. assert (F : Forall (fun x : Z * nat * nat => 0 < fst (fst x) /\ (0 < snd x)%nat) (mem ms)) by (apply Forall_map; eapply Forall_impl; [|exact Hm]; intros [t num]; cbn; auto).
    pose proof (place_spec _ F 0) as H. destruct (place 0 (mem ms)) as [offs last]. destruct H as (H1 & _ & _ & H4 & _). rewrite map_length in H1. now split. }
  destruct Hlen as [Hlen Hs].
  assert (Hpick : forall l, flat_map (fun k => match nth_error specs k with Some (a, (t, num)) => [(a, t, num)] | None => [] end) l =
    flat_map (fun k => match nth_error (map conv specs) k with Some x => [x] | None => [] end) l).
  { intros l. apply flat_map_ext. intros k. rewrite nth_error_map. now destruct (nth_error specs k) as [[a [t num]]|]. }
  rewrite Hpick. unfold generate. assert (Ls : length (map conv specs) = length ms) by (unfold specs, parts; rewrite map_length, combine_length, !map_length, Hlen; lia).
  rewrite (sort_unique _ (map conv specs)).
  - f_equal. unfold specs. rewrite combine_map_l, map_map. unfold relative.
    assert (Hz : exists offs, member_offsets ms = 0 :: offs).
    { destruct ms as [|[t num] ms]; [congruence|]. unfold member_offsets. cbn [map place]. rewrite round_zero by apply pow_pos. destruct (place _ _) as [offs last]. now exists offs. }
    destruct Hz as (offs & Ez). rewrite Ez. destruct (parts ms) as [|p ps] eqn:Eps; [unfold parts in Eps; destruct ms; [congruence|discriminate]|]. cbn [combine map]. f_equal.
    + unfold conv. cbn [fst snd]. f_equal. f_equal. lia.
    + rewrite map_map. apply map_ext. intros [o q]. unfold conv. cbn [fst snd]. f_equal. f_equal. lia.
  - unfold specs. clear - Hs. generalize (parts ms). induction Hs as [|o offs Ho IH Hall]; intros ps; [constructor|]. destruct ps as [|p ps]; [constructor|]. cbn [map combine]. constructor; [apply IH|].
    apply Forall_forall. intros x Hx. apply in_map_iff in Hx. destruct Hx as ([a q] & <- & Hin). apply in_combine_l in Hin. apply in_map_iff in Hin. destruct Hin as (o' & <- & Ho'). rewrite Forall_forall in Hall. specialize (Hall o' Ho'). unfold addr, conv. cbn [fst snd]. lia.
  - apply pick_perm. now rewrite Ls.
Qed.

Lemma in_struct ms x : In x (create_struct (map conv (combine (member_offsets ms) (parts ms)))) <->
  exists k t num off i y, nth_error ms k = Some (t, num) /\ nth_error (member_offsets ms) k = Some off /\ (i < num)%nat /\ In y (lookup t) /\
    x = (m_disp y + (off + Z.of_nat i * tm_extent (lookup t)), snd (fst y), snd y).
Proof.
  unfold create_struct, repeated, shift, parts. rewrite in_flat_map. split.
  - intros (s & Hs & Hx). apply in_map_iff in Hs. destruct Hs as ([off [m num]] & <- & Hin). destruct (In_nth_error _ _ Hin) as (k & Hk). rewrite nth_combine, nth_error_map in Hk.
    destruct (nth_error (member_offsets ms) k) as [off'|] eqn:Eo; [|discriminate]. destruct (nth_error ms k) as [[t num']|] eqn:Em; [|discriminate]. cbn [option_map] in Hk. injection Hk as <- <- <-. unfold conv in Hx. cbn [fst snd] in Hx.
    apply in_flat_map in Hx. destruct Hx as (i & Hi & Hx). apply in_seq in Hi. apply in_map_iff in Hx. destruct Hx as (y & <- & Hy). exists k, t, num', off', i, y. repeat split; auto. lia.
  - intros (k & t & num & off & i & y & Em & Eo & Hi & Hy & ->). exists (conv (off, (lookup t, num))). split.
    + apply in_map. apply (nth_error_In _ k). rewrite nth_combine, Eo, nth_error_map, Em. reflexivity.
    + unfold conv. cbn [fst snd]. apply in_flat_map. exists i. split; [apply in_seq; lia|]. apply in_map_iff. now exists y.
Qed.

Lemma registered_good ty : registered ty -> good ty.
Proof.
  induction ty as [size e|reg ms IH] using ctype_rect'; intros Hr; inversion Hr as [? ? Hs Hd|? ? Hne Hp Hm]; subst.
  - unfold good. cbn [TypemapModel.lookup align_exp size_of]. split; [discriminate|]. split; [intros x [<-|[]]; cbn; lia|]. split; [exists (0, size, e); split; [now left|reflexivity]|].
    split; [unfold tm_align; cbn; lia|]. split.
    { unfold tm_extent, tm_align, tm_ub, tm_lb, m_end, m_disp. cbn [map fold_left fst snd list_max fold_right]. rewrite Nat.max_0_r. apply round_up_unique; [apply pow_pos|exact Hd|]. pose proof (pow_pos e). lia. }
    split; [|now split]. intros o. rewrite in_bytes. split.
    + intros (x & [<-|[]] & Ho). constructor. unfold m_disp, m_end in Ho. cbn in Ho. lia.
    + intros Ho. inversion Ho; subst. exists (0, size, e). split; [now left|]. unfold m_disp, m_end. cbn. lia.
  - assert (Hg : forall t num, In (t, num) ms -> good t /\ (0 < num)%nat).
    { intros t num Hi. rewrite Forall_forall in IH, Hm. destruct (Hm _ Hi) as [H1 H2]. cbn [fst snd] in *. split; [now apply (IH (t, num) Hi)|exact H2]. }
    assert (Hm' : Forall (fun m => 0 < size_of (fst m) /\ (0 < snd m)%nat) ms).
    { apply Forall_forall. intros [t num] Hi. destruct (Hg t num Hi) as ((_ & _ & _ & _ & _ & _ & H & _) & H'). now split. }
    assert (F : Forall (fun x : Z * nat * nat => 0 < fst (fst x) /\ (0 < snd x)%nat) (mem ms)) by (apply Forall_map; eapply Forall_impl; [|exact Hm']; intros [t num]; cbn; auto).
    pose proof (class_specs reg ms Hne Hp Hm') as Ecl. pose proof (place_spec _ F 0) as Hpl.
    assert (Eoff : member_offsets ms = fst (place 0 (mem ms))) by reflexivity.
    set (A := align_exp (Class reg ms)). assert (EA : A = list_max (map (fun m => match m with (t, _) => align_exp t end) ms)) by reflexivity.
    assert (Esz : size_of (Class reg ms) = round_up (snd (place 0 (mem ms))) (2 ^ Z.of_nat A)) by reflexivity.
    destruct (place 0 (mem ms)) as [offs last] eqn:Epl. cbn [fst snd] in *. destruct Hpl as (P1 & P2 & P3 & P4 & P5). rewrite map_length in P1.
    assert (Hin : forall x, In x (lookup (Class reg ms)) <-> exists k t num off i y, nth_error ms k = Some (t, num) /\ nth_error offs k = Some off /\ (i < num)%nat /\ In y (lookup t) /\ good t /\
      0 <= off /\ off + size_of t * Z.of_nat num <= last /\ x = (m_disp y + (off + Z.of_nat i * size_of t), snd (fst y), snd y)).
    { intros x. rewrite Ecl, in_struct, Eoff. split.
      - intros (k & t & num & off & i & y & Em & Eo & Hi & Hy & ->). destruct (Hg t num (nth_error_In _ _ Em)) as [G Hn]. exists k, t, num, off, i, y. pose proof G as (_ & _ & _ & _ & G5 & _).
        assert (Ek : nth_error (mem ms) k = Some (size_of t, align_exp t, num)) by (rewrite nth_error_map, Em; reflexivity). destruct (P3 _ _ _ _ _ Ek Eo) as (Q1 & _ & Q3). rewrite G5. exact (conj Em (conj Eo (conj Hi (conj Hy (conj G (conj Q1 (conj Q3 eq_refl))))))).
      - intros (k & t & num & off & i & y & Em & Eo & Hi & Hy & G & _ & _ & ->). pose proof G as (_ & _ & _ & _ & G5 & _). exists k, t, num, off, i, y. rewrite G5. exact (conj Em (conj Eo (conj Hi (conj Hy eq_refl)))). }
    assert (Hoff : forall k t num, nth_error ms k = Some (t, num) -> exists off, nth_error offs k = Some off).
    { intros k t num Em. destruct (nth_error offs k) as [off|] eqn:Eo; [now exists off|]. apply nth_error_None in Eo. assert (nth_error ms k <> None) by congruence. apply nth_error_Some in H. lia. }
    assert (Hput : forall k t num off i y, nth_error ms k = Some (t, num) -> nth_error offs k = Some off -> (i < num)%nat -> In y (lookup t) -> In (m_disp y + (off + Z.of_nat i * size_of t), snd (fst y), snd y) (lookup (Class reg ms))).
    { intros k t num off i y Em Eo Hi Hy. apply Hin. exists k, t, num, off, i, y. destruct (Hg t num (nth_error_In _ _ Em)) as [G Hn].
      assert (Ek : nth_error (mem ms) k = Some (size_of t, align_exp t, num)) by (rewrite nth_error_map, Em; reflexivity). destruct (P3 _ _ _ _ _ Ek Eo) as (Q1 & _ & Q3). exact (conj Em (conj Eo (conj Hi (conj Hy (conj G (conj Q1 (conj Q3 eq_refl))))))). }
    assert (HleA : forall t num, In (t, num) ms -> (align_exp t <= A)%nat).
    { intros t num Hi. rewrite EA. apply list_max_in. apply in_map_iff. now exists (t, num). }
    assert (Q1 : forall x, In x (lookup (Class reg ms)) -> 0 <= m_disp x /\ 0 < snd (fst x)).
    { intros x Hx. apply Hin in Hx. destruct Hx as (k & t & num & off & i & y & Em & Eo & Hi & Hy & G & Ho & _ & ->). destruct G as (_ & G2 & _ & _ & _ & _ & G7 & _). destruct (G2 y Hy) as [D1 D2].
      unfold m_disp at 1. cbn [fst snd]. split; [|exact D2]. assert (0 <= Z.of_nat i * size_of t) by nia. lia. }
    assert (Q2 : exists x, In x (lookup (Class reg ms)) /\ m_disp x = 0).
    { destruct ms as [|[t num] ms0]; [congruence|]. destruct (Hg t num (or_introl eq_refl)) as [G Hn]. destruct (Hoff O t num eq_refl) as (off & Eo). pose proof G as (_ & _ & (y & Hy & Ey) & _).
      assert (off = 0) as ->. { cbn [map place] in Epl. rewrite round_zero in Epl by apply pow_pos. destruct (place _ _) as [offs' last']. injection Epl as <- _. now injection Eo. }
      eexists. split; [apply (Hput O t num 0 O y eq_refl Eo Hn Hy)|]. unfold m_disp at 1. cbn [fst]. lia. }
    assert (Q3 : lookup (Class reg ms) <> []) by (destruct Q2 as (x & Hx & _); intros E; now rewrite E in Hx).
    assert (Q4 : tm_align (lookup (Class reg ms)) = A).
    { unfold tm_align. apply list_max_eq.
      - intros a Ha. apply in_map_iff in Ha. destruct Ha as (x & <- & Hx). apply Hin in Hx. destruct Hx as (k & t & num & off & i & y & Em & _ & _ & Hy & G & _ & _ & ->). cbn [snd].
        pose proof G as (_ & _ & _ & G4 & _). etransitivity; [|apply (HleA t num), (nth_error_In _ _ Em)]. rewrite <- G4. unfold tm_align. apply list_max_in. now apply in_map.
      - intros _. assert (Hn : map (fun m : ctype * nat => match m with (t, _) => align_exp t end) ms <> []) by (destruct ms; [congruence|discriminate]).
        pose proof (list_max_met _ Hn) as H. rewrite <- EA in H. apply in_map_iff in H. destruct H as ([t num] & EtA & Hi). destruct (Hg t num Hi) as [G Hn']. pose proof G as (G1 & _ & _ & G4 & _).
        assert (Hne' : map snd (lookup t) <> []) by (destruct (lookup t); [congruence|discriminate]). pose proof (list_max_met _ Hne') as H. fold (tm_align (lookup t)) in H. rewrite G4, EtA in H. apply in_map_iff in H. destruct H as (y & Ey & Hy).
        destruct (In_nth_error _ _ Hi) as (k & Em). destruct (Hoff k t num Em) as (off & Eo). apply in_map_iff. eexists. split; [|apply (Hput k t num off O y Em Eo Hn' Hy)]. exact Ey.
      - intros E. exfalso. apply Q3. now apply map_eq_nil in E. }
    destruct (round_up_spec last (2 ^ Z.of_nat A) (pow_pos A)) as [R1 R2]. rewrite <- Esz in R1, R2. set (S := size_of (Class reg ms)) in *.
    assert (Q5 : tm_extent (lookup (Class reg ms)) = S).
    { unfold tm_extent. rewrite Q4, lb_zero by (auto; intros x Hx; now apply Q1). apply round_up_unique; [apply pow_pos|exact R1|]. set (U := tm_ub (lookup (Class reg ms))).
      assert (HU : U <= last).
      { destruct (ub_met _ Q3) as (x & Hx & Ex). fold U in Ex. rewrite <- Ex. apply Hin in Hx. destruct Hx as (k & t & num & off & i & y & Em & Eo & Hi & Hy & G & Ho & Hl & ->). pose proof (good_ub t G) as Gu. pose proof (ub_bound _ _ Hy) as Hy'.
        unfold m_end, m_disp in *. cbn [fst snd] in *. pose proof G as (_ & _ & _ & _ & _ & _ & G7 & _). assert (Z.of_nat i * size_of t + size_of t <= size_of t * Z.of_nat num) by nia. lia. }
      assert (HL : S < U + 2 ^ Z.of_nat A).
      { assert (Hme : mem ms <> []) by (destruct ms; [congruence|discriminate]). destruct (P5 Hme) as (k & s & e & num & off & Ek & Eo & El). rewrite nth_error_map in Ek. destruct (nth_error ms k) as [[t num']|] eqn:Em; [|discriminate].
        cbn [option_map] in Ek. injection Ek as <- <- <-. destruct (Hg t num' (nth_error_In _ _ Em)) as [G Hn]. pose proof (good_ub t G) as Gu. pose proof G as (G1 & _ & _ & _ & _ & _ & G7 & G8).
        destruct (ub_met _ G1) as (y & Hy & Ey). assert (Hi : (num' - 1 < num')%nat) by lia. pose proof (ub_bound _ _ (Hput k t num' off (num' - 1)%nat y Em Eo Hi Hy)) as Hb. fold U in Hb. unfold m_end, m_disp in *. cbn [fst snd] in *.
        assert (Ek : nth_error (mem ms) k = Some (size_of t, align_exp t, num')) by (rewrite nth_error_map, Em; reflexivity). destruct (P3 _ _ _ _ _ Ek Eo) as (_ & D & _).
        assert (Hd1 : (2 ^ Z.of_nat (align_exp t) | last)) by (rewrite <- El; apply Z.divide_add_r; [exact D|now apply Z.divide_mul_l]).
        assert (Hd2 : (2 ^ Z.of_nat (align_exp t) | 2 ^ Z.of_nat A)) by (apply pow_divide, (HleA t num'), (nth_error_In _ _ Em)).
        assert (Hd3 : (2 ^ Z.of_nat (align_exp t) | last + 2 ^ Z.of_nat A - S)) by (apply Z.divide_sub_r; [now apply Z.divide_add_r|]; now apply (Z.divide_trans _ _ _ Hd2)).
        apply Z.divide_pos_le in Hd3; [|lia]. assert (Z.of_nat (num' - 1) * size_of t = size_of t * Z.of_nat num' - size_of t) by nia. lia. }
      lia. }
    unfold good. split; [exact Q3|]. split; [exact Q1|]. split; [exact Q2|]. split; [exact Q4|]. split; [exact Q5|]. split; [|split; [|exact R1]].
    + intros o. rewrite in_bytes. split.
      * intros (x & Hx & Ho). apply Hin in Hx. destruct Hx as (k & t & num & off & i & y & Em & Eo & Hi & Hy & G & _ & _ & ->). pose proof G as (_ & _ & _ & _ & _ & G6 & _).
        replace o with (off + Z.of_nat i * size_of t + (o - (off + Z.of_nat i * size_of t))) by lia. apply (db_member reg ms k t num off i); auto; [congruence|]. apply G6, in_bytes. exists y. split; [exact Hy|]. unfold m_end, m_disp in *. cbn [fst snd] in *. lia.
      * intros Ho. inversion Ho as [|? ? k t num off i o' Em Eo Hi Ho']; subst. destruct (Hg t num (nth_error_In _ _ Em)) as [G Hn]. pose proof G as (_ & _ & _ & _ & _ & G6 & _).
        apply G6, in_bytes in Ho'. destruct Ho' as (y & Hy & Hoy). eexists. split; [apply (Hput k t num off i y Em Eo Hi Hy)|]. unfold m_end, m_disp in *. cbn [fst snd] in *. lia.
    + assert (Hme : mem ms <> []) by (destruct ms; [congruence|discriminate]). destruct (P5 Hme) as (k & s & e & num & off & Ek & Eo & El). rewrite Forall_forall in F. destruct (F _ (nth_error_In _ _ Ek)) as [F1 F2]. cbn [fst snd] in *.
      destruct (P3 _ _ _ _ _ Ek Eo) as (D0 & _). nia.
Qed.

(** Transfers *)
Lemma transfer_at {B} (t : typemap) num (src dst : Z -> B) a b x :
  (In (x - b) (positions t num) -> transfer t num src a dst b x = src (a + (x - b))) /\ (~ In (x - b) (positions t num) -> transfer t num src a dst b x = dst x).
Proof.
  unfold transfer. revert dst. induction (positions t num) as [|p l IH]; intros dst; cbn [fold_left]; [split; [intros []|reflexivity]|]. split.
  - intros Hi. destruct (in_dec Z.eq_dec (x - b) l) as [Hl|Hl]; [now apply IH|]. destruct Hi as [->|Hi]; [|contradiction]. rewrite (proj2 (IH _) Hl). replace (b + (x - b)) with x by lia. now rewrite Z.eqb_refl.
  - intros Hn. rewrite (proj2 (IH _)) by (intros Hl; apply Hn; now right). destruct (Z.eqb_spec x (b + p)) as [->|]; [|reflexivity]. exfalso. apply Hn. left. lia.
Qed.

Lemma in_positions ty num o : good ty -> In o (positions (lookup ty) num) <-> exists i o', (i < num)%nat /\ data_byte ty o' /\ o = Z.of_nat i * size_of ty + o'.
Proof.
  intros (_ & _ & _ & _ & G5 & G6 & _). unfold positions. rewrite in_flat_map, G5. split.
  - intros (i & Hi & Ho). apply in_seq in Hi. apply in_map_iff in Ho. destruct Ho as (o' & <- & Ho'). exists i, o'. split; [lia|]. split; [now apply G6|reflexivity].
  - intros (i & o' & Hi & Ho' & ->). exists i. split; [apply in_seq; lia|]. apply in_map. now apply G6.
Qed.
End Good.
