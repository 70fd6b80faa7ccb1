(** Facts on stencils. *)
From Verif Require Import Base RegionSpec RegionStreaks StencilModel StencilSpec SellFacts.
From Coq Require Import ZifyBool ZifyNat.

Lemma manhattan_nonneg c : 0 <= manhattan c.
Proof. induction c as [|x c IH]; cbn; [lia|]. fold (manhattan c). lia. Qed.

Lemma chebyshev_nonneg c : 0 <= chebyshev c.
Proof. induction c as [|x c IH]; cbn; [lia|]. fold (chebyshev c). lia. Qed.

Lemma cheb_le_manh c : chebyshev c <= manhattan c.
Proof. induction c as [|x c IH]; cbn; [lia|]. fold (chebyshev c) (manhattan c). pose proof (manhattan_nonneg c). lia. Qed.

Lemma manhattan_zero c : manhattan c <= 0 -> c = repeat 0 (length c).
Proof.
  induction c as [|x c IH]; cbn; [reflexivity|]. fold (manhattan c). intros H. pose proof (manhattan_nonneg c). f_equal; [lia|apply IH; lia].
Qed.

Lemma manhattan_zeros n : manhattan (repeat 0 n) = 0.
Proof. induction n as [|n IH]; cbn; [reflexivity|]. fold (manhattan (repeat 0 n)). lia. Qed.

Lemma chebyshev_zeros n : chebyshev (repeat 0 n) = 0.
Proof. induction n as [|n IH]; cbn; [reflexivity|]. fold (chebyshev (repeat 0 n)). lia. Qed.

Lemma nodup_app {A} (a b : list A) : NoDup a -> NoDup b -> (forall x, In x a -> ~ In x b) -> NoDup (a ++ b).
Proof.
  induction 1 as [|x a Hx Ha IH]; cbn; [auto|]. intros Hb H. constructor.
  - rewrite in_app_iff. intros [H'|H']; [exact (Hx H')|exact (H x (or_introl eq_refl) H')].
  - apply IH; [exact Hb|]. intros y Hy. apply H. now right.
Qed.

Lemma nodup_cons_map {A} (x : A) l : NoDup l -> NoDup (map (cons x) l).
Proof. intros H. apply FinFun.Injective_map_NoDup; [|exact H]. intros a b E. now injection E. Qed.

Lemma nodup_fibres (f : Z -> list (list Z)) l : NoDup l -> (forall x, NoDup (f x)) ->
  NoDup (flat_map (fun x => map (cons x) (f x)) l).
Proof.
  intros Hl Hf. induction Hl as [|x l Hx Hl IH]; cbn [flat_map]; [constructor|].
  apply nodup_app; [apply nodup_cons_map, Hf|exact IH|].
  intros a H1 H2. apply in_flat_map in H2. destruct H2 as (y & Hy & Ha). apply in_map_iff in H1, Ha.
  destruct H1 as (c & <- & _), Ha as (c' & E & _). injection E as -> _. exact (Hx Hy).
Qed.

(** ** Moore *)

Fixpoint moore_ball (d : nat) (r : Z) : list (list Z) :=
  match d with O => [[]] | S d' => flat_map (fun x => map (cons x) (moore_ball d' r)) (zrange (- r) (r + 1)) end.

Lemma moore_ball_nodup d r : NoDup (moore_ball d r).
Proof.
  induction d as [|d IH]; cbn [moore_ball]; [repeat constructor; intros []|].
  apply (nodup_fibres (fun _ => moore_ball d r)); [apply zrange_nodup|auto].
Qed.

Lemma moore_ball_in d r : 0 <= r -> forall c, In c (moore_ball d r) <-> length c = d /\ chebyshev c <= r.
Proof.
  intros Hr. induction d as [|d IH]; intros c; cbn [moore_ball].
  - destruct c as [|x c]; cbn; [tauto|]. split; [intros [H|[]]; discriminate|lia].
  - rewrite in_flat_map. split.
    + intros (x & Hx & Hc). apply in_map_iff in Hc. destruct Hc as (c' & <- & Hc). apply IH in Hc. apply zrange_in in Hx. cbn. fold (chebyshev c'). lia.
    + destruct c as [|x c]; cbn; [lia|]. fold (chebyshev c). intros [Hl Hc]. exists x. rewrite zrange_in. split; [lia|].
      apply in_map, IH. lia.
Qed.

Lemma flat_map_length {A B} (f : A -> list B) l : length (flat_map f l) = list_sum (map (fun x => length (f x)) l).
Proof. induction l as [|x l IH]; cbn; [reflexivity|]. rewrite app_length, IH. reflexivity. Qed.

Lemma list_sum_const {A} (l : list A) n : list_sum (map (fun _ => n) l) = (length l * n)%nat.
Proof. induction l as [|x l IH]; cbn; [reflexivity|]. fold (list_sum (map (fun _ : A => n) l)). lia. Qed.

Lemma moore_ball_length d r : Z.of_nat (length (moore_ball d (Z.of_nat r))) = moore_volume d r.
Proof.
  unfold moore_volume. induction d as [|d IH]; [reflexivity|]. cbn [moore_ball power]. rewrite flat_map_length.
  rewrite (map_ext _ (fun _ => length (moore_ball d (Z.of_nat r)))) by (intros; apply map_length).
  rewrite list_sum_const, zrange_length, Nat2Z.inj_mul, IH. f_equal. lia.
Qed.

(** ** Von Neumann *)

Fixpoint vn_ball (d : nat) (r : Z) : list (list Z) :=
  match d with O => [[]] | S d' => flat_map (fun x => map (cons x) (vn_ball d' (r - Z.abs x))) (zrange (- r) (r + 1)) end.

Lemma vn_ball_nodup d : forall r, NoDup (vn_ball d r).
Proof.
  induction d as [|d IH]; intros r; cbn [vn_ball]; [repeat constructor; intros []|].
  apply (nodup_fibres (fun x => vn_ball d (r - Z.abs x))); [apply zrange_nodup|auto].
Qed.

Lemma vn_ball_in d : forall r c, 0 <= r -> In c (vn_ball d r) <-> length c = d /\ manhattan c <= r.
Proof.
  induction d as [|d IH]; intros r c Hr; cbn [vn_ball].
  - destruct c as [|x c]; cbn; [tauto|]. split; [intros [H|[]]; discriminate|lia].
  - rewrite in_flat_map. split.
    + intros (x & Hx & Hc). apply in_map_iff in Hc. destruct Hc as (c' & <- & Hc). apply zrange_in in Hx. apply IH in Hc; [|lia]. cbn. fold (manhattan c'). lia.
    + destruct c as [|x c]; cbn; [lia|]. fold (manhattan c). intros [Hl Hc]. pose proof (manhattan_nonneg c). exists x. rewrite zrange_in. split; [lia|].
      apply in_map, IH; lia.
Qed.

Lemma sym_sum (g : Z -> nat) m : (forall x, g (- x) = g x) ->
  Z.of_nat (list_sum (map g (zrange (- Z.of_nat m) (Z.of_nat m + 1)))) = 2 * sum_to (fun k => Z.of_nat (g (Z.of_nat k))) m - Z.of_nat (g 0).
Proof.
  intros Hg. induction m as [|m IH].
  - replace (zrange _ _) with [0] by reflexivity. cbn [map sum_to list_sum fold_right]. rewrite Nat.add_0_r. change (Z.of_nat 0) with 0. lia.
  - rewrite (zrange_cons (- Z.of_nat (S m)) (Z.of_nat (S m) + 1)) by lia.
    rewrite (zrange_app (- Z.of_nat (S m) + 1) (Z.of_nat m + 1) (Z.of_nat (S m) + 1)) by lia.
    rewrite (zrange_cons (Z.of_nat m + 1) (Z.of_nat (S m) + 1)) by lia. rewrite (zrange_nil (Z.of_nat m + 1 + 1)) by lia.
    replace (- Z.of_nat (S m) + 1) with (- Z.of_nat m) by lia. cbn [map]. rewrite map_app. cbn [map].
    assert (E : forall a l, list_sum (a :: l) = (a + list_sum l)%nat) by reflexivity.
    rewrite E, list_sum_app, E. rewrite Hg. replace (Z.of_nat m + 1) with (Z.of_nat (S m)) in * by lia.
    change (list_sum []) with O. cbn [sum_to]. lia.
Qed.

Lemma sum_to_ext f g n : (forall k, (k <= n)%nat -> f k = g k) -> sum_to f n = sum_to g n.
Proof. induction n as [|n IH]; cbn; intros H; [apply H; lia|]. rewrite IH by (intros; apply H; lia). rewrite H by lia. reflexivity. Qed.

Lemma sum_to_first f n : sum_to f (S n) = f O + sum_to (fun k => f (S k)) n.
Proof. induction n as [|n IH]; [reflexivity|]. change (sum_to f (S (S n))) with (sum_to f (S n) + f (S (S n))). rewrite IH. cbn [sum_to]. lia. Qed.

Lemma sum_to_rev f n : sum_to (fun k => f (n - k)%nat) n = sum_to f n.
Proof.
  induction n as [|n IH]; [reflexivity|]. rewrite sum_to_first. cbn [sum_to]. replace (S n - 0)%nat with (S n) by lia.
  rewrite <- IH. rewrite (sum_to_ext (fun k => f (S n - S k)%nat) (fun k => f (n - k)%nat)) by (intros; f_equal; lia). lia.
Qed.

Lemma vn_ball_length d : forall r, Z.of_nat (length (vn_ball d (Z.of_nat r))) = vn_volume d r.
Proof.
  induction d as [|d IH]; intros r; [reflexivity|]. cbn [vn_ball vn_volume]. rewrite flat_map_length.
  rewrite (map_ext _ (fun x => length (vn_ball d (Z.of_nat r - Z.abs x)))) by (intros; apply map_length).
  rewrite sym_sum by (intros; f_equal; f_equal; lia). rewrite (sum_to_ext _ (fun k => vn_volume d (r - k)%nat)).
  2: { intros k Hk. rewrite <- IH. f_equal. f_equal. f_equal. lia. }
  rewrite (sum_to_rev (vn_volume d)). replace (Z.of_nat r - Z.abs 0) with (Z.of_nat r) by lia. rewrite IH. lia.
Qed.

(** ** Cross *)

Fixpoint cross_list (d : nat) (r : Z) : list (list Z) :=
  match d with
  | O => [[]]
  | S d' => map (cons 0) (cross_list d' r) ++ map (fun x => x :: repeat 0 d') (zrange (- r) 0 ++ zrange 1 (r + 1))
  end.

Lemma cross_list_in d r : 0 <= r -> forall c, In c (cross_list d r) <-> length c = d /\ in_shape Cross r c.
Proof.
  intros Hr. unfold in_shape. induction d as [|d IH]; intros c; cbn [cross_list].
  - destruct c as [|x c]; cbn; [tauto|]. split; [intros [H|[]]; discriminate|lia].
  - rewrite in_app_iff, !in_map_iff. split.
    + intros [(c' & <- & H)|(x & <- & H)].
      * apply IH in H. cbn. fold (manhattan c') (chebyshev c'). pose proof (chebyshev_nonneg c'). lia.
      * rewrite in_app_iff, !zrange_in in H. cbn. rewrite repeat_length. fold (manhattan (repeat 0 d)) (chebyshev (repeat 0 d)).
        rewrite manhattan_zeros, chebyshev_zeros. lia.
    + destruct c as [|x c]; cbn; [lia|]. fold (manhattan c) (chebyshev c). intros (Hl & He & Hm).
      pose proof (cheb_le_manh c). pose proof (chebyshev_nonneg c). destruct (Z.eq_dec x 0) as [->|Hx].
      * left. exists c. split; [reflexivity|]. apply IH. lia.
      * right. exists x. rewrite in_app_iff, !zrange_in. split; [|lia]. f_equal. replace d with (length c) by lia. symmetry. apply manhattan_zero. lia.
Qed.

Lemma cross_list_nodup d r : NoDup (cross_list d r).
Proof.
  induction d as [|d IH]; cbn [cross_list]; [repeat constructor; intros []|]. apply nodup_app; [apply nodup_cons_map, IH| |].
  - apply FinFun.Injective_map_NoDup; [intros a b E; now injection E|]. apply nodup_app; [apply zrange_nodup..|].
    intros x. rewrite !zrange_in. lia.
  - intros c H1 H2. apply in_map_iff in H1, H2. destruct H1 as (a & <- & _), H2 as (x & E & Hx). injection E as -> _.
    rewrite in_app_iff, !zrange_in in Hx. lia.
Qed.

Lemma cross_list_length d r : Z.of_nat (length (cross_list d (Z.of_nat r))) = cross_volume d r.
Proof.
  unfold cross_volume. induction d as [|d IH]; cbn [cross_list]; [cbn [length]; lia|].
  rewrite app_length, !map_length, app_length, !zrange_length. lia.
Qed.

(** ** Offsets *)

Lemma vn_volume_1 r : vn_volume 1 r = 2 * Z.of_nat r + 1.
Proof. cbn [vn_volume]. assert (E : sum_to (fun _ : nat => 1) r = Z.of_nat r + 1) by (induction r as [|r IH]; cbn [sum_to]; lia). change (sum_to (vn_volume 0) r) with (sum_to (fun _ => 1) r). lia. Qed.

Lemma sum_volume_1 r : sum_to (vn_volume 1) r = (Z.of_nat r + 1) * (Z.of_nat r + 1).
Proof. induction r as [|r IH]; [reflexivity|]. cbn [sum_to]. rewrite IH, vn_volume_1. nia. Qed.

Lemma vn_volume_2 r : vn_volume 2 r = 2 * (Z.of_nat r * Z.of_nat r) + 2 * Z.of_nat r + 1.
Proof. change (vn_volume 2 r) with (vn_volume 1 r + 2 * sum_to (vn_volume 1) r - 2 * vn_volume 1 r). rewrite sum_volume_1, vn_volume_1. nia. Qed.

Lemma vn_half_1 r : vn_half 1 r = Z.of_nat r * Z.of_nat r + Z.of_nat r + 1.
Proof.
  unfold vn_half. rewrite sum_volume_1, vn_volume_1. replace ((2 * Z.of_nat r + 1 - 1) / 2) with (Z.of_nat r); [nia|].
  replace (2 * Z.of_nat r + 1 - 1) with (Z.of_nat r * 2) by lia. rewrite Z.div_mul by lia. reflexivity.
Qed.

(** The distance of the centre of row [y] from the one of row 0. *)
Definition row_delta (r y : Z) : Z := y * (2 * r + 1 - Z.abs y).

Lemma vn_delta_2 r y : Z.abs y <= Z.of_nat r -> -8 <= y -> vn_delta 2 r y = Some (row_delta (Z.of_nat r) y).
Proof.
  intros H1 H2. unfold vn_delta, row_delta.
  assert (Hp : forall y, 0 <= y <= Z.of_nat r -> vn_delta_pos 2 r y = Some (y * (2 * Z.of_nat r + 1 - y))).
  { intros u Hu. unfold vn_delta_pos. destruct (Z.ltb_spec (Z.of_nat r - u) 0); [lia|]. change (2 - 1)%nat with 1%nat. rewrite !vn_half_1.
    f_equal. rewrite Z2Nat.id by lia. ring. }
  destruct (Z.leb_spec (-8) y); [cbn [andb]|lia]. destruct (Z.leb_spec y (-1)).
  - rewrite Hp by lia. cbn [option_map]. f_equal. rewrite Z.abs_neq by lia. ring.
  - rewrite Hp by lia. f_equal. rewrite Z.abs_eq by lia. reflexivity.
Qed.

Lemma vn_delta_3_0 r : vn_delta 3 r 0 = Some 0.
Proof. unfold vn_delta, vn_delta_pos. cbn [Z.leb andb]. destruct (Z.ltb_spec (Z.of_nat r - 0) 0); [lia|]. replace (Z.to_nat (Z.of_nat r - 0)) with r by lia. cbn. f_equal. lia. Qed.

Lemma row_delta_step r y : Z.abs y <= r -> Z.abs (y + 1) <= r ->
  row_delta r (y + 1) - row_delta r y = (r - Z.abs y) + (r - Z.abs (y + 1)) + 1.
Proof. intros H1 H2. unfold row_delta. destruct (Z.abs_spec y) as [[? E1]|[? E1]], (Z.abs_spec (y + 1)) as [[? E2]|[? E2]]; rewrite E1, E2 in *; nia. Qed.

Lemma row_delta_later r y y' : y < y' -> Z.abs y <= r -> Z.abs y' <= r ->
  row_delta r y + (r - Z.abs y) < row_delta r y' - (r - Z.abs y').
Proof.
  intros Hlt H1 H2. assert (E : exists n, y' = y + 1 + Z.of_nat n) by (exists (Z.to_nat (y' - y - 1)); lia). destruct E as (n & ->).
  induction n as [|n IH].
  - replace (y + 1 + Z.of_nat 0) with (y + 1) in * by lia. pose proof (row_delta_step r y). lia.
  - pose proof (row_delta_step r (y + 1 + Z.of_nat n)) as Hs. replace (y + 1 + Z.of_nat n + 1) with (y + 1 + Z.of_nat (S n)) in Hs by lia.
    assert (Z.abs (y + 1 + Z.of_nat n) <= r) by lia. specialize (IH ltac:(lia) ltac:(lia)). lia.
Qed.

Lemma row_delta_bounds r y : Z.abs y <= r ->
  - (r * r + r) <= row_delta r y - (r - Z.abs y) /\ row_delta r y + (r - Z.abs y) <= r * r + r.
Proof. intros H. unfold row_delta. destruct (Z.abs_spec y) as [[? E1]|[? E1]]; rewrite E1 in *; nia. Qed.
