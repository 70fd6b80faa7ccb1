(** Facts on lines, cut points and bounded polygons. *)
From Coq Require Import ZArith QArith Qround Qminmax Qabs List Bool Lia.
From Verif Require Import Base ParamModel PolytopeModel.
From Coq Require Import Lqa.
Import ListNotations.
Open Scope Q_scope.

Definition peq (a b : point) : Prop := fst a == fst b /\ snd a == snd b.

(** Positive above the plane. *)
Definition val (e : plane) (c : point) : Q := dot (psub c (e_base e)) (e_dir e).
Definition norm2 (e : plane) : Q := dot (e_dir e) (e_dir e).
Definition cross (e f : plane) : Q := dot (e_dir f) (turn_left (e_dir e)).

(** The point on the way from [p] to [x]. *)
Definition at_ (p x : point) (s : Q) : point := (fst p + s * (fst x - fst p), snd p + s * (snd x - snd p)).

Ltac unp := unfold val, norm2, cross, distance, at_, dot, psub, padd, pscale, turn_left in *; cbn [fst snd] in *.

Lemma peqb_spec a b : peqb a b = true <-> peq a b.
Proof. unfold peqb, peq. now rewrite andb_true_iff, !Qeq_bool_iff. Qed.

Lemma peq_refl a : peq a a.
Proof. split; reflexivity. Qed.
Lemma peq_sym a b : peq a b -> peq b a.
Proof. intros [H1 H2]. split; now symmetry. Qed.
Lemma peq_trans a b c : peq a b -> peq b c -> peq a c.
Proof. intros [H1 H2] [H3 H4]. split; etransitivity; eauto. Qed.

Lemma lt_b_spec a b : lt_b a b = true <-> a < b.
Proof. unfold lt_b. rewrite negb_true_iff, <- not_true_iff_false, Qle_bool_iff. split; intros H; [now apply Qnot_le_lt|now apply Qlt_not_le]. Qed.

Lemma lt_b_false a b : lt_b a b = false <-> b <= a.
Proof. unfold lt_b. now rewrite negb_false_iff, Qle_bool_iff. Qed.

Lemma val_ext e a b : peq a b -> val e a == val e b.
Proof. intros [H1 H2]. unp. now rewrite H1, H2. Qed.

Lemma distance_ext e a b : peq a b -> distance e a == distance e b.
Proof. intros [H1 H2]. unp. now rewrite H1, H2. Qed.

Lemma val_at e p x s : val e (at_ p x s) == (1 - s) * val e p + s * val e x.
Proof. unp. ring. Qed.

(** ** Points on a line *)

Lemma along e f p q : val e p == 0 -> val e q == 0 -> (val f p - val f q) * norm2 e == (distance e p - distance e q) * cross e f.
Proof.
  destruct e as [[bx by_] [a b] i l], f as [[fx fy] [c d] i' l'], p as [px py], q as [qx qy]. intros H1 H2. unp. cbn [e_base e_dir fst snd] in *.
  assert (K : (px - qx) * a + (py - qy) * b == 0) by lra.
  assert (E : ((px - fx) * c + (py - fy) * d - ((qx - fx) * c + (qy - fy) * d)) * (a * a + b * b) - ((px - bx) * b + (py - by_) * - a - ((qx - bx) * b + (qy - by_) * - a)) * (c * b + d * - a)
    == (c * a + d * b) * ((px - qx) * a + (py - qy) * b)) by ring.
  rewrite K in E. lra.
Qed.

Lemma norm_pos e : ~ norm2 e == 0 -> 0 < norm2 e.
Proof. intros H. unp. destruct e as [b [x y] i l]. cbn [e_dir fst snd] in *. assert (0 <= x * x) by nra. assert (0 <= y * y) by nra. destruct (Qlt_le_dec 0 (x * x + y * y)); [assumption|]. exfalso. apply H. lra. Qed.

Lemma norm_val e c : ~ val e c == 0 -> 0 < norm2 e.
Proof.
  intros H. apply norm_pos. intros K. apply H. clear H. unp. destruct e as [[bx by_] [x y] i l]. cbn [e_base e_dir fst snd] in *.
  assert (Hx : x * x == 0) by nra. assert (Hy : y * y == 0) by nra. assert (x == 0) as -> by (destruct (Qmult_integral _ _ Hx); assumption).
  assert (y == 0) as -> by (destruct (Qmult_integral _ _ Hy); assumption). ring.
Qed.

Lemma same_place e p q : 0 < norm2 e -> val e p == 0 -> val e q == 0 -> distance e p == distance e q -> peq p q.
Proof.
  intros N H1 H2 H3. destruct e as [[bx by_] [a b] i l], p as [px py], q as [qx qy]. unp. cbn [e_base e_dir fst snd] in *.
  assert (K1 : (px - qx) * a + (py - qy) * b == 0) by lra. assert (K2 : (px - qx) * b - (py - qy) * a == 0) by lra.
  assert (E1 : (px - qx) * (a * a + b * b) == a * ((px - qx) * a + (py - qy) * b) + b * ((px - qx) * b - (py - qy) * a)) by ring.
  assert (E2 : (py - qy) * (a * a + b * b) == b * ((px - qx) * a + (py - qy) * b) - a * ((px - qx) * b - (py - qy) * a)) by ring.
  rewrite K1, K2 in E1, E2.
  split; cbn [fst snd].
  - assert (X : (px - qx) * (a * a + b * b) == 0) by (rewrite E1; ring). destruct (Qmult_integral _ _ X) as [Y|Y]; lra.
  - assert (X : (py - qy) * (a * a + b * b) == 0) by (rewrite E2; ring). destruct (Qmult_integral _ _ X) as [Y|Y]; lra.
Qed.

(** Values in between. *)
Lemma between_le e f l r y : 0 < norm2 e -> val e l == 0 -> val e r == 0 -> val e y == 0 -> distance e r <= distance e y <= distance e l ->
  forall b, val f l <= b -> val f r <= b -> val f y <= b.
Proof.
  intros N Hl Hr Hy [D1 D2] b Bl Br. pose proof (along e f y r Hy Hr) as A1. pose proof (along e f l y Hl Hy) as A2. destruct (Qlt_le_dec (cross e f) 0) as [C|C].
  - assert (X : (val f y - val f r) * norm2 e <= 0) by (rewrite A1; nra). assert (val f y - val f r <= 0) by nra. lra.
  - assert (X : 0 <= (val f l - val f y) * norm2 e) by (rewrite A2; nra). assert (0 <= val f l - val f y) by nra. lra.
Qed.

Lemma between_ge e f l r y : 0 < norm2 e -> val e l == 0 -> val e r == 0 -> val e y == 0 -> distance e r <= distance e y <= distance e l ->
  val f l <= val f y \/ val f r <= val f y.
Proof.
  intros N Hl Hr Hy [D1 D2]. pose proof (along e f y r Hy Hr) as A1. pose proof (along e f l y Hl Hy) as A2. destruct (Qlt_le_dec (cross e f) 0) as [C|C].
  - left. assert (X : (val f l - val f y) * norm2 e <= 0) by (rewrite A2; nra). assert (val f l - val f y <= 0) by nra. lra.
  - right. assert (X : 0 <= (val f y - val f r) * norm2 e) by (rewrite A1; nra). assert (0 <= val f y - val f r) by nra. lra.
Qed.

(** ** Cutting lines *)

Lemma mult_nz a b : ~ a == 0 -> ~ b == 0 -> ~ a * b == 0.
Proof. intros H1 H2 H. destruct (Qmult_integral _ _ H); contradiction. Qed.

Definition slope (e : plane) : Q := snd (turn_left (e_dir e)) / fst (turn_left (e_dir e)).
Definition offset (e : plane) : Q := snd (e_base e) - slope e * fst (e_base e).

Lemma line_eq e c : ~ snd (e_dir e) == 0 -> (val e c == 0 <-> snd c == slope e * fst c + offset e).
Proof.
  intros H. destruct e as [[bx by_] [a b] i l], c as [x y]. unfold offset, slope. unp. cbn [e_base e_dir fst snd] in *. split; intros E.
  - assert (K : y - by_ == - a / b * (x - bx)).
    { apply (Qmult_inj_r _ _ b); [exact H|]. transitivity (- (a * (x - bx))); [lra|field; exact H]. }
    assert (y == by_ + - a / b * (x - bx)) as -> by lra. ring.
  - rewrite E. field. exact H.
Qed.

Lemma cut_lines_on dim e1 e2 : ~ snd (e_dir e1) == 0 -> peq (cut_lines dim e1 e2) far_away \/ val e1 (cut_lines dim e1 e2) == 0 /\ val e2 (cut_lines dim e1 e2) == 0.
Proof.
  intros H. unfold cut_lines. fold (slope e1) (slope e2). fold (offset e1) (offset e2). cbv zeta. destruct (Qeq_bool (snd (e_dir e2)) 0) eqn:E2.
  - right. split.
    + apply line_eq; [exact H|]. cbn [fst snd]. ring.
    + apply Qeq_bool_iff in E2. unp. rewrite E2. ring.
  - apply Qeq_bool_neq in E2. destruct (Qeq_bool (slope e1) (slope e2)) eqn:Em; [left; apply peq_refl|]. apply Qeq_bool_neq in Em.
    destruct (_ || _ || _ || _); [left; apply peq_refl|]. right. assert (Hm : ~ slope e1 - slope e2 == 0) by (intros K; apply Em; lra). split; apply line_eq; auto; cbn [fst snd].
    + ring.
    + set (m1 := slope e1) in *. set (m2 := slope e2) in *. field. exact Hm.
Qed.

Lemma cut_point_on dim e1 e2 : peq (cut_point dim e1 e2) far_away \/ val e1 (cut_point dim e1 e2) == 0 /\ val e2 (cut_point dim e1 e2) == 0.
Proof.
  unfold cut_point. destruct (Qeq_bool (snd (e_dir e1)) 0) eqn:E1.
  - destruct (Qeq_bool (snd (e_dir e2)) 0) eqn:E2; [left; apply peq_refl|]. apply Qeq_bool_neq in E2. destruct (cut_lines_on dim e2 e1 E2) as [H|[H1 H2]]; [now left|right; now split].
  - apply Qeq_bool_neq in E1. now apply cut_lines_on.
Qed.

Definition in_box (dim c : point) : Prop := (0 <= fst c <= fst dim) /\ (0 <= snd c <= snd dim).

Lemma cross_slopes e1 e2 : ~ snd (e_dir e1) == 0 -> ~ snd (e_dir e2) == 0 -> (slope e1 == slope e2 <-> cross e1 e2 == 0).
Proof.
  intros H1 H2. unfold slope. unp. destruct e1 as [b1 [a b] i1 l1], e2 as [b2 [c d] i2 l2]. cbn [e_dir fst snd] in *.
  assert (E : (c * b + d * - a) == (- a / b - - c / d) * (b * d)) by (field; split; assumption).
  rewrite E. split; intros K.
  - rewrite K. ring.
  - destruct (Qmult_integral _ _ K) as [X|X]; [lra|]. destruct (mult_nz b d H1 H2 X).
Qed.

Lemma cut_lines_found dim e1 e2 z : ~ snd (e_dir e1) == 0 -> ~ cross e1 e2 == 0 -> val e1 z == 0 -> val e2 z == 0 -> in_box dim z -> peq (cut_lines dim e1 e2) z.
Proof.
  intros H C V1 V2 ([B1 B2] & B3 & B4). unfold cut_lines. fold (slope e1) (slope e2). fold (offset e1) (offset e2). cbv zeta. pose proof (proj1 (line_eq e1 z H) V1) as Y1.
  destruct (Qeq_bool (snd (e_dir e2)) 0) eqn:E2.
  - apply Qeq_bool_iff in E2. assert (Hx : fst z == fst (e_base e2)).
    { clear -C V2 E2. unp. rewrite E2 in *. assert (K : (fst z - fst (e_base e2)) * fst (e_dir e2) == 0) by lra. destruct (Qmult_integral _ _ K) as [X|X]; [lra|]. exfalso. apply C. rewrite X. ring. }
    split; cbn [fst snd]; [now symmetry|]. rewrite Y1, <- Hx. ring.
  - apply Qeq_bool_neq in E2. destruct (Qeq_bool (slope e1) (slope e2)) eqn:Em; [apply Qeq_bool_iff in Em; apply (cross_slopes e1 e2 H E2) in Em; contradiction|]. apply Qeq_bool_neq in Em.
    pose proof (proj1 (line_eq e2 z E2) V2) as Y2. assert (Hm : ~ slope e1 - slope e2 == 0) by (intros K; apply Em; lra).
    assert (X : (offset e2 - offset e1) / (slope e1 - slope e2) == fst z).
    { apply (Qmult_inj_r _ _ (slope e1 - slope e2)); [exact Hm|]. transitivity (offset e2 - offset e1); [field; exact Hm|]. assert (slope e1 * fst z + offset e1 == slope e2 * fst z + offset e2) by (now rewrite <- Y1, <- Y2). lra. }
    assert (Y : offset e1 + (offset e2 - offset e1) / (slope e1 - slope e2) * slope e1 == snd z) by (rewrite X, Y1; ring).
    set (x := (offset e2 - offset e1) / (slope e1 - slope e2)) in *. set (y := offset e1 + x * slope e1) in *.
    assert (lt_b x (-10 * fst dim) = false) as -> by (apply lt_b_false; rewrite X; lra). assert (lt_b (10 * fst dim) x = false) as -> by (apply lt_b_false; rewrite X; lra).
    assert (lt_b y (-10 * snd dim) = false) as -> by (apply lt_b_false; rewrite Y; lra). assert (lt_b (10 * snd dim) y = false) as -> by (apply lt_b_false; rewrite Y; lra).
    cbn [orb]. split; assumption.
Qed.

Lemma cross_flip e f : cross e f == - cross f e.
Proof. unp. ring. Qed.

Lemma cut_found dim e1 e2 z : ~ cross e1 e2 == 0 -> val e1 z == 0 -> val e2 z == 0 -> in_box dim z -> peq (cut_point dim e1 e2) z.
Proof.
  intros C V1 V2 B. unfold cut_point. destruct (Qeq_bool (snd (e_dir e1)) 0) eqn:E1.
  - destruct (Qeq_bool (snd (e_dir e2)) 0) eqn:E2.
    + exfalso. apply C. apply Qeq_bool_iff in E1, E2. unp. rewrite E1, E2. ring.
    + apply Qeq_bool_neq in E2. apply cut_lines_found; auto. intros K. apply C. rewrite cross_flip, K. reflexivity.
  - apply Qeq_bool_neq in E1. now apply cut_lines_found.
Qed.

Lemma cut_parallel dim e1 e2 : 0 < norm2 e1 -> 0 < norm2 e2 -> cross e1 e2 == 0 -> peq (cut_point dim e1 e2) far_away.
Proof.
  intros N1 N2 C. unfold cut_point. destruct (Qeq_bool (snd (e_dir e1)) 0) eqn:E1; destruct (Qeq_bool (snd (e_dir e2)) 0) eqn:E2; try apply peq_refl.
  - exfalso. apply Qeq_bool_iff in E1. apply Qeq_bool_neq in E2. unp. rewrite E1 in C, N1. assert (K : snd (e_dir e2) * fst (e_dir e1) == 0) by lra. destruct (Qmult_integral _ _ K) as [X|X]; [contradiction|]. rewrite X in N1. lra.
  - exfalso. apply Qeq_bool_iff in E2. apply Qeq_bool_neq in E1. unp. rewrite E2 in C, N2. assert (K : fst (e_dir e2) * snd (e_dir e1) == 0) by lra. destruct (Qmult_integral _ _ K) as [X|X]; [|contradiction]. rewrite X in N2. lra.
  - apply Qeq_bool_neq in E1. pose proof E2 as E2'. apply Qeq_bool_neq in E2. unfold cut_lines. cbv zeta. fold (slope e1) (slope e2). fold (offset e1) (offset e2). rewrite E2'.
    assert (Qeq_bool (slope e1) (slope e2) = true) as ->; [|apply peq_refl]. apply Qeq_bool_iff. now apply cross_slopes.
Qed.

(** ** Polygons *)

Definition inside (L : list plane) (x : point) : Prop := forall e, In e L -> 0 < val e x.
Definition closed (L : list plane) (x : point) : Prop := forall e, In e L -> 0 <= val e x.

Lemma closed_ext L a b : peq a b -> closed L a -> closed L b.
Proof. intros E H e He. rewrite <- (val_ext e a b E). now apply H. Qed.

(** Leaving a polygon. *)
Lemma first_exit L p x : closed L p -> closed L x \/ exists s f, 0 <= s <= 1 /\ In f L /\ val f (at_ p x s) == 0 /\ val f x < 0 /\ closed L (at_ p x s).
Proof.
  induction L as [|a L IH]; intros H; [left; intros e []|]. assert (Ha : 0 <= val a p) by (apply H; now left).
  destruct IH as [C|(s & f & [S0 S1] & Hf & Vf & Vx & C)]; [intros e He; apply H; now right| |].
  - destruct (Qlt_le_dec (val a x) 0) as [N|N].
    + right. set (s := val a p / (val a p - val a x)). assert (D : 0 < val a p - val a x) by lra. assert (D' : ~ val a p - val a x == 0) by lra.
      assert (Hs : s * (val a p - val a x) == val a p) by (unfold s; field; exact D'). assert (0 <= s <= 1) by (split; nra). exists s, a. split; [assumption|]. split; [now left|].
      assert (V0 : val a (at_ p x s) == 0) by (rewrite val_at; lra). split; [exact V0|]. split; [exact N|]. intros e [<-|He]; [rewrite V0; apply Qle_refl|].
      rewrite val_at. assert (0 <= val e p) by (apply H; now right). pose proof (C e He). nra.
    + left. intros e [<-|He]; [exact N|now apply C].
  - right. destruct (Qlt_le_dec (val a (at_ p x s)) 0) as [N|N].
    + set (y := at_ p x s) in *. set (t := val a p / (val a p - val a y)). assert (D : 0 < val a p - val a y) by lra. assert (D' : ~ val a p - val a y == 0) by lra.
      assert (Ht : t * (val a p - val a y) == val a p) by (unfold t; field; exact D'). assert (T : 0 <= t <= 1) by (split; nra).
      assert (Ey : forall e, val e (at_ p x (t * s)) == (1 - t) * val e p + t * val e y) by (intros e; unfold y; rewrite !val_at; ring).
      exists (t * s), a. split; [split; nra|]. split; [now left|]. assert (V0 : val a (at_ p x (t * s)) == 0) by (rewrite Ey; lra). split; [exact V0|]. split.
      * assert (Ey' : val a y == (1 - s) * val a p + s * val a x) by (unfold y; apply val_at). destruct (Qlt_le_dec (val a x) 0); [assumption|]. exfalso. nra.
      * intros e [<-|He]; [rewrite V0; apply Qle_refl|]. rewrite Ey. assert (0 <= val e p) by (apply H; now right). pose proof (C e He). nra.
    + exists s, f. split; [now split|]. split; [now right|]. split; [exact Vf|]. split; [exact Vx|]. intros e [<-|He]; [exact N|now apply C].
Qed.

Lemma at_one p x : peq (at_ p x 1) x.
Proof. unfold at_. split; cbn [fst snd]; ring. Qed.

(** From a point inside of the polygon. *)
Lemma exit_inside L p x : inside L p -> ~ inside L x -> exists s f, 0 < s <= 1 /\ In f L /\ val f (at_ p x s) == 0 /\ closed L (at_ p x s).
Proof.
  intros Hp Hx. assert (Cp : closed L p) by (intros e He; apply Qlt_le_weak, Hp, He). destruct (first_exit L p x Cp) as [C|(s & f & [S0 S1] & Hf & Vf & Vx & C)].
  - assert (Z : exists f, In f L /\ val f x == 0).
    { clear Hp Cp. induction L as [|a L IH]; [exfalso; apply Hx; intros e []|]. destruct (Qlt_le_dec 0 (val a x)) as [A|A].
      - destruct IH as (f & Hf & V); [intros K; apply Hx; intros e [<-|He]; [exact A|now apply K]|intros e He; apply C; now right|]. exists f. split; [now right|exact V].
      - exists a. split; [now left|]. assert (0 <= val a x) by (apply C; now left). lra. }
    destruct Z as (f & Hf & V). exists 1, f. split; [lra|]. split; [exact Hf|]. split; [now rewrite (val_ext f _ _ (at_one p x))|]. eapply closed_ext; [apply peq_sym, at_one|exact C].
  - exists s, f. split; [|split; [exact Hf|split; [exact Vf|exact C]]]. split; [|exact S1]. destruct (Qlt_le_dec 0 s); [assumption|]. exfalso. rewrite val_at in Vf. pose proof (Hp f Hf). nra.
Qed.

Lemma closed_of_inside L p e z : inside L p -> (forall x, inside L x -> 0 < val e x) -> closed L z -> 0 <= val e z.
Proof.
  intros Hp He Hz. destruct (Qlt_le_dec (val e z) 0) as [N|N]; [|exact N]. exfalso. pose proof (He p Hp) as Vp. set (s := val e p / (val e p - val e z)).
  assert (D' : ~ val e p - val e z == 0) by lra. assert (Hs : s * (val e p - val e z) == val e p) by (unfold s; field; exact D'). assert (0 < s < 1) by (split; nra).
  assert (I : inside L (at_ p z s)) by (intros f Hf; rewrite val_at; pose proof (Hp f Hf); pose proof (Hz f Hf); nra).
  apply He in I. rewrite val_at in I. lra.
Qed.

(** ** Cut points *)

Definition best (key : point -> Q) (old cut : point) : point := if (peqb old far_away || lt_b (key cut) (key old)) && negb (peqb cut far_away) then cut else old.

Lemma best_fold key cs : forall a, (peqb a far_away = true -> a = far_away) ->
  let r := fold_left (best key) cs a in
  (peqb r far_away = true /\ r = a /\ forall c, In c cs -> peqb c far_away = true) \/
  (peqb r far_away = false /\ (r = a \/ In r cs) /\ (peqb a far_away = false -> key r <= key a) /\ forall c, In c cs -> peqb c far_away = false -> key r <= key c).
Proof.
  induction cs as [|c cs IH]; intros a Ha; cbn [fold_left].
  - cbv zeta. destruct (peqb a far_away) eqn:E.
    + left. split; [reflexivity|]. split; [reflexivity|]. intros ? [].
    + right. split; [reflexivity|]. split; [now left|]. split; [intros; apply Qle_refl|intros ? []].
  - cbv zeta. destruct (peqb c far_away) eqn:Ec.
    + assert (best key a c = a) as -> by (unfold best; now rewrite Ec, andb_false_r). destruct (IH a Ha) as [(H1 & H2 & H3)|(H1 & H2 & H3 & H4)]; cbv zeta in *.
      * left. split; [exact H1|]. split; [exact H2|]. intros x [<-|Hx]; [exact Ec|now apply H3].
      * right. split; [exact H1|]. split; [destruct H2; [now left|right; now right]|]. split; [exact H3|]. intros x [<-|Hx] E; [congruence|now apply H4].
    + destruct (peqb a far_away || lt_b (key c) (key a)) eqn:Ef.
      * assert (best key a c = c) as -> by (unfold best; now rewrite Ec, Ef). destruct (IH c) as [(H1 & H2 & _)|(H1 & H2 & H3 & H4)]; [congruence|cbv zeta in *; rewrite H2 in H1; congruence|]. cbv zeta in *. right. split; [exact H1|]. split; [right; destruct H2 as [->|H2]; [now left|now right]|].
        specialize (H3 Ec). split.
        -- intros Ea. rewrite Ea in Ef. cbn [orb] in Ef. apply lt_b_spec in Ef. lra.
        -- intros x [<-|Hx] E; [exact H3|now apply H4].
      * assert (best key a c = a) as -> by (unfold best; now rewrite Ec, Ef). apply orb_false_iff in Ef. destruct Ef as [Ea El]. apply lt_b_false in El. destruct (IH a Ha) as [(H1 & H2 & _)|(H1 & H2 & H3 & H4)]; cbv zeta in *; [rewrite H2 in H1; congruence|].
        right. split; [exact H1|]. split; [destruct H2; [now left|right; now right]|]. split; [exact H3|]. specialize (H3 Ea). intros x [<-|Hx] E; [lra|now apply H4].
Qed.

Lemma numbered_nth {A} (l : list A) i x : In (i, x) (numbered l) <-> nth_error l i = Some x.
Proof.
  unfold numbered. assert (G : forall k, In (i, x) (combine (seq k (length l)) l) <-> (k <= i)%nat /\ nth_error l (i - k) = Some x).
  { induction l as [|a l IH]; intros k; cbn.
    - split; [intros []|]. intros [_ H]. destruct (i - k)%nat; discriminate.
    - split.
      + intros [E|H].
        * assert (k = i /\ a = x) as [-> ->] by (split; congruence). split; [lia|]. now rewrite Nat.sub_diag.
        * apply (IH (S k)) in H. destruct H as [H1 H2]. split; [lia|]. replace (i - k)%nat with (S (i - S k)) by lia. exact H2.
      + intros [H1 H2]. destruct (Nat.eq_dec k i) as [->|N]; [left; rewrite Nat.sub_diag in H2; cbn in H2; congruence|]. right. apply (IH (S k)). split; [lia|].
        replace (i - k)%nat with (S (i - S k)) in H2 by lia. exact H2. }
  rewrite (G 0%nat), Nat.sub_0_r. split; [tauto|]. intros H. split; [lia|exact H].
Qed.

(** The candidates for both ends. *)
Definition goes_right (e f : plane) : bool := lt_b 0 (dot (e_dir f) (turn_left (e_dir e))).
Definition others (i : nat) (es : list (nat * plane)) (sel : plane -> bool) : list plane := map snd (filter (fun jf => negb (i =? fst jf)%nat && sel (snd jf)) es).

Lemma cuts_split dim i e es : forall l r, fold_left (cut_step dim i e) es (l, r) =
  (fold_left (best (distance e)) (map (cut_point dim e) (others i es (fun f => negb (goes_right e f)))) l,
   fold_left (cut_right e) (map (cut_point dim e) (others i es (goes_right e))) r).
Proof.
  induction es as [|[j f] es IH]; intros l r; [reflexivity|]. cbn [fold_left]. unfold others in *. cbn [filter fst snd]. unfold cut_step at 2. destruct (i =? j)%nat; cbn [negb andb]; [apply IH|].
  fold (goes_right e f). destruct (goes_right e f); cbn [negb map fold_left fst snd]; rewrite IH; reflexivity.
Qed.

Lemma right_best e cs : forall a, fold_left (cut_right e) cs a = fold_left (best (fun c => - distance e c)) cs a.
Proof.
  induction cs as [|c cs IH]; intros a; [reflexivity|]. cbn [fold_left]. rewrite IH. f_equal. unfold cut_right, best. cbv zeta.
  assert (lt_b (distance e a) (distance e c) = lt_b (- distance e c) (- distance e a)) as ->; [|reflexivity]. apply eq_true_iff_eq. rewrite !lt_b_spec. split; intros; lra.
Qed.

Section Polygon.
Context (dim p : point) (L : list plane).
Hypothesis Hp : inside L p.
Hypothesis Hbox : forall x, closed L x -> in_box dim x.

Lemma norm_in e : In e L -> 0 < norm2 e.
Proof using Hp. intros He. apply (norm_val e p). intros K. pose proof (Hp e He). lra. Qed.

(** Some point far away along a line. *)
Lemma beyond e y sg : In e L -> closed L y -> val e y == 0 -> (sg == 1 \/ sg == -1) -> exists x M, 0 < M /\ ~ in_box dim x /\ val e x == 0 /\ forall f, val f x == val f y + M * (sg * cross e f).
Proof using Hp Hbox.
  intros He Cy Vy Hsg. pose proof (norm_in e He) as N. destruct (Hbox y Cy) as [Bx By]. set (tx := snd (e_dir e)). set (ty := - fst (e_dir e)).
  assert (K : exists M, 0 < M /\ (fst dim < M * (sg * tx) \/ M * (sg * tx) < - fst dim \/ snd dim < M * (sg * ty) \/ M * (sg * ty) < - snd dim)).
  { assert (Z : ~ sg * tx == 0 \/ ~ sg * ty == 0).
    { destruct (Qeq_dec tx 0) as [X|X].
      - right. intros Y. assert (Ty : ty == 0) by (destruct Hsg as [E|E]; rewrite E in Y; lra). unfold tx, ty in X, Ty. unp. assert (Z1 : fst (e_dir e) == 0) by lra. rewrite X, Z1 in N. lra.
      - left. intros Y. apply X. destruct Hsg as [E|E]; rewrite E in Y; lra. }
    assert (G : forall u d, 0 <= d -> ~ u == 0 -> exists M, 0 < M /\ (d < M * u \/ M * u < - d)).
    { intros u d Hd Hu. destruct (Qlt_le_dec 0 u) as [U|U].
      - exists ((d + 1) / u). assert (E : (d + 1) / u * u == d + 1) by (field; exact Hu). split; [nra|]. left. lra.
      - exists ((d + 1) / (- u)). assert (U' : u < 0) by (destruct (Qlt_le_dec u 0); [assumption|exfalso; apply Hu; lra]). assert (E : (d + 1) / (- u) * u == - (d + 1)) by (field; exact Hu). split; [nra|]. right. lra. }
    destruct Z as [Z|Z].
    - destruct (G _ (fst dim) ltac:(lra) Z) as (M & HM & [H|H]); exists M; split; auto.
    - destruct (G _ (snd dim) ltac:(lra) Z) as (M & HM & [H|H]); exists M; split; auto. }
  destruct K as (M & HM & K). exists (fst y + M * (sg * tx), snd y + M * (sg * ty)), M. split; [exact HM|]. split; [|split].
  - intros [B1 B2]. cbn [fst snd] in *. lra.
  - clear -Vy. unfold tx, ty. unp. lra.
  - intros f. unfold tx, ty. unp. ring.
Qed.

(** One end of the edge on line [e]. *)
Lemma side_spec i e y sg sel : nth_error L i = Some e -> closed L y -> val e y == 0 -> (sg == 1 \/ sg == -1) ->
  (forall f, sg * cross e f < 0 -> sel f = true) -> (forall f, sel f = true -> sg * cross e f <= 0) ->
  let r := fold_left (best (fun c => sg * distance e c)) (map (cut_point dim e) (others i (numbered L) sel)) far_away in
  val e r == 0 /\ closed L r /\ forall z, closed L z -> val e z == 0 -> sg * distance e z <= sg * distance e r.
Proof using Hp Hbox.
  intros Hi Cy Vy Hsg Hs1 Hs2 r. assert (He : In e L) by (eapply nth_error_In; eauto). pose proof (norm_in e He) as N.
  destruct (beyond e y sg He Cy Vy Hsg) as (x & M & HM & Ox & Vx & Fx). destruct (first_exit L y x Cy) as [C|(s & f & S & Hf & Vf & Vfx & C)]; [exfalso; apply Ox; now apply Hbox|].
  set (y' := at_ y x s) in *. assert (Vy' : val e y' == 0) by (unfold y'; rewrite val_at, Vy, Vx; ring).
  assert (Cf : sg * cross e f < 0). { pose proof (Fx f) as K. pose proof (Cy f Hf). assert (M * (sg * cross e f) < 0) by lra. destruct (Qlt_le_dec (sg * cross e f) 0); [assumption|]. exfalso. nra. }
  assert (Cf' : ~ cross e f == 0) by (intros K; rewrite K in Cf; lra). apply In_nth_error in Hf. destruct Hf as [j Hj].
  assert (Hij : i <> j). { intros ->. assert (e = f) as -> by congruence. apply Cf'. unp. ring. }
  assert (Hc : In (cut_point dim e f) (map (cut_point dim e) (others i (numbered L) sel))).
  { apply in_map. unfold others. apply in_map_iff. exists (j, f). split; [reflexivity|]. apply filter_In. split; [now apply numbered_nth|]. cbn [fst snd]. rewrite (Hs1 f Cf), andb_true_r. apply negb_true_iff. now apply Nat.eqb_neq. }
  assert (Py : peq (cut_point dim e f) y') by (apply cut_found; auto).
  assert (Nf : forall z, in_box dim z -> peqb z far_away = false). { intros z [[B1 _] _]. apply not_true_iff_false. intros K. apply peqb_spec in K. destruct K as [K _]. cbn in K. lra. }
  assert (Fc : peqb (cut_point dim e f) far_away = false). { apply not_true_iff_false. intros K. apply peqb_spec in K. assert (K' : peqb y' far_away = true) by (apply peqb_spec; eapply peq_trans; [apply peq_sym; exact Py|exact K]). rewrite Nf in K'; [discriminate|]. now apply Hbox. }
  destruct (best_fold (fun c => sg * distance e c) (map (cut_point dim e) (others i (numbered L) sel)) far_away (fun _ => eq_refl)) as [(_ & _ & A)|(A & B & _ & D)]; [rewrite (A _ Hc) in Fc; discriminate|].
  fold r in A, B, D. cbv zeta in B. assert (Br : In r (map (cut_point dim e) (others i (numbered L) sel))). { destruct B as [B|B]; [rewrite B in A; discriminate A|exact B]. }
  apply in_map_iff in Br. destruct Br as (g & Eg & Hg). unfold others in Hg. apply in_map_iff in Hg. destruct Hg as ([k g'] & Eg' & Hg). cbn [snd] in Eg'. subst g'. apply filter_In in Hg. destruct Hg as [Hk Hsel].
  cbn [fst snd] in Hsel. apply andb_true_iff in Hsel. destruct Hsel as [_ Hsel]. apply numbered_nth in Hk. assert (Hg : In g L) by (eapply nth_error_In; eauto).
  assert (Or : val e r == 0 /\ val g r == 0). { rewrite <- Eg. destruct (cut_point_on dim e g) as [K|K]; [|exact K]. rewrite Eg in K. apply peqb_spec in K. congruence. }
  destruct Or as [Or1 Or2]. assert (Cg : sg * cross e g < 0).
  { pose proof (Hs2 g Hsel) as K. destruct (Qlt_le_dec (sg * cross e g) 0); [assumption|]. exfalso. assert (Z : cross e g == 0) by (destruct Hsg as [E|E]; rewrite E in *; lra).
    pose proof (cut_parallel dim e g N (norm_in g Hg) Z) as P. rewrite Eg in P. apply peqb_spec in P. congruence. }
  assert (Max : forall z, closed L z -> val e z == 0 -> sg * distance e z <= sg * distance e r).
  { intros z Cz Vz. pose proof (along e g z r Vz Or1) as K. pose proof (Cz g Hg) as Kz. rewrite Or2 in K. assert (K1 : 0 <= (distance e z - distance e r) * cross e g) by (rewrite <- K; nra).
    destruct Hsg as [E|E]; rewrite E in *; nra. }
  pose proof (D _ Hc Fc) as D1. cbv beta in D1. rewrite (distance_ext e _ _ Py) in D1. pose proof (Max y' C Vy') as D2.
  assert (De : distance e r == distance e y') by (destruct Hsg as [E|E]; rewrite E in *; lra). pose proof (same_place e r y' N Or1 Vy' De) as Pr.
  split; [exact Or1|]. split; [eapply closed_ext; [apply peq_sym; exact Pr|exact C]|exact Max].
Qed.

Lemma cuts_spec i e y : nth_error L i = Some e -> closed L y -> val e y == 0 -> let lr := cuts_of dim L i e in
  val e (fst lr) == 0 /\ closed L (fst lr) /\ val e (snd lr) == 0 /\ closed L (snd lr) /\
  forall z, closed L z -> val e z == 0 -> distance e (snd lr) <= distance e z <= distance e (fst lr).
Proof using Hp Hbox.
  intros Hi Cy Vy lr. unfold lr, cuts_of. rewrite cuts_split. cbn [fst snd]. rewrite right_best.
  destruct (side_spec i e y 1 (fun f => negb (goes_right e f)) Hi Cy Vy (or_introl (Qeq_refl _))) as (A1 & A2 & A3).
  { intros f Hf. apply negb_true_iff. unfold goes_right. apply lt_b_false. fold (cross e f). lra. }
  { intros f Hf. apply negb_true_iff in Hf. unfold goes_right in Hf. apply lt_b_false in Hf. fold (cross e f) in Hf. lra. }
  destruct (side_spec i e y (-1) (goes_right e) Hi Cy Vy (or_intror (Qeq_refl _))) as (B1 & B2 & B3).
  { intros f Hf. unfold goes_right. apply lt_b_spec. fold (cross e f). lra. }
  { intros f Hf. unfold goes_right in Hf. apply lt_b_spec in Hf. fold (cross e f) in Hf. lra. }
  cbv zeta in *.
  assert (E1 : forall cs a, fold_left (best (fun c => 1 * distance e c)) cs a = fold_left (best (distance e)) cs a).
  { induction cs as [|c cs IH]; intros a; [reflexivity|]. cbn [fold_left]. rewrite IH. f_equal. unfold best. assert (lt_b (1 * distance e c) (1 * distance e a) = lt_b (distance e c) (distance e a)) as ->; [|reflexivity].
    apply eq_true_iff_eq. rewrite !lt_b_spec. split; intros; lra. }
  assert (E2 : forall cs a, fold_left (best (fun c => (-1) * distance e c)) cs a = fold_left (best (fun c => - distance e c)) cs a).
  { induction cs as [|c cs IH]; intros a; [reflexivity|]. cbn [fold_left]. rewrite IH. f_equal. }
  rewrite E1 in A1, A2, A3. rewrite E2 in B1, B2, B3. split; [exact A1|]. split; [exact A2|]. split; [exact B1|]. split; [exact B2|]. intros z Cz Vz. specialize (A3 z Cz Vz). specialize (B3 z Cz Vz). lra.
Qed.

End Polygon.
