(** What inserting planes preserves. *)
From Coq Require Import ZArith QArith Qround Qminmax Qabs List Bool Lia.
From Verif Require Import Base ParamModel PolytopeModel PolytopeFacts.
From Coq Require Import Lqa.
Import ListNotations.
Open Scope Q_scope.

(** ** Leaving the box *)

Lemma far_off dim y u : in_box dim y -> ~ (fst u == 0 /\ snd u == 0) -> exists M, 1 < M /\ ~ in_box dim (padd y (pscale u M)).
Proof.
  intros [B1 B2] N. assert (G : forall u d, 0 <= d -> ~ u == 0 -> exists M, 1 < M /\ (d < u * M \/ u * M < - d)).
  { clear. intros u d Hd Hu. destruct (Qlt_le_dec 0 u) as [U|U].
    - exists ((d + 1) / u + 1). assert (E : u * ((d + 1) / u + 1) == d + 1 + u) by (field; exact Hu). assert (E' : u * ((d + 1) / u) == d + 1) by (field; exact Hu). split; [|left; lra]. assert (0 < (d + 1) / u) by nra. lra.
    - exists ((d + 1) / (- u) + 1). assert (U' : u < 0) by (destruct (Qlt_le_dec u 0); [assumption|exfalso; apply Hu; lra]). assert (E : u * ((d + 1) / (- u) + 1) == - (d + 1) + u) by (field; exact Hu).
      assert (E' : u * ((d + 1) / (- u)) == - (d + 1)) by (field; exact Hu). split; [|right; lra]. assert (0 < (d + 1) / (- u)) by nra. lra. }
  destruct (Qeq_dec (fst u) 0) as [X|X].
  - destruct (G (snd u) (snd dim) ltac:(lra)) as (M & HM & K); [intros Y; apply N; now split|]. exists M. split; [exact HM|]. intros [C1 C2]. unp. lra.
  - destruct (G (fst u) (fst dim) ltac:(lra) X) as (M & HM & K). exists M. split; [exact HM|]. intros [C1 C2]. unp. lra.
Qed.

Section Polygon.
Context (dim p : point) (L : list plane).
Hypothesis Hp : inside L p.
Hypothesis Hbox : forall x, closed L x -> in_box dim x.

Lemma inside_closed x : inside L x -> closed L x.
Proof using. intros H e He. apply Qlt_le_weak, H, He. Qed.

(** A point below a plane is seen at the border, too. *)
Lemma border_below h x : 0 < val h p -> closed L x -> val h x <= 0 -> exists f y, In f L /\ closed L y /\ val f y == 0 /\ val h y <= 0.
Proof using Hp Hbox.
  intros Hh Cx Hx. destruct (far_off dim p (psub x p)) as (M & HM & Out); [apply Hbox, inside_closed, Hp| |].
  { intros [X Y]. assert (E : peq x p) by (unp; split; lra). rewrite (val_ext h _ _ E) in Hx. lra. }
  destruct (exit_inside L p (padd p (pscale (psub x p) M)) Hp) as (s & f & S & Hf & Vf & C); [intros I; apply Out, Hbox, inside_closed, I|].
  set (y := at_ p (padd p (pscale (psub x p) M)) s) in *. assert (Ey : forall e, val e y == (1 - s * M) * val e p + s * M * val e x) by (intros e; unfold y; unp; ring).
  exists f, y. split; [exact Hf|]. split; [exact C|]. split; [exact Vf|]. rewrite Ey in Vf |- *. pose proof (Hp f Hf). pose proof (Cx f Hf). set (r := s * M) in *.
  assert (R0 : 0 < r) by (unfold r; nra). assert (R : 1 <= r) by (destruct (Qlt_le_dec r 1); [exfalso; nra|assumption]). nra.
Qed.

(** The polygon is spanned by the ends of its edges. *)
Lemma spanned g x : ~ norm2 g == 0 -> closed L x -> (forall l, In l L -> exists y, closed L y /\ val l y == 0) -> exists i l, nth_error L i = Some l /\ (val g x <= val g (fst (cuts_of dim L i l)) \/ val g x <= val g (snd (cuts_of dim L i l))).
Proof using Hp Hbox.
  intros N Cx Ht. destruct (far_off dim x (e_dir g)) as (M & HM & Out); [apply Hbox, Cx| |].
  { intros [X Y]. apply N. unp. rewrite X, Y. ring. }
  destruct (first_exit L x (padd x (pscale (e_dir g) M)) Cx) as [C|(s & f & S & Hf & Vf & _ & C)]; [exfalso; apply Out, Hbox, C|].
  set (y := at_ x (padd x (pscale (e_dir g) M)) s) in *. assert (Ey : val g y == val g x + s * M * norm2 g) by (unfold y; unp; ring).
  assert (K : val g x <= val g y). { rewrite Ey. apply norm_pos in N. assert (0 <= s * M) by nra. assert (0 <= s * M * norm2 g) by nra. lra. }
  pose proof (norm_in p L Hp f Hf) as Nf. apply In_nth_error in Hf. destruct Hf as [i Hi]. exists i, f. split; [exact Hi|].
  destruct (cuts_spec dim p L Hp Hbox i f y Hi C Vf) as (A1 & A2 & A3 & A4 & A5). destruct (Qlt_le_dec (val g (fst (cuts_of dim L i f))) (val g y)) as [D|D]; [|left; lra].
  destruct (Qlt_le_dec (val g (snd (cuts_of dim L i f))) (val g y)) as [D'|D']; [|right; lra]. exfalso.
  set (b := Qmax (val g (fst (cuts_of dim L i f))) (val g (snd (cuts_of dim L i f)))).
  assert (val g y <= b) by (apply (between_le f g _ _ y Nf A1 A3 Vf (A5 y C Vf)); unfold b; [apply Q.le_max_l|apply Q.le_max_r]).
  assert (b < val g y) by (unfold b; apply Q.max_lub_lt; assumption). lra.
Qed.
End Polygon.

(** ** Lists of planes up to lengths *)

Definition same (l e : plane) : Prop := e_base l = e_base e /\ e_dir l = e_dir e /\ e_id l = e_id e.

Lemma same_refl e : same e e.
Proof. repeat split. Qed.

Lemma same_trans a b c : same a b -> same b c -> same a c.
Proof. intros (H1 & H2 & H3) (H4 & H5 & H6). repeat split; congruence. Qed.

Lemma same_val l e x : same l e -> val l x = val e x.
Proof. intros (H1 & H2 & _). unfold val. now rewrite H1, H2. Qed.

Lemma same_norm l e : same l e -> norm2 l = norm2 e.
Proof. intros (_ & H2 & _). unfold norm2. now rewrite H2. Qed.

Lemma same_distance l e x : same l e -> distance l x = distance e x.
Proof. intros (H1 & H2 & _). unfold distance. now rewrite H1, H2. Qed.

Lemma same_cut dim a b a' b' : same a a' -> same b b' -> cut_point dim a b = cut_point dim a' b'.
Proof. intros (H1 & H2 & _) (H3 & H4 & _). unfold cut_point, cut_lines. now rewrite H1, H2, H3, H4. Qed.

Lemma forall2_in {A B} (R : A -> B -> Prop) l m a : Forall2 R l m -> In a l -> exists b, In b m /\ R a b.
Proof. induction 1 as [|x y l m H HF IH]; intros Ha; [destruct Ha|]. destruct Ha as [<-|Ha]; [exists y; split; [now left|exact H]|]. destruct (IH Ha) as (b & Hb & R'). exists b. split; [now right|exact R']. Qed.

Lemma forall2_in_r {A B} (R : A -> B -> Prop) l m b : Forall2 R l m -> In b m -> exists a, In a l /\ R a b.
Proof. induction 1 as [|x y l m H HF IH]; intros Ha; [destruct Ha|]. destruct Ha as [<-|Ha]; [exists x; split; [now left|exact H]|]. destruct (IH Ha) as (a & Hb & R'). exists a. split; [now right|exact R']. Qed.

Lemma same_closed L M x : Forall2 same L M -> (closed L x <-> closed M x).
Proof.
  intros H. split; intros C e He.
  - destruct (forall2_in_r _ _ _ _ H He) as (l & Hl & S). rewrite <- (same_val _ _ x S). now apply C.
  - destruct (forall2_in _ _ _ _ H He) as (l & Hl & S). rewrite (same_val _ _ x S). now apply C.
Qed.

Lemma same_inside L M x : Forall2 same L M -> (inside L x <-> inside M x).
Proof.
  intros H. split; intros C e He.
  - destruct (forall2_in_r _ _ _ _ H He) as (l & Hl & S). rewrite <- (same_val _ _ x S). now apply C.
  - destruct (forall2_in _ _ _ _ H He) as (l & Hl & S). rewrite (same_val _ _ x S). now apply C.
Qed.

Lemma same_cuts_of dim L M i a b : Forall2 same L M -> same a b -> cuts_of dim L i a = cuts_of dim M i b.
Proof.
  intros H S. unfold cuts_of, numbered. generalize 0%nat as k. generalize (far_away, far_away) as lr. induction H as [|x y L M Hxy H IH]; intros lr k; [reflexivity|]. cbn [length seq combine fold_left].
  assert (cut_step dim i a lr (k, x) = cut_step dim i b lr (k, y)) as ->; [|apply IH]. unfold cut_step, cut_right, cut_left. rewrite (same_cut dim a x b y S Hxy).
  rewrite !(same_distance a b _ S). destruct S as (_ & S2 & _), Hxy as (_ & T2 & _). now rewrite S2, T2.
Qed.

Lemma same_generate dim L M : Forall2 same L M -> generate_cuts dim L = generate_cuts dim M.
Proof.
  intros H. unfold generate_cuts. assert (G : forall k L' M', Forall2 same L' M' -> map (fun ie => cuts_of dim L (fst ie) (snd ie)) (combine (seq k (length L')) L') = map (fun ie => cuts_of dim M (fst ie) (snd ie)) (combine (seq k (length M')) M')).
  { intros k L' M' H'. revert k. induction H' as [|x y L' M' Hxy H' IH]; intros k; [reflexivity|]. cbn [length seq combine map fst snd]. rewrite IH. now rewrite (same_cuts_of dim L M k x y H Hxy). }
  apply (G 0%nat L M H).
Qed.

Lemma generate_nth dim L i l : nth_error L i = Some l -> nth_error (generate_cuts dim L) i = Some (cuts_of dim L i l).
Proof.
  intros H. unfold generate_cuts, numbered. assert (G : forall L' k, nth_error L' i = Some l -> nth_error (map (fun ie => cuts_of dim L (fst ie) (snd ie)) (combine (seq k (length L')) L')) i = Some (cuts_of dim L (k + i) l)).
  { clear H. induction i as [|i IH]; intros [|x L'] k H; try discriminate H; cbn [nth_error length seq combine map fst snd] in *.
    - now rewrite Nat.add_0_r; assert (x = l) as -> by congruence.
    - rewrite (IH L' (S k) H). now rewrite Nat.add_succ_r. }
  apply (G L 0%nat H).
Qed.

Lemma generate_length dim L : length (generate_cuts dim L) = length L.
Proof. unfold generate_cuts, numbered. rewrite map_length, combine_length, seq_length. lia. Qed.

Lemma combine_nth_error {A B} (l : list A) (m : list B) i a b : nth_error (combine l m) i = Some (a, b) <-> nth_error l i = Some a /\ nth_error m i = Some b.
Proof.
  revert m i. induction l as [|x l IH]; intros m i; cbn [combine].
  - destruct i; cbn; split; [discriminate|intros [? _]; discriminate|discriminate|intros [? _]; discriminate].
  - destruct m as [|y m]; [destruct i; cbn; split; [discriminate|intros [_ ?]; discriminate|discriminate|intros [_ ?]; discriminate]|]. destruct i; cbn [nth_error]; [|apply IH].
    split; [intros H; split; congruence|intros [H1 H2]; congruence].
Qed.

Lemma all_nth dim L l lr : In (l, lr) (combine L (generate_cuts dim L)) <-> exists i, nth_error L i = Some l /\ lr = cuts_of dim L i l.
Proof.
  split.
  - intros H. apply In_nth_error in H. destruct H as [i H]. apply combine_nth_error in H. destruct H as [H1 H2]. exists i. split; [exact H1|]. rewrite (generate_nth dim L i l H1) in H2. congruence.
  - intros (i & H & ->). apply (nth_error_In _ i). apply combine_nth_error. split; [exact H|now apply generate_nth].
Qed.

(** ** The invariant *)

Definition planes (dim : point) (center : point) (S : list plane) : list plane := sides center dim ++ S.

Record valid (center dim w : point) (S : list plane) (P : polytope) : Prop := {
  v_center : p_center P = center;
  v_dim : p_dim P = dim;
  v_witness : inside (planes dim center S) w;
  v_inside : forall x, inside (p_limits P) x <-> inside (planes dim center S) x;
  v_touch : forall l, In l (p_limits P) -> exists y, closed (p_limits P) y /\ val l y == 0;
  v_cuts : p_cuts P = generate_cuts dim (p_limits P);
  v_from : forall l, In l (p_limits P) -> exists e, In e (planes dim center S) /\ same l e;
  v_edges : forall e u v, In e (planes dim center S) -> closed (p_limits P) u -> closed (p_limits P) v -> val e u == 0 -> val e v == 0 -> ~ peq u v -> exists l, In l (p_limits P) /\ val l u == 0 /\ val l v == 0;
  v_diameter : forall u v, closed (p_limits P) u -> closed (p_limits P) v -> fst u - fst v <= p_diameter P /\ snd u - snd v <= p_diameter P;
}.

Lemma sides_inside center dim x : inside (sides center dim) x <-> (0 < fst x < fst dim) /\ (0 < snd x < snd dim).
Proof.
  split.
  - intros H. pose proof (H _ (or_introl eq_refl)) as A. pose proof (H _ (or_intror (or_introl eq_refl))) as B. pose proof (H _ (or_intror (or_intror (or_introl eq_refl)))) as C. pose proof (H _ (or_intror (or_intror (or_intror (or_introl eq_refl))))) as D.
    unfold make_plane in *. unp. cbn [e_base e_dir fst snd] in *. lra.
  - intros H e [<-|[<-|[<-|[<-|[]]]]]; unfold make_plane; unp; cbn [e_base e_dir fst snd]; lra.
Qed.

Lemma sides_closed center dim x : closed (sides center dim) x <-> in_box dim x.
Proof.
  unfold in_box. split.
  - intros H. pose proof (H _ (or_introl eq_refl)) as A. pose proof (H _ (or_intror (or_introl eq_refl))) as B. pose proof (H _ (or_intror (or_intror (or_introl eq_refl)))) as C. pose proof (H _ (or_intror (or_intror (or_intror (or_introl eq_refl))))) as D.
    unfold make_plane in *. unp. cbn [e_base e_dir fst snd] in *. lra.
  - intros H e [<-|[<-|[<-|[<-|[]]]]]; unfold make_plane; unp; cbn [e_base e_dir fst snd]; lra.
Qed.

Lemma valid_inside center dim w S P : valid center dim w S P -> inside (p_limits P) w.
Proof. intros V. apply (v_inside _ _ _ _ _ V). apply V. Qed.

Lemma valid_closed center dim w S P x : valid center dim w S P -> (closed (p_limits P) x <-> closed (planes dim center S) x).
Proof.
  intros V. pose proof (valid_inside _ _ _ _ _ V) as W. pose proof (v_witness _ _ _ _ _ V) as W'. split; intros H e He.
  - apply (closed_of_inside (p_limits P) w); auto. intros z Hz. apply (v_inside _ _ _ _ _ V) in Hz. now apply Hz.
  - apply (closed_of_inside (planes dim center S) w); auto. intros z Hz. apply (v_inside _ _ _ _ _ V) in Hz. now apply Hz.
Qed.

Lemma valid_box center dim w S P x : valid center dim w S P -> closed (p_limits P) x -> in_box dim x.
Proof. intros V H. apply (valid_closed _ _ _ _ _ x V) in H. apply (sides_closed center). intros e He. apply H. apply in_or_app. now left. Qed.

Lemma valid_make center dim w : inside (sides center dim) w -> valid center dim w [] (polytope_make center dim).
Proof.
  intros W. assert (E : planes dim center [] = sides center dim) by (unfold planes; apply app_nil_r). pose proof (proj1 (sides_inside _ _ _) W) as B.
  split; cbn [polytope_make p_center p_dim p_limits p_cuts p_diameter]; rewrite ?E; auto.
  - tauto.
  - intros l Hl. assert (K : exists y, in_box dim y /\ val l y == 0).
    { destruct Hl as [<-|[<-|[<-|[<-|[]]]]].
      - exists (fst w, 0). unfold in_box, make_plane. unp. cbn [e_base e_dir fst snd]. lra.
      - exists (0, snd w). unfold in_box, make_plane. unp. cbn [e_base e_dir fst snd]. lra.
      - exists (fst dim, snd w). unfold in_box, make_plane. unp. cbn [e_base e_dir fst snd]. lra.
      - exists (fst w, snd dim). unfold in_box, make_plane. unp. cbn [e_base e_dir fst snd]. lra. }
    destruct K as (y & K1 & K2). exists y. split; [now apply sides_closed|exact K2].
  - intros l Hl. exists l. split; [exact Hl|apply same_refl].
  - intros e u v He _ _ Hu Hv _. exists e. auto.
  - intros u v Hu Hv. apply sides_closed in Hu, Hv. destruct Hu as [U1 U2], Hv as [V1 V2]. pose proof (Q.le_max_l (fst dim) (snd dim)). pose proof (Q.le_max_r (fst dim) (snd dim)). split; lra.
Qed.

Lemma planes_snoc dim center S e x : (inside (planes dim center (S ++ [e])) x <-> inside (planes dim center S) x /\ 0 < val e x).
Proof.
  unfold planes. rewrite app_assoc. split.
  - intros H. split; [intros f Hf; apply H; apply in_or_app; now left|apply H; apply in_or_app; right; now left].
  - intros [H1 H2] f Hf. apply in_app_or in Hf. destruct Hf as [Hf|[<-|[]]]; auto.
Qed.

Lemma planes_in_snoc dim center S e f : In f (planes dim center (S ++ [e])) <-> In f (planes dim center S) \/ f = e.
Proof. unfold planes. rewrite app_assoc, in_app_iff. cbn [In]. intuition congruence. Qed.

Lemma plane_eqb_val a b x : plane_eqb a b = true -> val a x == val b x.
Proof. unfold plane_eqb. rewrite andb_true_iff, !peqb_spec. intros [[H1 H2] [H3 H4]]. unp. now rewrite H1, H2, H3, H4. Qed.

Lemma below_spec e c : below e c = true <-> val e c <= 0.
Proof. unfold below. apply Qle_bool_iff. Qed.

Lemma below_false e c : below e c = false <-> 0 < val e c.
Proof. rewrite <- not_true_iff_false, below_spec. split; [apply Qnot_le_lt|apply Qlt_not_le]. Qed.

(** The new plane changes nothing. *)
Lemma valid_same center dim w S P e : valid center dim w S P -> 0 < val e w -> (forall x, inside (p_limits P) x -> 0 < val e x) ->
  (forall u v, closed (p_limits P) u -> closed (p_limits P) v -> val e u == 0 -> val e v == 0 -> ~ peq u v -> exists l, In l (p_limits P) /\ val l u == 0 /\ val l v == 0) -> valid center dim w (S ++ [e]) P.
Proof.
  intros V W H1 H2. destruct V. split; auto.
  - apply planes_snoc. now split.
  - intros x. rewrite planes_snoc, <- v_inside0. split; [intros K; split; auto|tauto].
  - intros l Hl. destruct (v_from0 l Hl) as (f & Hf & Sf). exists f. split; [apply planes_in_snoc; now left|exact Sf].
  - intros f u v Hf. apply planes_in_snoc in Hf. destruct Hf as [Hf| ->]; auto. now apply v_edges0.
Qed.

Lemma valid_insert center dim w S P e : valid center dim w S P -> 0 < val e w -> valid center dim w (S ++ [e]) (insert_plane P e).
Proof.
  intros V We. pose proof (valid_inside _ _ _ _ _ V) as W. assert (Box : forall x, closed (p_limits P) x -> in_box dim x) by (intros x; now apply (valid_box center dim w S)). unfold insert_plane.
  destruct (existsb (plane_eqb e) (p_limits P)) eqn:Ex.
  - apply existsb_exists in Ex. destruct Ex as (l & Hl & El). apply valid_same; auto.
    + intros x Hx. rewrite (plane_eqb_val e l x El). now apply Hx.
    + intros u v _ _ Hu Hv _. exists l. rewrite <- !(plane_eqb_val e l _ El). auto.
  - cbv zeta. rewrite (v_dim _ _ _ _ _ V), (v_cuts _ _ _ _ _ V), (v_center _ _ _ _ _ V). set (L := p_limits P) in *. set (all := combine L (generate_cuts dim L)).
    set (sup := forallb (fun lc => negb (below e (fst (snd lc)) || below e (snd (snd lc)))) all). set (dead := fun lc : plane * (point * point) => below e (fst (snd lc)) && below e (snd (snd lc))).
    assert (Ends : forall l lr, In (l, lr) all -> val l (fst lr) == 0 /\ closed L (fst lr) /\ val l (snd lr) == 0 /\ closed L (snd lr) /\ forall z, closed L z -> val l z == 0 -> distance l (snd lr) <= distance l z <= distance l (fst lr)).
    { intros l lr Hl. apply all_nth in Hl. destruct Hl as (i & Hi & ->). destruct (v_touch _ _ _ _ _ V l (nth_error_In _ _ Hi)) as (y & Cy & Vy). exact (cuts_spec dim w L W Box i l y Hi Cy Vy). }
    assert (Pair : forall l, In l L -> exists lr, In (l, lr) all). { intros l Hl. apply In_nth_error in Hl. destruct Hl as [i Hi]. exists (cuts_of dim L i l). apply all_nth. exists i. auto. }
    assert (InL : forall l lr, In (l, lr) all -> In l L) by (intros l lr H; eapply in_combine_l; exact H).
    assert (Dead : forall l lr y, In (l, lr) all -> dead (l, lr) = true -> closed L y -> val l y == 0 -> val e y <= 0).
    { intros l lr y Hl Hd Cy Vy. unfold dead in Hd. cbn [fst snd] in Hd. apply andb_true_iff in Hd. rewrite !below_spec in Hd. destruct (Ends l lr Hl) as (A1 & A2 & A3 & A4 & A5).
      apply (between_le l e (fst lr) (snd lr) y); try tauto; auto. now apply (norm_in w L W), (InL l lr). }
    destruct sup eqn:Es.
    + assert (Eo : existsb dead all = false).
      { apply not_true_iff_false. intros K. apply existsb_exists in K. destruct K as (lc & K1 & K2). unfold sup in Es. rewrite forallb_forall in Es. specialize (Es lc K1). unfold dead in K2. apply andb_true_iff in K2. destruct K2 as [K2 K3]. rewrite K2 in Es. discriminate. }
      rewrite Eo. cbn [orb negb].
      assert (Pos : forall x, closed L x -> 0 < val e x).
      { intros x Cx. destruct (Qlt_le_dec 0 (val e x)) as [|N]; [assumption|]. exfalso. destruct (border_below dim w L W Box e x We Cx N) as (f & y & Hf & Cy & Vf & Ve). destruct (Pair f Hf) as [lr Hlr].
        destruct (Ends f lr Hlr) as (A1 & A2 & A3 & A4 & A5). unfold sup in Es. rewrite forallb_forall in Es. specialize (Es _ Hlr). cbn [fst snd] in Es. apply negb_true_iff, orb_false_iff in Es. rewrite !below_false in Es.
        destruct (between_ge f e (fst lr) (snd lr) y) as [K|K]; auto; [now apply (norm_in w L W)|lra|lra]. }
      apply valid_same; auto.
      * intros x Hx. apply Pos. now apply inside_closed.
      * intros u v Cu Cv Hu Hv _. pose proof (Pos u Cu). lra.
    + cbn [negb]. rewrite orb_true_r. set (kept := map fst (filter (fun lc => negb (dead lc)) all)).
      change (map fst (filter (fun lc : plane * (point * point) => negb (below e (fst (snd lc)) && below e (snd (snd lc)))) all)) with kept.
      assert (Kin : forall l, In l kept -> In l L /\ exists c, closed L c /\ val l c == 0 /\ 0 < val e c).
      { intros l Hl. unfold kept in Hl. apply in_map_iff in Hl. destruct Hl as ([l' lr] & E & Hl). cbn [fst] in E. subst l'. apply filter_In in Hl. destruct Hl as [Hl Hd]. split; [now apply (InL l lr)|].
        destruct (Ends l lr Hl) as (A1 & A2 & A3 & A4 & A5). unfold dead in Hd. cbn [fst snd] in Hd. apply negb_true_iff, andb_false_iff in Hd. rewrite !below_false in Hd. destruct Hd as [Hd|Hd]; [exists (fst lr)|exists (snd lr)]; auto. }
      assert (Kout : forall l, In l L -> In l kept \/ forall y, closed L y -> val l y == 0 -> val e y <= 0).
      { intros l Hl. destruct (Pair l Hl) as [lr Hlr]. destruct (dead (l, lr)) eqn:Hd; [right; intros y; now apply (Dead l lr)|]. left. unfold kept. apply in_map_iff. exists (l, lr). split; [reflexivity|]. apply filter_In. split; [exact Hlr|]. now rewrite Hd. }
      clearbody kept. assert (Inew : forall x, inside (kept ++ [e]) x <-> inside L x /\ 0 < val e x).
      { intros x. split.
        - intros H. assert (Hx : 0 < val e x) by (apply H; apply in_or_app; right; now left). split; [|exact Hx]. assert (D : forall f, In f L -> 0 < val f x \/ ~ 0 < val f x) by (intros f _; destruct (Qlt_le_dec 0 (val f x)); [now left|right; lra]).
          intros f0 Hf0. destruct (D f0 Hf0) as [|N]; [assumption|]. exfalso. destruct (exit_inside L w x W) as (s & f & S1 & Hf & Vf & C); [intros K; apply N, K, Hf0|].
          destruct (Kout f Hf) as [K|K].
          + rewrite val_at in Vf. pose proof (W f Hf). assert (0 < val f x) by (apply H; apply in_or_app; now left). nra.
          + specialize (K _ C Vf). rewrite val_at in K. nra.
        - intros [H1 H2] f Hf. apply in_app_or in Hf. destruct Hf as [Hf|[<-|[]]]; [apply H1; now apply Kin|exact H2]. }
      assert (Wn : inside (kept ++ [e]) w) by (apply Inew; now split).
      assert (Cnew : forall x, closed (kept ++ [e]) x <-> closed L x /\ 0 <= val e x).
      { intros x. split.
        - intros H. split; [|apply H; apply in_or_app; right; now left]. intros f Hf. apply (closed_of_inside (kept ++ [e]) w); auto. intros z Hz. apply Inew in Hz. now apply Hz.
        - intros [H1 H2] f Hf. apply in_app_or in Hf. destruct Hf as [Hf|[<-|[]]]; [apply H1; now apply Kin|exact H2]. }
      split; cbn [p_center p_dim p_limits p_cuts p_diameter]; auto.
      * apply planes_snoc. split; [apply V|exact We].
      * intros x. rewrite Inew, planes_snoc. unfold L. now rewrite (v_inside _ _ _ _ _ V x).
      * intros l Hl. apply in_app_or in Hl. destruct Hl as [Hl|[<-|[]]].
        -- destruct (Kin l Hl) as (_ & c & C1 & C2 & C3). exists c. split; [|exact C2]. apply Cnew. split; [exact C1|lra].
        -- assert (K : exists c, closed L c /\ val e c <= 0).
           { unfold sup in Es. apply not_true_iff_false in Es. rewrite forallb_forall in Es. assert (X : existsb (fun lc => below e (fst (snd lc)) || below e (snd (snd lc))) all = true).
             { apply not_false_iff_true. intros N. apply Es. intros lc Hlc. apply negb_true_iff. apply not_true_iff_false. intros Y. rewrite <- not_true_iff_false in N. apply N. apply existsb_exists. exists lc. auto. }
             apply existsb_exists in X. destruct X as ([l lr] & X1 & X2). destruct (Ends l lr X1) as (A1 & A2 & A3 & A4 & A5). cbn [fst snd] in X2. apply orb_true_iff in X2. rewrite !below_spec in X2. destruct X2; [exists (fst lr)|exists (snd lr)]; auto. }
           destruct K as (c & C1 & C2). set (s := val e w / (val e w - val e c)). assert (D : ~ val e w - val e c == 0) by lra. assert (Hs : s * (val e w - val e c) == val e w) by (unfold s; field; exact D).
           assert (S01 : 0 <= s <= 1) by (split; nra). exists (at_ w c s). assert (V0 : val e (at_ w c s) == 0) by (rewrite val_at; lra). split; [|exact V0]. apply Cnew. split; [|rewrite V0; apply Qle_refl].
           intros f Hf. rewrite val_at. pose proof (W f Hf). pose proof (C1 f Hf). nra.
      * intros l Hl. apply in_app_or in Hl. destruct Hl as [Hl|[<-|[]]].
        -- destruct (v_from _ _ _ _ _ V l) as (f & Hf & Sf); [now apply Kin|]. exists f. split; [apply planes_in_snoc; now left|exact Sf].
        -- exists e. split; [apply planes_in_snoc; now right|apply same_refl].
      * intros g u v Hg Cu Cv Gu Gv N. apply Cnew in Cu, Cv. destruct Cu as [Cu Hu], Cv as [Cv Hv]. apply planes_in_snoc in Hg. destruct Hg as [Hg| ->]; [|exists e; split; [apply in_or_app; right; now left|auto]].
        destruct (v_edges _ _ _ _ _ V g u v Hg Cu Cv Gu Gv N) as (l & Hl & Lu & Lv). destruct (Kout l Hl) as [K|K]; [exists l; split; [apply in_or_app; now left|auto]|].
        exists e. split; [apply in_or_app; right; now left|]. pose proof (K u Cu Lu). pose proof (K v Cv Lv). split; lra.
      * intros u v Cu Cv. apply Cnew in Cu, Cv. apply (v_diameter _ _ _ _ _ V); tauto.
Qed.
