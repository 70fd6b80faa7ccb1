(** Generic facts on lists used by several developments. *)
From Verif Require Import Base.
From Coq Require Import Sorted.

Lemma ss_app {A} (R : A -> A -> Prop) l1 l2 :
  StronglySorted R (l1 ++ l2) <->
  StronglySorted R l1 /\ StronglySorted R l2 /\ (forall x y, In x l1 -> In y l2 -> R x y).
Proof.
  induction l1 as [|a l1 IH]; cbn.
  - split; [intros H; repeat split; auto; [constructor|intros ? ? []]|tauto].
  - split.
    + intros H. inversion H as [|? ? H1 H2]; subst. apply IH in H1.
      destruct H1 as (Ha & Hb & Hc). rewrite Forall_app in H2. destruct H2 as [H2 H3].
      repeat split; auto.
      * constructor; auto.
      * intros x y [->|Hx] Hy; auto. rewrite Forall_forall in H3; auto.
    + intros (H1 & H2 & H3). inversion H1; subst. constructor.
      * apply IH. repeat split; auto.
      * apply Forall_app; split; auto. apply Forall_forall; auto.
Qed.

Lemma ss_cons {A} (R : A -> A -> Prop) a l :
  StronglySorted R (a :: l) <-> StronglySorted R l /\ (forall y, In y l -> R a y).
Proof.
  split.
  - intros H; inversion H; subst. split; auto. now apply Forall_forall.
  - intros [H1 H2]. constructor; auto. now apply Forall_forall.
Qed.

Lemma ss_nil {A} (R : A -> A -> Prop) : StronglySorted R [] <-> True.
Proof. split; auto. constructor. Qed.

Lemma Forall_cons_iff' {A} (P : A -> Prop) a l : Forall P (a :: l) <-> P a /\ Forall P l.
Proof. split; [intros H; inversion H; auto|intros []; auto]. Qed.

Lemma firstn_app_exact {A} (a b : list A) n : n = length a -> firstn n (a ++ b) = a.
Proof. intros ->. rewrite firstn_app, Nat.sub_diag, firstn_all. cbn. apply app_nil_r. Qed.

Lemma skipn_app_exact {A} (a b : list A) n : n = length a -> skipn n (a ++ b) = b.
Proof. intros ->. rewrite skipn_app, Nat.sub_diag, skipn_all. reflexivity. Qed.

Lemma nth_error_app_exact {A} (a b : list A) n : n = length a -> nth_error (a ++ b) n = hd_error b.
Proof. intros ->. rewrite nth_error_app2, Nat.sub_diag by lia. now destruct b. Qed.

Lemma list_snoc_cases {A} (l : list A) : l = [] \/ exists l' a, l = l' ++ [a].
Proof. destruct l using rev_ind; [left|right]; eauto. Qed.
