(** What splitting a string means, independently of how it is done. *)
From Coq Require Import Ascii.
From Verif Require Import Base.

Section Spec.
Variable isd : ascii -> Prop.

Definition free (w : list ascii) : Prop := Forall (fun c => ~ isd c) w.

(** [tokenized s l]: reading [s] from left to right, skipping delimiters,
    the maximal non-empty delimiter-free runs are [l]. A run ends where the
    string ends or where a delimiter follows. *)
Inductive tokenized : list ascii -> list (list ascii) -> Prop :=
| tk_nil : tokenized [] []
| tk_delim : forall c s l, isd c -> tokenized s l -> tokenized (c :: s) l
| tk_last : forall w, w <> [] -> free w -> tokenized w [w]
| tk_word : forall w c s l, w <> [] -> free w -> isd c -> tokenized (c :: s) l -> tokenized (w ++ c :: s) (w :: l).

End Spec.
