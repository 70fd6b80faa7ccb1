(** Reading text files; separate from the model's helpers. *)
From Verif Require Import Base AsciiModel.

(** All values, and those of each line *)
Definition values {V} (f : list (token V)) : list V := flat_map (fun t => match t with Newline => [] | Value v => [v] end) f.
Fixpoint lines {V} (f : list (token V)) : list (list V) :=
  match f with
  | [] => [[]]
  | Newline :: f' => [] :: lines f'
  | Value v :: f' => match lines f' with l :: ls => (v :: l) :: ls | [] => [[v]] end
  end.

(** Blank lines are skipped. *)
Definition rows {V} (f : list (token V)) : list (list V) := filter (fun l => match l with [] => false | _ => true end) (lines f).
