(** StringOps::tokenize and StringOps::join. Definitions only.

    Source: /repo/src/libgeodecomp/misc/stringops.h. Strings are lists of
    characters; std::set<std::size_t> is an ascending list without
    duplicates. [None] is undefined behaviour. *)
From Coq Require Import Ascii.
From Verif Require Import Base RegionOpsModel.

Definition str := list ascii.

(** [std::string::find(c, pos)]; [None] is npos. *)
Fixpoint find_from (s : str) (c : ascii) (i pos : nat) : option nat :=
  match s with
  | [] => None
  | x :: s' => if (pos <=? i)%nat && Ascii.eqb x c then Some i else find_from s' c (S i) pos
  end.

Definition find_char (s : str) (c : ascii) (pos : nat) : option nat := find_from s c 0 pos.

(** [std::set::insert] *)
Fixpoint set_insert (x : nat) (l : list nat) : list nat :=
  match l with
  | [] => [x]
  | y :: l' => if (x =? y)%nat then l else if (x <? y)%nat then x :: l else y :: set_insert x l'
  end.

(** The loop over the occurrences of a delimiter (stringops.h:63-72). *)
Fixpoint mark (fuel : nat) (s : str) (c : ascii) (pos : option nat) (starts ends : list nat) : option (list nat * list nat) :=
  match pos with
  | Some p =>
      if (p <? length s)%nat then
        match fuel with
        | O => None
        | S n => mark n s c (find_char s c (S p)) (set_insert (S p) starts) (set_insert p ends)
        end
      else Some (starts, ends)
  | None => Some (starts, ends)
  end.

Fixpoint mark_all (s : str) (ds : str) (starts ends : list nat) : option (list nat * list nat) :=
  match ds with
  | [] => Some (starts, ends)
  | c :: ds' => obind (mark (length s) s c (find_char s c 0) starts ends) (fun se => mark_all s ds' (fst se) (snd se))
  end.

(** [string.substr(i, n)] *)
Definition substr (s : str) (i n : nat) : str := firstn n (skipn i s).

(** The final loop (stringops.h:77-81) *)
Fixpoint cut (s : str) (starts ends : list nat) : option (list str) :=
  match starts, ends with
  | [], _ => Some []
  | i :: starts', j :: ends' => option_map (fun r => if (i =? j)%nat then r else substr s i (j - i) :: r) (cut s starts' ends')
  | _ :: _, [] => None
  end.

(** [tokenize] (stringops.h:53-84) *)
Definition tokenize (s ds : str) : option (list str) :=
  obind (mark_all s ds (set_insert 0 []) (set_insert (length s) [])) (fun se => cut s (fst se) (snd se)).

(** [join] (stringops.h:86-98) *)
Fixpoint join (tokens : list str) (d : str) : str :=
  match tokens with
  | [] => []
  | [t] => t
  | t :: ts => t ++ d ++ join ts d
  end.
