(** What an array of limited capacity is: a list. Separate from the model's
    helpers, except for reading single members. *)
From Verif Require Import Base GridModel FlatArrayModel.

(** An array contains a list of cells: all members of all elements can be read. *)
Definition contains {V} (members size : Z) (a : array V) (l : list (cell V)) : Prop :=
  ar_size a = size /\ ar_count a = Z.of_nat (length l) /\ Z.of_nat (length l) <= size /\ Z.of_nat (length (ar_data a)) = members * size /\
  forall i c m, vec_get l i = Some c -> 0 <= m < members -> ar_get a i m = Some (c m).

(** What operations do to a list ([None]: they throw), and when they may be called. *)
Inductive aspec {V} (members size : Z) : aop V -> list (cell V) -> option (list (cell V)) -> Prop :=
| as_set i c x y d : Z.of_nat (length x) = i -> aspec members size (ASet i c) (x ++ d :: y) (Some (x ++ c :: y))
| as_push c l : Z.of_nat (length l) < size -> aspec members size (APush c) l (Some (l ++ [c]))
| as_full c l : Z.of_nat (length l) = size -> aspec members size (APush c) l None
| as_pop l c : aspec members size APop (l ++ [c]) (Some l)
| as_empty : aspec members size APop [] None
| as_clear l : aspec members size AClear l (Some [])
| as_load src size' p q s from num offset x y z : contains members size' src (p ++ q ++ s) -> Z.of_nat (length p) = from -> Z.of_nat (length q) = num ->
    Z.of_nat (length x) = offset -> (length y = length q \/ (length y <= length q)%nat /\ z = []) -> Z.of_nat (length (x ++ q ++ z)) <= size ->
    aspec members size (ALoad src from num offset) (x ++ y ++ z) (Some (x ++ q ++ z))
| as_too_long src from num offset l : size < num + offset -> aspec members size (ALoad src from num offset) l None
| as_assign src size' l l' : contains members size' src l' -> Z.of_nat (length l') <= size -> aspec members size (AAssign src) l (Some l')
| as_too_large src size' l l' : contains members size' src l' -> size < Z.of_nat (length l') -> aspec members size (AAssign src) l None.

Inductive aspecs {V} (members size : Z) : list (aop V) -> list (cell V) -> list (cell V) -> list bool -> Prop :=
| ass_nil l : aspecs members size [] l l []
| ass_done o os l l1 l2 ts : aspec members size o l (Some l1) -> aspecs members size os l1 l2 ts -> aspecs members size (o :: os) l l2 (false :: ts)
| ass_thrown o os l l2 ts : aspec members size o l None -> aspecs members size os l l2 ts -> aspecs members size (o :: os) l l2 (true :: ts).
