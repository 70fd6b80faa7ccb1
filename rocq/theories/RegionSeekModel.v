(** Model of [Region::streakIteratorOnOrAfter]
    (/repo/src/libgeodecomp/geometry/region.h:1372-1445). Definitions only. *)
From Verif Require Import Base RegionModel RegionIterModel RegionOpsModel.

(** [RegionHelpers::lowerBound] with [pairCompareFirst] (region.h:52-72,
    80-83) on [[start, fin)]: position of the first entry whose first
    component is at least [c]. Same simplification as [upper_bound]. *)
Definition lower_bound (v : vec) (start fin : nat) (c : Z) : nat :=
  (start + count_while (fun e => (fst e <? c)%Z) (firstn (fin - start) (skipn start v)))%nat.

(** The inner loop of the case [cursor == iter2] (region.h:1405-1408); [e] is
    [*cursor]. [cursor] is only dereferenced if there is another level. *)
Fixpoint seek_dig (rest : indices) (e : Z * Z) : option (list nat) :=
  match rest with
  | [] => Some []
  | v :: rest' =>
      if fst e <? 0 then None
      else match rest' with
           | [] => Some [Z.to_nat (fst e)]
           | _ => if snd e - 1 <? 0 then None
                  else obind (nth_error v (Z.to_nat (snd e - 1))) (fun e' =>
                       obind (seek_dig rest' e') (fun ps => Some (Z.to_nat (fst e) :: ps)))
           end
  end.

(** The loop over the levels (region.h:1384-1441). [None]: undefined
    behaviour; [Some None]: [endStreak()]; otherwise the offsets and whether
    the iterator is advanced once. *)
Fixpoint seek (r : indices) (c : coord) (i1 i2 : nat) : option (option (list nat * bool)) :=
  match r, c with
  | v :: rest, x :: c' =>
      let cur := lower_bound v i1 i2 x in
      if (cur =? length v)%nat then Some None
      else if (cur =? i2)%nat then
        match cur with
        | O => None
        | S cur' => obind (nth_error v cur) (fun e => obind (seek_dig rest e) (fun ps => Some (Some (cur' :: ps, true))))
        end
      else match rest with
           | [] => Some (Some ([cur], false))
           | _ :: _ =>
               obind (nth_error v cur) (fun e =>
               if fst e =? x then
                 match seek rest c' (Z.to_nat (snd e)) (Z.to_nat (next_offset v (S cur) rest)) with
                 | Some (Some (ps, inc)) => Some (Some (cur :: ps, inc))
                 | o => o
                 end
               else obind (it_descend rest (Z.to_nat (snd e))) (fun ps => Some (Some (cur :: ps, false))))
           end
  | _, _ => None
  end.

(** [operator[](const Coord&)] (region.h:1298-1301) and the final increment. *)
Definition reg_on_or_after (r : indices) (c : coord) : option siter :=
  match seek r c 0 (length (hd [] r)) with
  | None => None
  | Some None => Some (it_end r)
  | Some (Some (pos, inc)) =>
      obind (it_construct r pos (zero_off r) 0) (fun s =>
      if inc then it_next r (zero_off r) 0 (mkIter pos s) else Some (mkIter pos s))
  end.
