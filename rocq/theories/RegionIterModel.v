(** Model of [RegionStreakIterator]
    (/repo/src/libgeodecomp/geometry/regionstreakiterator.h) and of the
    iterator factories and the coordinate iterator of [Region<DIM>]
    (/repo/src/libgeodecomp/geometry/region.h). Definitions only. *)
From Verif Require Import Base RegionModel.

(** [iterators[DIM]] are positions in the index vectors (top level first);
    [streak] is the cached value returned by [operator*]
    (regionstreakiterator.h:156-162). Offset and additional length are passed
    as parameters, they never change while iterating. *)
Record siter := mkIter { it_pos : list nat; it_streak : streak }.

(** [ConstructStreakFromIterators] (region.h:113-151): components above x and
    the x-interval, shifted by the offset. [None]: invalid dereference. *)
Fixpoint it_keys (r : indices) (pos : list nat) (off : list Z) (al : Z)
  : option (list Z * (Z * Z)) :=
  match r, pos, off with
  | [v], [p], [o] =>
      match nth_error v p with
      | Some e => Some ([], (fst e + o, snd e + o + al))
      | None => None
      end
  | v :: rest, p :: pos', o :: off' =>
      match nth_error v p, it_keys rest pos' off' al with
      | Some e, Some (pre, xe) => Some ((fst e + o) :: pre, xe)
      | _, _ => None
      end
  | _, _, _ => None
  end.

Definition it_construct (r : indices) (pos : list nat) (off : list Z) (al : Z) : option streak :=
  match it_keys r pos off al with
  | Some (pre, (x, e)) => Some (mkStreak pre x e)
  | None => None
  end.

(** A default constructed [Streak<DIM>] (streak.h:23-28). *)
Definition streak_default (r : indices) : streak := mkStreak (repeat 0 (length r - 1)) 0 0.

(** [StreakIteratorInitBegin] (region.h:401-444), [Region::beginStreak]
    (region.h:1283-1286). *)
Definition it_begin (r : indices) (off : list Z) (al : Z) : option siter :=
  let pos := map (fun _ => O) r in
  if reg_is_empty r then Some (mkIter pos (streak_default r))
  else match it_construct r pos off al with
       | Some s => Some (mkIter pos s)
       | None => None
       end.

(** [StreakIteratorInitEnd] (region.h:450-489), [Region::endStreak]
    (region.h:1288-1291). *)
Definition it_end (r : indices) : siter := mkIter (map (@length _) r) (streak_default r).

(** [Compare], [operator==] (regionstreakiterator.h:16-51, 124-127). *)
Definition it_eqb (a b : siter) : bool := list_eqb Nat.eqb (it_pos a) (it_pos b).

(** [endReached] (regionstreakiterator.h:144-147). *)
Definition it_end_reached (r : indices) (it : siter) : bool :=
  (last (it_pos it) O =? length (last r []))%nat.

(** The loop over the upper levels in [operator++]
    (regionstreakiterator.h:103-121), evaluated from the bottom level (the
    innermost recursive call) upwards. The boolean tells whether the loop
    goes on, i.e. no [return] was executed yet. [p] at the lowest level has
    not been incremented yet. *)
Fixpoint it_up (r : indices) (pos : list nat) (pre off : list Z)
  : option (list nat * list Z * bool) :=
  match r, pos with
  | [v], [p] => Some ([S p], [], true)
  | v :: rest, p :: ps =>
      match pre, off with
      | c :: pre', o :: off' =>
          match it_up rest ps pre' off' with
          | Some (ps', pre'', true) =>
              if (S p =? length v)%nat then Some (p :: ps', c :: pre'', false)
              else match nth_error v (S p) with
                   | Some e =>
                       if Z.of_nat (hd O ps') =? snd e
                       then Some (S p :: ps', (fst e + o) :: pre'', true)
                       else Some (p :: ps', c :: pre'', false)
                   | None => None
                   end
          | Some (ps', pre'', false) => Some (p :: ps', c :: pre'', false)
          | None => None
          end
      | _, _ => None
      end
  | _, _ => None
  end.

(** [operator++] (regionstreakiterator.h:90-122). *)
Definition it_next (r : indices) (off : list Z) (al : Z) (it : siter) : option siter :=
  let n0 := S (last (it_pos it) O) in
  if (n0 =? length (last r []))%nat
  then Some (mkIter (map (@length _) r) (it_streak it))
  else match nth_error (last r []) n0 with
       | None => None
       | Some e =>
           match it_up r (it_pos it) (s_pre (it_streak it)) off with
           | Some (pos', pre', _) =>
               Some (mkIter pos' (mkStreak pre' (fst e + last off 0) (snd e + last off 0 + al)))
           | None => None
           end
       end.

(** The idiom [for (i = begin; i != end; ++i) use( *i )]. [None]: undefined
    behaviour or out of fuel. *)
Fixpoint it_run (fuel : nat) (r : indices) (off : list Z) (al : Z) (it fin : siter)
  : option (list streak) :=
  if it_eqb it fin then Some []
  else match fuel with
       | O => None
       | S f =>
           match it_next r off al it with
           | None => None
           | Some it' =>
               match it_run f r off al it' fin with
               | Some l => Some (it_streak it :: l)
               | None => None
               end
           end
       end.

(** All streaks of a Region in iteration order, shifted by [off] and
    lengthened by [al]; [off = 0] and [al = 0] are the default arguments. *)
Definition reg_streaks_off (r : indices) (off : list Z) (al : Z) : option (list streak) :=
  match it_begin r off al with
  | Some b => it_run (length (last r [])) r off al b (it_end r)
  | None => None
  end.

Definition zero_off (r : indices) : list Z := map (fun _ => 0) r.

Definition reg_streaks (r : indices) : option (list streak) := reg_streaks_off r (zero_off r) 0.

(** [Region::numStreaks] (region.h:738-741), [Region::numPlanes]
    (region.h:1337-1340). *)
Definition reg_num_streaks (r : indices) : nat := length (last r []).
Definition reg_num_planes (r : indices) : nat := length (hd [] r).

(** [StreakIteratorInitSingleOffset] (region.h:204-278): positions found from
    the lowest level upwards. [upperBound] with [pairCompareSecond] counts
    the entries whose offset does not exceed the position below. *)
Fixpoint it_locate (r : indices) (p0 : nat) : list nat :=
  match r with
  | [] => []
  | [v] => [p0]
  | v :: rest =>
      let ps := it_locate rest p0 in
      (count_while (fun e => (snd e <=? Z.of_nat (hd O ps))%Z) v - 1)%nat :: ps
  end.

(** [Region::operator[](std::size_t)] (region.h:1307-1316). *)
Definition reg_at (r : indices) (off : nat) : option siter :=
  if (off =? 0)%nat then it_begin r (zero_off r) 0
  else if (reg_num_streaks r <=? off)%nat then Some (it_end r)
  else let pos := it_locate r off in
       match it_construct r pos (zero_off r) 0 with
       | Some s => Some (mkIter pos s)
       | None => None
       end.

(** [StreakIteratorInitPlaneOffset] (region.h:164-199): follow the offsets
    from the top level downwards. *)
Fixpoint it_descend (r : indices) (p : nat) : option (list nat) :=
  match r with
  | [] => None
  | [v] => Some [p]
  | v :: rest =>
      match nth_error v p with
      | Some e => match it_descend rest (Z.to_nat (snd e)) with
                  | Some ps => Some (p :: ps)
                  | None => None
                  end
      | None => None
      end
  end.

(** [Region::planeStreakIterator] (region.h:1325-1335). *)
Definition reg_plane (r : indices) (off : nat) : option siter :=
  if (off =? 0)%nat then it_begin r (zero_off r) 0
  else if (reg_num_planes r <=? off)%nat then Some (it_end r)
  else match it_descend r off with
       | None => None
       | Some pos =>
           match it_construct r pos (zero_off r) 0 with
           | Some s => Some (mkIter pos s)
           | None => None
           end
       end.

(** ** [Region::Iterator] (region.h:602-643) *)

Record citer := mkCIter { ci_streak : siter; ci_cursor : coord }.

Definition ci_make (it : siter) : citer := mkCIter it (s_origin (it_streak it)).

(** [operator++] (region.h:611-618). *)
Definition ci_next (r : indices) (ci : citer) : option citer :=
  let s := it_streak (ci_streak ci) in
  let cur := removelast (ci_cursor ci) ++ [last (ci_cursor ci) 0 + 1] in
  if s_e s <=? last cur 0 then
    match it_next r (zero_off r) 0 (ci_streak ci) with
    | Some it => Some (ci_make it)
    | None => None
    end
  else Some (mkCIter (ci_streak ci) cur).

(** [operator==] (region.h:620-624). *)
Definition ci_eqb (r : indices) (a b : citer) : bool :=
  it_eqb (ci_streak a) (ci_streak b) &&
  (it_end_reached r (ci_streak a) || list_eqb Z.eqb (ci_cursor a) (ci_cursor b)).

Fixpoint ci_run (fuel : nat) (r : indices) (a fin : citer) : option (list coord) :=
  if ci_eqb r a fin then Some []
  else match fuel with
       | O => None
       | S f =>
           match ci_next r a with
           | None => None
           | Some a' =>
               match ci_run f r a' fin with
               | Some l => Some (ci_cursor a :: l)
               | None => None
               end
           end
       end.

(** [for (i = begin(); i != end(); ++i)] (region.h:1342-1350) with a given
    bound on the number of steps. *)
Definition reg_coords (fuel : nat) (r : indices) : option (list coord) :=
  match it_begin r (zero_off r) 0 with
  | Some b => ci_run fuel r (ci_make b) (ci_make (it_end r))
  | None => None
  end.
