(** Model of [Region<DIM>], /repo/src/libgeodecomp/geometry/region.h.
    Definitions only. *)
From Verif Require Import Base.

(** [IntPair], [IndexVectorType] (region.h:596-597). *)
Definition vec := list (Z * Z).

(** [IndexVectorType indices[DIM]] (region.h:1449), top level
    ([indices[DIM-1]]) first, [indices[0]] last. Dimensions are given by the
    length of the list; C++ fixes it by the template parameter. *)
Definition indices := list vec.

(** Default constructor (region.h:646-649): DIM empty vectors. *)
Definition reg_empty (dim : nat) : indices := repeat [] dim.

(** Number of leading entries satisfying [p]. *)
Fixpoint count_while {A} (p : A -> bool) (l : list A) : nat :=
  match l with
  | a :: l' => if p a then S (count_while p l') else O
  | [] => O
  end.

(** [RegionHelpers::upperBound] with [pairCompareFirst] (region.h:27-46,
    80-83) on [[start, fin)]: position of the first entry whose first
    component exceeds [c]. Simplification: the binary search of
    [std::upper_bound] and the two shortcuts are replaced by the result they
    have on sorted ranges. *)
Definition upper_bound (v : vec) (start fin : nat) (c : Z) : nat :=
  (start + count_while (fun e => (fst e <=? c)%Z) (firstn (fin - start) (skipn start v)))%nat.

(** [RegionCommonHelper::incRemainder] (region.h:94-107) on all entries from
    position [pos] on. *)
Definition inc_remainder (v : vec) (pos : nat) (inserts : Z) : vec :=
  firstn pos v ++ map (fun e => (fst e, snd e + inserts)) (skipn pos v).

(** Size of the next lower level, [region.indices[DIM - 1].size()]. *)
Definition size_below (rest : indices) : nat := length (hd [] rest).

(** [nextLevelEnd]: [i->second] or the size of the next level if [i] is the
    end (region.h:1801-1804, 1903-1906, 1918-1922,
    2069-2072). *)
Definition next_offset (v : vec) (i : nat) (rest : indices) : Z :=
  match nth_error v i with
  | Some e => snd e
  | None => Z.of_nat (size_below rest)
  end.

(** ** Insertion *)

(** [intersectOrTouch], [fuse] (region.h:2006-2019). *)
Definition intersect_or_touch (a b : Z * Z) : bool :=
  ((fst a <=? fst b) && (fst b <=? snd a)) || ((fst b <=? fst a) && (fst a <=? snd b)).

Definition fuse (a b : Z * Z) : Z * Z := (Z.min (fst a) (fst b), Z.max (snd a) (snd b)).

(** The while loop of [RegionInsertHelper<0>::operator()]
    (region.h:1982-1999) followed by the final insert (2001), as a function
    of the range [[cursor, end)]. Returns the new contents of that range and
    [inserts]. *)
Fixpoint insert_loop (range : vec) (cur : Z * Z) : vec * Z :=
  match range with
  | [] => ([cur], 1)
  | h :: t =>
      if fst h <=? snd cur then
        let touching := intersect_or_touch h cur in
        let cur' := if touching then fuse h cur else cur in
        let '(r, n) :=
          match t with
          | [] => ([cur'], 1)
          | h' :: _ => if intersect_or_touch h' cur' then insert_loop t cur' else (cur' :: t, 1)
          end in
        if touching then (r, n - 1) else (h :: r, n)
      else (cur :: range, 1)
  end.

(** [RegionInsertHelper<0>::operator()(region, s, start, end)]
    (region.h:1961-2003). *)
Definition insert_level0 (v : vec) (cur : Z * Z) (start fin : nat) : vec * Z :=
  let c := upper_bound v start fin (fst cur) in
  let cursor := if (c =? start)%nat then c else (c - 1)%nat in
  let '(r, n) := insert_loop (firstn (fin - cursor) (skipn cursor v)) cur in
  (firstn cursor v ++ r ++ skipn fin v, n).

(** [RegionInsertHelper<DIM>::operator()(region, s, start, end)]
    (region.h:1881-1940); recursion over the levels, [pre] are the streak's
    coordinates above x. The last case is ruled out by C++ typing. *)
Fixpoint insert_helper (pre : list Z) (idx : indices) (cur : Z * Z) (start fin : nat)
  {struct pre} : indices * Z :=
  match pre, idx with
  | [], [v] => let '(v', n) := insert_level0 v cur start fin in ([v'], n)
  | c :: pre', v :: rest =>
      let i := upper_bound v start fin c in
      let found :=
        if (i =? start)%nat then None
        else match nth_error v (i - 1) with
             | Some entry => if fst entry =? c then Some entry else None
             | None => None
             end in
      match found with
      | Some entry =>
          let next_start := Z.to_nat (snd entry) in
          let next_end := Z.to_nat (next_offset v i rest) in
          let '(rest', inserts) := insert_helper pre' rest cur next_start next_end in
          (inc_remainder v i inserts :: rest', 0)
      | None =>
          let next_start := next_offset v i rest in
          let v1 := firstn i v ++ (c, next_start) :: skipn i v in
          let '(rest', inserts) :=
            insert_helper pre' rest cur (Z.to_nat next_start) (Z.to_nat next_start) in
          (inc_remainder v1 (i + 1) inserts :: rest', 1)
      end
  | _, _ => (idx, 0)
  end.

(** [Region::operator<<(const Streak&)] (region.h:945-970). *)
Definition reg_insert (r : indices) (s : streak) : indices :=
  if s_e s <=? s_x s then r
  else fst (insert_helper (s_pre s) r (s_x s, s_e s) 0 (length (hd [] r))).

(** [Region::operator<<(const Coord&)] (region.h:972-976). A coordinate is
    split into the components above x and x. *)
Definition coord_streak (c : coord) : streak :=
  mkStreak (removelast c) (last c 0) (last c 0 + 1).

Definition reg_insert_coord (r : indices) (c : coord) : indices := reg_insert r (coord_streak c).

(** ** Removal *)

(** [intersect], [substract] of [RegionRemoveHelper<0>] (region.h:2163-2188). *)
Definition pair_intersect (a b : Z * Z) : bool :=
  ((fst a <=? fst b) && (fst b <? snd a)) || ((fst b <=? fst a) && (fst a <? snd b)).

Definition substract (base minuend : Z * Z) : vec :=
  if negb (pair_intersect base minuend) then [base]
  else
    (if fst base <? fst minuend then [(fst base, fst minuend)] else []) ++
    (if snd minuend <? snd base then [(snd minuend, snd base)] else []).

(** The while loop of [RegionRemoveHelper<0>::operator()]
    (region.h:2138-2157) on the range [[cursor, end)]. *)
Fixpoint remove_loop (range : vec) (cur : Z * Z) : vec * Z :=
  match range with
  | [] => ([], 0)
  | h :: t =>
      let hit := pair_intersect cur h in
      let new := if hit then substract h cur else [h] in
      let delta := Z.of_nat (length new) - 1 in
      let '(r, n) :=
        match t with
        | [] => ([], 0)
        | h' :: _ => if pair_intersect h' cur then remove_loop t cur else (t, 0)
        end in
      (new ++ r, n + delta)
  end.

(** [RegionRemoveHelper<0>::operator()(region, s, start, end)]
    (region.h:2113-2160). *)
Definition remove_level0 (v : vec) (cur : Z * Z) (start fin : nat) : vec * Z :=
  let c := upper_bound v start fin (fst cur) in
  let cursor := if (c =? start)%nat then c else (c - 1)%nat in
  let '(r, n) := remove_loop (firstn (fin - cursor) (skipn cursor v)) cur in
  (firstn cursor v ++ r ++ skipn fin v, n).

(** [RegionRemoveHelper<DIM>::operator()(region, s, start, end)]
    (region.h:2043-2092). *)
Fixpoint remove_helper (pre : list Z) (idx : indices) (cur : Z * Z) (start fin : nat)
  {struct pre} : indices * Z :=
  match pre, idx with
  | [], [v] => let '(v', n) := remove_level0 v cur start fin in ([v'], n)
  | c :: pre', v :: rest =>
      let i := upper_bound v start fin c in
      let found :=
        if (i =? start)%nat then None
        else match nth_error v (i - 1) with
             | Some entry => if fst entry =? c then Some entry else None
             | None => None
             end in
      match found with
      | Some entry =>
          let next_start := snd entry in
          let next_end := next_offset v i rest in
          let '(rest', inserts) :=
            remove_helper pre' rest cur (Z.to_nat next_start) (Z.to_nat next_end) in
          if next_start - next_end =? inserts
          then (inc_remainder (firstn (i - 1) v ++ skipn i v) (i - 1) inserts :: rest', -1)
          else (inc_remainder v i inserts :: rest', 0)
      | None => (idx, 0)
      end
  | _, _ => (idx, 0)
  end.

(** [Region::empty] (region.h:1278-1281). *)
Definition reg_is_empty (r : indices) : bool :=
  match last r [] with [] => true | _ => false end.

(** [Region::operator>>(const Streak&)] (region.h:999-1009). *)
Definition reg_remove (r : indices) (s : streak) : indices :=
  if (s_e s <=? s_x s) || reg_is_empty r then r
  else fst (remove_helper (s_pre s) r (s_x s, s_e s) 0 (length (hd [] r))).

(** [Region::operator>>(const Coord&)] (region.h:1011-1015). *)
Definition reg_remove_coord (r : indices) (c : coord) : indices := reg_remove r (coord_streak c).

(** ** Lookup *)

(** [RegionLookupHelper<DIM>::operator()] (region.h:1779-1815) and its
    specialisation for level 0 (region.h:1835-1860). [None] means that the
    C++ code dereferences an invalid iterator. *)
Fixpoint lookup_helper (pre : list Z) (idx : indices) (cur : Z * Z) (start fin : nat)
  {struct pre} : option bool :=
  match pre, idx with
  | [], [v] =>
      match v with
      | [] => Some false
      | _ =>
          let c := upper_bound v start fin (fst cur) in
          let cursor := if (c =? start)%nat then c else (c - 1)%nat in
          match nth_error v cursor with
          | Some e => Some ((fst e <=? fst cur) && (snd cur <=? snd e))
          | None => None
          end
      end
  | c :: pre', v :: rest =>
      let i := upper_bound v start fin c in
      if (i =? start)%nat then Some false
      else match nth_error v (i - 1) with
           | Some entry =>
               if fst entry =? c
               then lookup_helper pre' rest cur (Z.to_nat (snd entry))
                                  (Z.to_nat (next_offset v i rest))
               else Some false
           | None => None
           end
  | _, _ => None
  end.

(** [Region::count(const Streak&)] (region.h:920-923). *)
Definition reg_count_streak (r : indices) (s : streak) : option bool :=
  lookup_helper (s_pre s) r (s_x s, s_e s) 0 (length (hd [] r)).

(** [Region::count(const Coord&)] (region.h:928-931). *)
Definition reg_count (r : indices) (c : coord) : option bool :=
  reg_count_streak r (coord_streak c).

(** ** Equality *)

Definition pair_eqb (a b : Z * Z) : bool := (fst a =? fst b) && (snd a =? snd b).

Fixpoint list_eqb {A} (eqb : A -> A -> bool) (a b : list A) : bool :=
  match a, b with
  | [], [] => true
  | x :: a', y :: b' => eqb x y && list_eqb eqb a' b'
  | _, _ => false
  end.

(** [Region::operator==] (region.h:906-915). *)
Definition reg_eqb (a b : indices) : bool := list_eqb (list_eqb pair_eqb) a b.
