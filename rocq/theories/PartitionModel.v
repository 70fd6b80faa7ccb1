(** Model of the basic partitions
    (/repo/src/libgeodecomp/geometry/partitions). Definitions only. *)
From Verif Require Import Base RegionModel RegionIterModel CoordModel RegionOpsModel.

(** [Partition::Partition] (partition.h:33-44): [startOffsets]. *)
Fixpoint start_offsets (offset : Z) (weights : list Z) : list Z :=
  match weights with
  | [] => [offset]
  | w :: ws => offset :: start_offsets (offset + w) ws
  end.

(** [for (i = start; i != end; ++i)] over arbitrary iterators; collects the
    coordinates. [None]: out of fuel or an exception. *)
Fixpoint iter_range {It : Type} (next : It -> option It) (eqb : It -> It -> bool) (deref : It -> coord)
    (fuel : nat) (i e : It) : option (list coord) :=
  if eqb i e then Some []
  else match fuel with
       | O => None
       | S f => obind (next i) (fun i' => obind (iter_range next eqb deref f i' e) (fun l => Some (deref i :: l)))
       end.

(** [Region::load] (region.h:684-696) with the coordinates of the range. *)
Definition reg_of_coords (n : nat) (l : list coord) : indices := fold_left reg_insert_coord l (reg_empty n).

(** [startOffsets[node]] and [startOffsets[node + 1]]. *)
Definition node_range (offset : Z) (weights : list Z) (node : nat) : option (Z * Z) :=
  obind (nth_error (start_offsets offset weights) node) (fun a =>
  obind (nth_error (start_offsets offset weights) (S node)) (fun b => Some (a, b))).

(** ** StripingPartition *)

(** Constructor (stripingpartition.h:28-43). *)
Definition striping_dims (dims : coord) : coord :=
  if prod dims =? 0 then match dims with [] => [] | _ :: ds => 0 :: map (fun _ => 1) ds end else dims.

(** [operator[]] (stripingpartition.h:63-67); the iterator's cursor. *)
Definition striping_at (origin dims : coord) (pos : Z) : option coord :=
  obind (index_to_coord dims pos) (fun c => Some (zadd c origin)).

(** [getRegion] (stripingpartition.h:56-61). *)
Definition striping_region (fuel : nat) (origin dims0 : coord) (offset : Z) (weights : list Z) (node : nat)
    : option indices :=
  let dims := striping_dims dims0 in
  obind (node_range offset weights node) (fun '(a, b) =>
  obind (striping_at origin dims a) (fun i =>
  obind (striping_at origin dims b) (fun e =>
  obind (box_run fuel i e origin (zadd origin dims)) (fun l =>
  Some (reg_of_coords (length dims) l))))).

(** ** UnstructuredStripingPartition *)

(** [getRegion] (unstructuredstripingpartition.h:27-43). *)
Definition unstructured_striping_region (origin : Z) (offset : Z) (weights : list Z) (node : nat) : option indices :=
  obind (node_range (origin + offset) weights node) (fun '(a, b) => Some (reg_insert (reg_empty 1) (mkStreak [] a b))).

(** ** CheckerboardingPartition *)

(** The inner loop of [primeFactors] (checkerboardingpartition.h:112-131)
    and the loop over the candidates; [i] counts up to [limit] in steps of
    2. *)
Fixpoint prime_factors_loop (fuel : nat) (limit i : Z) (primes : list Z) : list Z :=
  match fuel with
  | O => primes
  | S f => if i <=? limit
           then prime_factors_loop f limit (i + 2)
                  (if existsb (fun p => i mod p =? 0) primes then primes else primes ++ [i])
           else primes
  end.

Definition prime_factors (limit : Z) : list Z := prime_factors_loop (Z.to_nat limit) limit 3 [2].

(** [while ((remainingNodes % *i) == 0)] (checkerboardingpartition.h:67-71).
    [None]: the loop does not end. *)
Fixpoint divide_out (fuel : nat) (n p : Z) : option (Z * nat) :=
  if n mod p =? 0
  then match fuel with
       | O => None
       | S f => obind (divide_out f (n / p) p) (fun '(n', k) => Some (n', S k))
       end
  else Some (n, O).

(** The loop over the primes in descending order (lines 63-76); returns the
    remaining nodes and the factors. *)
Fixpoint factor_loop (n : Z) (primes : list Z) : option (Z * list (Z * nat)) :=
  match primes with
  | [] => Some (n, [])
  | p :: ps =>
      obind (divide_out (Z.to_nat n) n p) (fun '(n', k) =>
      obind (factor_loop n' ps) (fun '(n'', fs) =>
      Some (n'', if (k =? 0)%nat then fs else (p, k) :: fs)))
  end.

(** [*minElement(ret) *= prime] (lines 88-91, 98-109): the first dimension
    (x first) with the smallest value. The list is least significant first
    here. *)
Fixpoint mul_first_min (m : Z) (l : list Z) (p : Z) : list Z :=
  match l with
  | [] => []
  | x :: l' => if x =? m then x * p :: l' else x :: mul_first_min m l' p
  end.

Definition list_min (l : list Z) : Z := fold_right Z.min (hd 0 l) l.

Definition mul_min (l : list Z) (p : Z) : list Z := mul_first_min (list_min l) l p.

Fixpoint mul_min_times (k : nat) (l : list Z) (p : Z) : list Z :=
  match k with O => l | S k' => mul_min_times k' (mul_min l p) p end.

(** [std::sort] on the components (line 94): any sorting function will do,
    this one is insertion sort. *)
Fixpoint insert_sorted (x : Z) (l : list Z) : list Z :=
  match l with
  | [] => [x]
  | y :: l' => if x <=? y then x :: l else y :: insert_sorted x l'
  end.
Definition sort_z (l : list Z) : list Z := fold_right insert_sorted [] l.

(** [getNodeGridDim] (checkerboardingpartition.h:56-96); the result is most
    significant dimension first, i.e. descending. [sqrt] of the standard
    library is the parameter [limit]. *)
Definition node_grid_dim (dim : nat) (limit total : Z) : option coord :=
  obind (factor_loop total (rev (prime_factors limit))) (fun '(rest, fs) =>
  let factors := if rest =? 1 then fs else (rest, 1%nat) :: fs in
  Some (rev (sort_z (fold_left (fun l '(p, k) => mul_min_times k l p) factors (repeat 1 dim))))).

(** [logicalCoord] (checkerboardingpartition.h:35-40), for 2D and 3D. *)
Definition logical_coord (grid : coord) (node : Z) : option coord :=
  match grid with
  | [gy; gx] => Some [(node mod (gx * gy)) / gx; node mod gx]
  | [gz; gy; gx] => Some [node / (gx * gy); (node mod (gx * gy)) / gx; node mod gx]
  | _ => None
  end.

Fixpoint zmap3 (f : Z -> Z -> Z -> Z) (a b c : coord) : coord :=
  match a, b, c with
  | x :: a', y :: b', z :: c' => f x y z :: zmap3 f a' b' c'
  | _, _, _ => []
  end.

(** [getRegion] (checkerboardingpartition.h:33-50). Integer division of
    non-negative numbers. *)
Definition checker_box (origin dims grid lc : coord) : box :=
  let rstart := zmap3 (fun l n g => l * n / g) lc dims grid in
  let rend := zmap3 (fun l n g => (l + 1) * n / g) lc dims grid in
  mkBox (zadd origin rstart) (zsub rend rstart).

Definition checker_region (fuel : nat) (limit : Z) (origin dims : coord) (nodes : nat) (node : nat) : option indices :=
  obind (node_grid_dim (length dims) limit (Z.of_nat nodes)) (fun grid =>
  obind (logical_coord grid (Z.of_nat node)) (fun lc =>
  reg_insert_box fuel (reg_empty (length dims)) (checker_box origin dims grid lc))).

(** ** RecursiveBisectionPartition *)

(** Position of the first entry of [offs[lo..hi)] which is at least [x]
    ([std::lower_bound]). *)
Definition lower_bound_z (offs : list Z) (lo hi : nat) (x : Z) : nat :=
  (lo + count_while (fun y => (y <? x)%Z) (firstn (hi - lo) (skipn lo offs)))%nat.

(** [longestDim] (recursivebisectionpartition.h:111-117): the first (x first)
    dimension with the largest weighted extent; as index into the list of
    dimensions, least significant first. *)
Fixpoint longest_dim (i : nat) (best : nat) (bestv : Z) (l : list Z) : nat :=
  match l with
  | [] => best
  | x :: l' => if bestv <? x then longest_dim (S i) i x l' else longest_dim (S i) best bestv l'
  end.

Fixpoint zmul (a b : coord) : coord :=
  match a, b with x :: a', y :: b' => x * y :: zmul a' b' | _, _ => [] end.

Fixpoint set_nth (i : nat) (v : Z) (l : list Z) : list Z :=
  match l, i with
  | [], _ => []
  | _ :: l', O => v :: l'
  | x :: l', S i' => x :: set_nth i' v l'
  end.

(** [round(ratio * dim)] of the standard library with [ratio = num / den] is
    the parameter [rnd num den dim] of the following definitions; the code
    computes it with [double]s. This is the exact value, [round] of the
    rational [num * n / den], halves away from zero ([num, n >= 0],
    [den > 0]). *)
Definition round_exact (num den n : Z) : Z := (2 * num * n + den) / (2 * den).

(** [splitBox] (recursivebisectionpartition.h:103-124). [num/den] is the
    ratio. The axis is given as index into the most significant first list. *)
Definition split_axis (dimw dim : coord) : nat :=
  (length dim - 1 - match rev (zmul dim dimw) with [] => O | x :: l => longest_dim 1 0 x l end)%nat.

Definition split_box (rnd : Z -> Z -> Z -> Z) (dimw : coord) (b : box) (num den : Z) : box * box :=
  let ax := split_axis dimw (b_dim b) in
  let n := nth ax (b_dim b) 0 in
  let off := rnd num den n in
  (mkBox (b_origin b) (set_nth ax off (b_dim b)),
   mkBox (set_nth ax (nth ax (b_origin b) 0 + off) (b_origin b)) (set_nth ax (n - off) (b_dim b))).

(** [approxMiddle] (recursivebisectionpartition.h:77-90). Reading
    [offs[mid - 1]] is only in range if [mid > 0]. *)
Definition approx_middle (offs : list Z) (lo hi : nat) : option nat :=
  obind (nth_error offs lo) (fun a => obind (nth_error offs hi) (fun b =>
  let half := (a + b) / 2 in
  let m := lower_bound_z offs lo hi half in
  obind (nth_error offs m) (fun v =>
  if v =? half then Some m
  else match m with
       | O => None
       | S p => obind (nth_error offs p) (fun u => Some (if half - u <? v - half then p else m))
       end))).

(** [searchNodeCuboid] (recursivebisectionpartition.h:67-101). [None]: the
    recursion does not end, a read out of range or a division by zero (in
    floating point: an undefined conversion of NaN to int). *)
Fixpoint search_cuboid (rnd : Z -> Z -> Z -> Z) (fuel : nat) (dimw : coord) (offs : list Z) (lo hi node : nat) (b : box) : option box :=
  if (hi - lo =? 1)%nat then Some b
  else match fuel with
       | O => None
       | S f =>
           obind (approx_middle offs lo hi) (fun m =>
           obind (nth_error offs lo) (fun vl => obind (nth_error offs m) (fun vm =>
           obind (nth_error offs hi) (fun vh => obind (nth_error offs node) (fun vn =>
           if vh - vl =? 0 then None
           else
             let '(b0, b1) := split_box rnd dimw b (vm - vl) (vh - vl) in
             if vn <? vm then search_cuboid rnd f dimw offs lo m node b0
             else search_cuboid rnd f dimw offs m hi node b1)))))
       end.

(** [getRegion] (recursivebisectionpartition.h:41-52). The constructor passes
    0 instead of the offset (line 34) and throws for empty domains. *)
Definition bisection_box (rnd : Z -> Z -> Z -> Z) (origin dims dimw : coord) (weights : list Z) (node : nat) : option box :=
  if prod dims =? 0 then None
  else search_cuboid rnd (length weights) dimw (start_offsets 0 weights) 0 (length weights) node (mkBox origin dims).

Definition bisection_region (rnd : Z -> Z -> Z -> Z) (fuel : nat) (origin dims dimw : coord) (weights : list Z) (node : nat) : option indices :=
  obind (bisection_box rnd origin dims dimw weights node) (fun b => reg_insert_box fuel (reg_empty (length dims)) b).
