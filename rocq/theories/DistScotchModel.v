(** DistributedPTScotchUnstructuredPartition: each rank hands over a slice of
    the graph to PT-SCOTCH, and gets the parts of the cells of its slice; then
    all ranks exchange what they know of the regions.

    Sources: geometry/partitions/distributedptscotchunstructuredpartition.h
    and communication/mpilayer.h, all below /repo/src/libgeodecomp.

    Simplifications: PT-SCOTCH is a parameter. Ranks run concurrently; messages
    between two ranks aren't reordered (same tag and communicator). A region is
    one message, although [sendRegion] sends the number of its streaks
    (MPI_Isend) and then the streaks (MPI_Send). MPI may or may not buffer a
    message. Integers are unbounded. The number of MPI ranks is the number of
    weights. *)
From Coq Require Import Floats.SpecFloat.
From Verif Require Import Base RegionSpec RegionModel RegionIterModel CoordModel RegionOpsModel RegionObjModel PatchModel GridModel UpdateModel AdjacencyModel
  ParamModel ScotchModel.

(** IEEE 754 single precision, rounding to nearest. *)
Definition single : arith spec_float :=
  mkArith spec_float (SFadd 24 128) (SFsub 24 128) (SFmul 24 128) (SFdiv 24 128) SFltb SFleb sf_trunc
    (fun z => binary_normalize 24 128 z 0 false).

(** ** Slices *)

Section Slices.
Context {N : Type} (A : arith N).

(** [float(rank) / numPartitions * cells], as size_t
    (distributedptscotchunstructuredpartition.h:111-112) *)
Definition slice_bound (num : nat) (cells rank : Z) : option Z :=
  a_trunc A (a_mul A (a_div A (a_ofZ A rank) (a_ofZ A (Z.of_nat num))) (a_ofZ A cells)).

(** [getStartEnd] (distributedptscotchunstructuredpartition.h:108-113) *)
Definition start_end (num : nat) (cells rank : Z) : option (Z * Z) :=
  obind (slice_bound num cells rank) (fun s => option_map (pair s) (slice_bound num cells (rank + 1))).
End Slices.

(** ** The graph of one rank *)

(** [initIndices] (distributedptscotchunstructuredpartition.h:145-175):
    [numEdges] is set to [currentEdge], which is the last element of
    verttabGra. *)
Definition local_graph (a : radj) (start end_ : Z) : option graph :=
  option_map (fun p => mkGraph (fst p) (snd p) (last (fst p) 0)) (adj_loop a (Z.to_nat (end_ - start)) start 0 [] []).

(** Partial regions (distributedptscotchunstructuredpartition.h:208-213) *)
Definition partial_regions (num : nat) (start : Z) (parts : list Z) : option (list indices) :=
  coords_loop parts start (repeat (reg_empty 1) num).

(** ** The exchange *)

Inductive xop := XSend (dest k : nat) | XRecv (src k : nat).

(** The loop (distributedptscotchunstructuredpartition.h:216-239) *)
Definition xprogram (num rank : nat) : list xop :=
  flat_map (fun j =>
    if negb (j =? rank)%nat then map (XSend j) (seq 0 num)
    else flat_map (fun i => if (i =? j)%nat then [] else map (XRecv i) (seq 0 num)) (seq 0 num)) (seq 0 num).

(** What is left to do, channels (from, to) and regions of each rank *)
Record xstate := mkX { x_todo : nat -> list xop; x_chan : nat -> nat -> list (list streak); x_regs : nat -> list indices }.

(** distributedptscotchunstructuredpartition.h:214; there are [num] ranks. *)
Definition xinit (num : nat) (partials : nat -> list indices) : xstate :=
  mkX (fun r => if (r <? num)%nat then xprogram num r else []) (fun _ _ => []) partials.

Definition put {A} (f : nat -> A) (i : nat) (v : A) : nat -> A := fun j => if (j =? i)%nat then v else f j.
Definition put2 {A} (f : nat -> nat -> A) (i j : nat) (v : A) : nat -> nat -> A := put f i (put (f i) j v).

(** [sendRegion] (mpilayer.h:260-270) of [partials.at(k)] *)
Definition xmessage (partials : nat -> list indices) (rank k : nat) : option (list streak) :=
  obind (nth_error (partials rank) k) reg_streaks.

(** [recvRegion] (mpilayer.h:276-289), then [regions.at(k) += received]
    (distributedptscotchunstructuredpartition.h:231-235) *)
Definition xreceive (rs : list indices) (k : nat) (m : list streak) : option (list indices) :=
  obind (nth_error rs k) (fun r =>
  obind (reg_union_assign r (rg_idx (rg_insert_all (rg_new 1) m))) (fun r' =>
  vec_set rs (Z.of_nat k) r')).

(** A message is buffered, a buffered message is received, or a message is
    handed over directly. *)
Inductive xevent := EBuffer (rank : nat) | EReceive (rank : nat) | EHandOver (from to : nat).

Inductive outcome := Next (s : xstate) | Blocked | Crash.

Definition xstep (partials : nat -> list indices) (s : xstate) (e : xevent) : outcome :=
  match e with
  | EBuffer rank =>
      match x_todo s rank with
      | XSend d k :: todo =>
          match xmessage partials rank k with
          | Some m => Next (mkX (put (x_todo s) rank todo) (put2 (x_chan s) rank d (x_chan s rank d ++ [m])) (x_regs s))
          | None => Crash
          end
      | _ => Blocked
      end
  | EReceive rank =>
      match x_todo s rank with
      | XRecv src k :: todo =>
          match x_chan s src rank with
          | m :: ms =>
              match xreceive (x_regs s rank) k m with
              | Some rs => Next (mkX (put (x_todo s) rank todo) (put2 (x_chan s) src rank ms) (put (x_regs s) rank rs))
              | None => Crash
              end
          | [] => Blocked
          end
      | _ => Blocked
      end
  | EHandOver from to =>
      match x_todo s from, x_todo s to, x_chan s from to with
      | XSend d k :: todo, XRecv src k' :: todo', [] =>
          if (d =? to)%nat && (src =? from)%nat then
            match xmessage partials from k with
            | Some m =>
                match xreceive (x_regs s to) k' m with
                | Some rs => Next (mkX (put (put (x_todo s) from todo) to todo') (x_chan s) (put (x_regs s) to rs))
                | None => Crash
                end
            | None => Crash
            end
          else Blocked
      | _, _, _ => Blocked
      end
  end.

(** ** The partition, as seen by one rank at the end *)

(** Slices of all ranks *)
Definition all_slices {N} (A : arith N) (num : nat) (cells : Z) : option (list (Z * Z)) :=
  omap (fun r => start_end A num cells (Z.of_nat r)) (seq 0 num).

(** Partial regions of all ranks; [scotch] gets the graphs of all ranks and
    the number of parts (SCOTCH_dgraphPart,
    distributedptscotchunstructuredpartition.h:192). *)
Definition all_partials {N} (A : arith N) (scotch : list graph -> nat -> list (list Z)) (num : nat) (cells : Z) (a : radj)
  : option (list (list indices)) :=
  obind (all_slices A num cells) (fun ss =>
  obind (omap (fun s => local_graph a (fst s) (snd s)) ss) (fun gs =>
  omap (fun p => partial_regions num (fst (fst p)) (snd p)) (combine ss (scotch gs num)))).
