(** Filters which copy members from and to the memory of GPUs. Definitions
    only.

    Sources: storage/defaultcudafilter.h, storage/defaultcudaarrayfilter.h and
    the filters for the host, storage/defaultfilter.h and
    storage/defaultarrayfilter.h, all below /repo/src/libgeodecomp.

    Memory is a list of values, beginning where the pointer points to; MEMBER
    and EXTERNAL are the same type (as is required by the calls of cudaMemcpy).
    Threads of a kernel run one after the other, in any order; source and target
    don't overlap. [None] is an exception or an access beyond the end of an
    array. Indices don't overflow. [copyMemberIn] and [copyMemberOut] of
    DefaultCUDAArrayFilter are left out, they call cudaMemcpy for each cell. *)
From Verif Require Import Base RegionSpec RegionOpsModel GridModel SoAModel.

(** memorylocation.h *)
Inductive location := Host | Device.

(** [target[p] = source[s]], or [target[p].*member = source[s]]: [rd] reads the
    source, [put] assigns to a part of the target. *)
Definition step {X V} (put : V -> X -> X) (rd : Z -> option V) (w : Z * Z) (m : list X) : option (list X) :=
  obind (rd (snd w)) (fun v => obind (vec_get m (fst w)) (fun x => vec_set m (fst w) (put v x))).

(** The same, for a whole value *)
Definition assign {V} : V -> V -> V := fun v _ => v.

(** [cudaMemcpy], [std::copy] *)
Definition memcpy {V} (src : list V) (num : Z) (dst : list V) : option (list V) :=
  each (step assign (vec_get src)) (map (fun q => (q, q)) (zrange 0 num)) dst.

(** A launch of [blocks] blocks with 32 threads each. Threads are pairs of
    [blockIdx.x] and [threadIdx.x]. [checkForError] throws if the number of blocks
    is none that CUDA allows (cudautil.h:48-55). *)
Definition threads1 (blocks : Z) : list (Z * Z) := list_prod (zrange 0 blocks) (zrange 0 32).
Definition launch1 {S} (order : Z -> list (Z * Z)) (blocks : Z) (k : Z * Z -> S -> option S) (m : S) : option S :=
  if (0 <? blocks) && (blocks <=? 2147483647) then each k (order blocks) m else None.

(** ** DefaultArrayFilter *)
Section Array.
Context {V : Type} (order : Z -> list (Z * Z)) (junk : Z -> V) (A : Z).

(** The loops of [copyStreakInImpl] and [copyStreakOutImpl] on the host
    (defaultarrayfilter.h:26-30, 43-47): pairs of the index written and the one
    read *)
Definition host_pairs (f : Z -> Z -> Z * Z) (num : Z) : list (Z * Z) :=
  flat_map (fun i => map (fun j => f i j) (zrange 0 A)) (zrange 0 num).
Definition host_array_in (src : list V) (tgt : list V) (num stride : Z) : option (list V) :=
  each (step assign (vec_get src)) (host_pairs (fun i j => (j * stride + i, i * A + j)) num) tgt.
Definition host_array_out (src : list V) (tgt : list V) (num stride : Z) : option (list V) :=
  each (step assign (vec_get src)) (host_pairs (fun i j => (i * A + j, j * stride + i)) num) tgt.

(** [for (int i = threadIdx.x; i < n; i += blockDim.x)] *)
Fixpoint strided (fuel : nat) (i n : Z) : list Z :=
  match fuel with O => [] | S fuel' => if i <? n then i :: strided fuel' (i + 32) n else [] end.

(** [aggregateMemberArray] (defaultcudaarrayfilter.h:18-29) and
    [runAggregateMemberArrayKernel] (44-61) *)
Definition aggregate_array (src : list V) (tgt : list V) (num stride : Z) : option (list V) :=
  launch1 order num (fun th => each (step assign (vec_get src))
    (map (fun i => (fst th * A + i, i * stride + fst th)) (strided (Z.to_nat A) (snd th) A))) tgt.

(** [distributeMemberArray] (defaultcudaarrayfilter.h:31-42) and
    [runDistributeMemberArrayKernel] (63-80). The parameter [stride] isn't used. *)
Definition distribute_array (src : list V) (tgt : list V) (num stride : Z) : option (list V) :=
  launch1 order A (fun th => each (step assign (vec_get src))
    (map (fun i => (fst th * num + i, i * A + fst th)) (strided (Z.to_nat num) (snd th) num))) tgt.

(** [cudaMalloc] *)
Definition device_buffer (n : Z) : list V := map junk (zrange 0 n).

(** [copyStreakInImpl] (defaultcudaarrayfilter.h:97-169) *)
Definition cuda_array_in (sl tl : location) (src : list V) (tgt : list V) (num stride : Z) : option (list V) :=
  match sl, tl with
  | Device, Device => distribute_array src tgt num stride
  | Device, Host => obind (distribute_array src (device_buffer (num * A)) num stride) (fun buf => memcpy buf (num * A) tgt)
  | Host, Device => obind (memcpy src (num * A) (device_buffer (num * A))) (fun buf => distribute_array buf tgt num stride)
  | Host, Host => host_array_in src tgt num stride
  end.

(** [copyStreakOutImpl] (defaultcudaarrayfilter.h:171-243) *)
Definition cuda_array_out (sl tl : location) (src : list V) (tgt : list V) (num stride : Z) : option (list V) :=
  match sl, tl with
  | Device, Device => aggregate_array src tgt num stride
  | Device, Host => obind (aggregate_array src (device_buffer (num * A)) num stride) (fun buf => memcpy buf (num * A) tgt)
  | Host, Device => obind (memcpy src (num * A) (device_buffer (num * A))) (fun buf => aggregate_array buf tgt num stride)
  | Host, Host => host_array_out src tgt num stride
  end.
End Array.

(** ** DefaultFilter *)
Section Member.
Context {C V : Type} (order : Z -> list (Z * Z)) (junk : Z -> V) (get : C -> V) (put : V -> C -> C).

(** [copyMemberInImpl], [copyMemberOutImpl] on the host (defaultfilter.h:54-56,
    69-71) *)
Definition host_member_in (src : list V) (tgt : list C) (num : Z) : option (list C) :=
  each (step put (vec_get src)) (map (fun i => (i, i)) (zrange 0 num)) tgt.
Definition host_member_out (src : list C) (tgt : list V) (num : Z) : option (list V) :=
  each (step assign (fun s => option_map get (vec_get src s))) (map (fun i => (i, i)) (zrange 0 num)) tgt.

(** [distributeMember], [aggregateMember] (defaultcudafilter.h:38-64) and the
    functions which launch them (67-103) *)
Definition thread_cell (num : Z) (th : Z * Z) : list (Z * Z) :=
  let index := 32 * fst th + snd th in if index <? num then [(index, index)] else [].
Definition distribute_member (src : list V) (tgt : list C) (num : Z) : option (list C) :=
  launch1 order (num / 32 + 1) (fun th => each (step put (vec_get src)) (thread_cell num th)) tgt.
Definition aggregate_member (src : list C) (tgt : list V) (num : Z) : option (list V) :=
  launch1 order (num / 32 + 1) (fun th => each (step assign (fun s => option_map get (vec_get src s))) (thread_cell num th)) tgt.

(** [copyMemberInImpl] (defaultcudafilter.h:210-266). [std::vector]'s elements
    have been initialised, but it doesn't matter with what. *)
Definition cuda_member_in (sl tl : location) (src : list V) (tgt : list C) (num : Z) : option (list C) :=
  match sl, tl with
  | Device, Device => distribute_member src tgt num
  | Device, Host => obind (memcpy src num (map junk (zrange 0 num))) (fun buf => host_member_in buf tgt num)
  | Host, Device => obind (memcpy src num (map junk (zrange 0 num))) (fun buf => distribute_member buf tgt num)
  | Host, Host => host_member_in src tgt num
  end.

(** [copyMemberOutImpl] (defaultcudafilter.h:268-323) *)
Definition cuda_member_out (sl tl : location) (src : list C) (tgt : list V) (num : Z) : option (list V) :=
  match sl, tl with
  | Device, Device => aggregate_member src tgt num
  | Device, Host => obind (aggregate_member src (map junk (zrange 0 num)) num) (fun buf => memcpy buf num tgt)
  | Host, Device => obind (host_member_out src (map junk (zrange 0 num)) num) (fun buf => memcpy buf num tgt)
  | Host, Host => host_member_out src tgt num
  end.
End Member.
