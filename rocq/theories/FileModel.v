(** Checkpoints via MPI-IO and Brick of Values (BOV) files. Definitions only.

    Source: io/mpiio.h, io/mpiioinitializer.h, io/mpiiowriter.h,
    io/parallelmpiiowriter.h, io/bovwriter.h, io/bovoutput.h,
    io/serialbovwriter.h below /repo/src/libgeodecomp. Offsets are unbounded.

    MPI-IO is modelled after the MPI standard: with the default file view,
    file pointers count bytes, and a write (or read) of [n] items stores (or
    fetches) their data one after the other, without the gaps which the
    datatype may have in memory. Hence a datatype has a size (the bytes which
    go to the file) and an extent (the distance of items in memory). Each call
    of a writer yields a list of such writes; writes of different processes
    may be executed in any order. *)
From Verif Require Import Base RegionSpec RegionModel RegionOpsModel RegionIterModel CoordModel GridModel.

Section File.
Context {B : Type}.

(** A byte which hasn't been written is [None]. *)
Definition file : Type := Z -> option B.

Definition file_write : Type := Z * list B.

Definition write_at (f : file) (w : file_write) : file :=
  fun k => if (fst w <=? k) && (k <? fst w + Z.of_nat (length (snd w))) then nth_error (snd w) (Z.to_nat (k - fst w)) else f k.

Definition run_writes (f : file) (ws : list file_write) : file := fold_left write_at ws f.

Fixpoint read_at (f : file) (off : Z) (n : nat) : option (list B) :=
  match n with O => Some [] | S n' => obind (f off) (fun b => option_map (cons b) (read_at f (off + 1) n')) end.

(** A datatype: packing, unpacking, size and extent ([getLength],
    mpiio.h:171-177, returns the extent). *)
Record dtype (A : Type) := mkDType { dt_size : Z; dt_ext : Z; dt_pack : A -> list B; dt_unpack : list B -> A }.
Arguments mkDType {A}. Arguments dt_size {A}. Arguments dt_ext {A}. Arguments dt_pack {A}. Arguments dt_unpack {A}.

(** [MPI_File_read] of [n] items. *)
Fixpoint read_items {A} (T : dtype A) (f : file) (off : Z) (n : nat) : option (list A) :=
  match n with
  | O => Some []
  | S n' => obind (read_at f off (Z.to_nat (dt_size T))) (fun l =>
            option_map (cons (dt_unpack T l)) (read_items T f (off + dt_size T) n'))
  end.

Definition read_item {A} (T : dtype A) (f : file) (off : Z) : option A :=
  obind (read_at f off (Z.to_nat (dt_size T))) (fun l => Some (dt_unpack T l)).

Section Mpiio.
Context {A : Type} (TC : dtype coord) (TU : dtype Z) (T : dtype A) (t : topology).

(** [getLengths] (lines 193-203) *)
Definition header_length : Z := dt_ext TC + 2 * dt_ext TU + dt_ext T.

(** [offset] (lines 183-191) *)
Definition cell_offset (c dims : coord) : Z := header_length + to_index c dims * dt_ext T.

(** [writeRegion] (lines 80-132): the header (rank 0 only, lines 99-112; the
    file pointer advances by the size of what is written) ... *)
Definition header_writes (dims : coord) (step maxs : Z) (edge : A) : list file_write :=
  [(0, dt_pack TC dims); (dt_size TC, dt_pack TU step); (dt_size TC + dt_size TU, dt_pack TU maxs);
   (dt_size TC + 2 * dt_size TU, dt_pack T edge)].

(** ... and the streaks (lines 114-129). [get] yields the cells of the grid
    which is written. *)
Definition streak_write (dims : coord) (get : coord -> A) (s : streak) : file_write :=
  (cell_offset (normalize t (s_origin s) dims) dims, flat_map (dt_pack T) (map get (streak_coords s))).

Record wcall := mkWCall { w_rank : Z; w_get : coord -> A; w_edge : A; w_region : indices }.

Definition mpiio_write (dims : coord) (step maxs : Z) (k : wcall) : option (list file_write) :=
  option_map (fun ss => (if w_rank k =? 0 then header_writes dims step maxs (w_edge k) else []) ++ map (streak_write dims (w_get k)) ss)
    (reg_streaks (w_region k)).

(** All calls: one per process (MPIIOWriter, mpiiowriter.h:50-70), or one per
    process and patch (ParallelMPIIOWriter, parallelmpiiowriter.h:42-66). *)
Fixpoint mpiio_writes (dims : coord) (step maxs : Z) (ks : list wcall) : option (list file_write) :=
  match ks with
  | [] => Some []
  | k :: ks' => obind (mpiio_write dims step maxs k) (fun w => option_map (app w) (mpiio_writes dims step maxs ks'))
  end.

(** [readMetadata] (lines 63-77), [getDimensions] (lines 205-211) *)
Definition read_metadata (f : file) : option (coord * Z * Z) :=
  obind (read_item TC f 0) (fun d =>
  obind (read_item TU f (dt_size TC)) (fun s =>
  obind (read_item TU f (dt_size TC + dt_size TU)) (fun m => Some (d, s, m)))).

(** [readRegion] (lines 25-61): the edge cell, and what is handed to
    [grid->set()] for each Streak. *)
Fixpoint read_streaks (f : file) (dims : coord) (ss : list streak) : option (list (streak * list A)) :=
  match ss with
  | [] => Some []
  | s :: ss' =>
      if s_e s <? s_x s then None
      else obind (read_items T f (cell_offset (normalize t (s_origin s) dims) dims) (Z.to_nat (s_e s - s_x s))) (fun l =>
           option_map (cons (s, l)) (read_streaks f dims ss'))
  end.

Definition read_region (f : file) (r : indices) : option (A * list (streak * list A)) :=
  obind (read_item TC f 0) (fun dims =>
  obind (read_item T f (header_length - dt_ext T)) (fun edge =>
  obind (reg_streaks r) (fun ss => option_map (pair edge) (read_streaks f dims ss)))).
End Mpiio.

(** ** BOV *)
Section Bov.
Context {A E : Type} (T : dtype E) (t : topology) (arity : Z) (member : A -> list E).

(** What [saveMemberUnchecked] puts into the buffer: the components of each
    cell's member, cell by cell. *)
Definition bov_buffer (get : coord -> A) (s : streak) : list E := flat_map member (map get (streak_coords s)).

(** [BOVWriter::writeRegion] (bovwriter.h:133-168): [length] items of the
    datatype are written. *)
Definition bov_write (dims : coord) (get : coord -> A) (s : streak) : file_write :=
  (to_index (normalize t (s_origin s) dims) dims * dt_ext T * arity,
   flat_map (dt_pack T) (firstn (Z.to_nat (s_e s - s_x s)) (bov_buffer get s))).

Fixpoint bov_writes (dims : coord) (ks : list (wcall (A := A))) : option (list file_write) :=
  match ks with
  | [] => Some []
  | k :: ks' => obind (reg_streaks (w_region k)) (fun ss => option_map (app (map (bov_write dims (w_get k)) ss)) (bov_writes dims ks'))
  end.

(** [BOVOutput::writeGrid] (bovoutput.h:64-100), for a grid whose bounding box
    is [b]: one streak after the other. [None]: the walk through the box didn't
    end within [fuel] steps. *)
Definition serial_bov (fuel : nat) (b : box) (get : coord -> A) : option (list B) :=
  option_map (flat_map (fun s => flat_map (dt_pack T) (bov_buffer get s))) (box_streaks fuel b).
End Bov.
End File.
Arguments dtype : clear implicits. Arguments mkDType {B A}. Arguments dt_size {B A}. Arguments dt_ext {B A}. Arguments dt_pack {B A}. Arguments dt_unpack {B A}.
