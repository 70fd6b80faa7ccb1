(** Specification vocabulary for MPI datatypes. *)
From Coq Require Import Permutation.
From Verif Require Import Base TypemapModel.

(** The bytes (relative to an object's address) which belong to members, as
    opposed to padding *)
Inductive data_byte : ctype -> Z -> Prop :=
| db_prim size e o : 0 <= o < size -> data_byte (Prim size e) o
| db_member reg ms k t num off i o : nth_error ms k = Some (t, num) -> nth_error (member_offsets ms) k = Some off -> (i < num)%nat -> data_byte t o ->
    data_byte (Class reg ms) (off + Z.of_nat i * size_of t + o).

(** All members are passed to the code generator, exactly once, in any order.
    There are neither empty classes nor empty arrays. *)
Inductive registered : ctype -> Prop :=
| reg_prim size e : 0 < size -> (2 ^ Z.of_nat e | size) -> registered (Prim size e)
| reg_class reg ms : ms <> [] -> Permutation reg (seq 0 (length ms)) -> Forall (fun m => registered (fst m) /\ (0 < snd m)%nat) ms -> registered (Class reg ms).

(** Sending [num] objects copies all of their members, for each object, and
    nothing else. *)
Definition transfers (base : Z) (ty : ctype) : Prop := forall (B : Type) num (src dst : Z -> B) a b,
  let dst' := transfer (lookup base ty) num src a dst b in
  (forall i o, (i < num)%nat -> data_byte ty o -> dst' (b + Z.of_nat i * size_of ty + o) = src (a + Z.of_nat i * size_of ty + o)) /\
  (forall x, (forall i o, (i < num)%nat -> data_byte ty o -> x <> b + Z.of_nat i * size_of ty + o) -> dst' x = dst x).
