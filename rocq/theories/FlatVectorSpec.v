(** What a vector is: a list. Separate from the model's helpers. *)
From Verif Require Import Base RegionSpec CoordModel GridModel FlatVectorModel.

(** The largest size LibFlatArray offers by default *)
Definition largest : Z := 1073741856.

(** What operations do to a list. There is no step for those which must not be
    called. Elements which [resize] adds are not specified. *)
Inductive vstep {C} : vop C -> list C -> list C -> Prop :=
| vs_set i e a b x : Z.of_nat (length a) = i -> vstep (VSet i e) (a ++ x :: b) (a ++ e :: b)
| vs_push e l : Z.of_nat (length l) < largest -> vstep (VPush e) l (l ++ [e])
| vs_pop l e : vstep VPop (l ++ [e]) l
| vs_shrink n a b : Z.of_nat (length a) = n -> vstep (VResize n) (a ++ b) a
| vs_grow n l more : Z.of_nat (length (l ++ more)) = n -> n <= largest -> vstep (VResize n) l (l ++ more)
| vs_reserve n l : Z.of_nat (length l) <= n <= largest -> vstep (VReserve n) l l
| vs_clear l : vstep VClear l [].

(** An operation may be called if something is specified for it. *)
Definition allowed {C} (o : vop C) (l : list C) : Prop := exists l', vstep o l l'.

(** Any list which the operations may lead to must be one the next operation
    may be called for: only its length matters. *)
Inductive all_allowed {C} : list (vop C) -> list C -> Prop :=
| aa_nil l : all_allowed [] l
| aa_cons o os l : allowed o l -> (forall l', vstep o l l' -> all_allowed os l') -> all_allowed (o :: os) l.

Inductive vsteps {C} : list (vop C) -> list C -> list C -> Prop :=
| vss_nil l : vsteps [] l l
| vss_cons o os l l' l'' : vstep o l l' -> vsteps os l' l'' -> vsteps (o :: os) l l''.
