(** Specification of bounded maps and bounded sequences. *)
From Verif Require Import Base ArrayModel GridModel.

(** A map as a list of pairs with different keys, in any order. *)
Definition map_find {A} (l : list (Z * A)) (k : Z) : option A :=
  option_map snd (find (fun p => fst p =? k) l).

Definition map_has {A} (l : list (Z * A)) (k : Z) : bool := existsb (fun p => fst p =? k) l.

(** What an operation does to a map with at most [size] keys, and whether it
    succeeds. *)
Definition map_op {A} (size : Z) (l : list (Z * A)) (o : ccop A) : list (Z * A) * bool :=
  match o with
  | CInsert k v =>
      if map_has l k then (map (fun p => if fst p =? k then (k, v) else p) l, true)
      else if Z.of_nat (length l) =? size then (l, false)
      else ((k, v) :: l, true)
  | CRemove k => (filter (fun p => negb (fst p =? k)) l, map_has l k)
  | CClear => ([], true)
  end.

Fixpoint map_ops {A} (size : Z) (l : list (Z * A)) (os : list (ccop A)) : list (Z * A) * list bool :=
  match os with
  | [] => (l, [])
  | o :: os' => let '(l1, b) := map_op size l o in let '(l2, bs) := map_ops size l1 os' in (l2, b :: bs)
  end.

(** An array holds a list. *)
Definition holds_list {A} (size : Z) (a : farray A) (l : list A) : Prop :=
  fa_num a = Z.of_nat (length l) /\ fa_num a <= size /\ length (fa_store a) = Z.to_nat size /\ firstn (length l) (fa_store a) = l.

(** What an operation does to a list of at most [size] elements; growing via
    resize is left out, as this exposes arbitrary elements. *)
Definition seq_op {A} (size : Z) (l : list A) (o : faop A) : list A * bool :=
  match o with
  | FPush v => if Z.of_nat (length l) <? size then (l ++ [v], true) else (l, false)
  | FConcat b =>
      let l' := l ++ firstn (Z.to_nat (fa_num b)) (fa_store b) in
      if Z.of_nat (length l') <=? size then (l', true) else (l, false)
  | FRemove i => (firstn (Z.to_nat i) l ++ skipn (Z.to_nat i + 1) l, true)
  | FClear => ([], true)
  | FResize n => if n <=? size then (firstn (Z.to_nat n) l, true) else (l, false)
  end.

Definition seq_ok {A} (size : Z) (l : list A) (o : faop A) : Prop :=
  match o with
  | FConcat b => exists lb, holds_list size b lb
  | FRemove i => 0 <= i < Z.of_nat (length l)
  | FResize n => 0 <= n /\ (n <= Z.of_nat (length l) \/ size < n)
  | _ => True
  end.

Fixpoint seq_ops {A} (size : Z) (l : list A) (os : list (faop A)) : list A * list bool :=
  match os with
  | [] => (l, [])
  | o :: os' => let '(l1, b) := seq_op size l o in let '(l2, bs) := seq_ops size l1 os' in (l2, b :: bs)
  end.

Fixpoint seqs_ok {A} (size : Z) (l : list A) (os : list (faop A)) : Prop :=
  match os with
  | [] => True
  | o :: os' => seq_ok size l o /\ seqs_ok size (fst (seq_op size l o)) os'
  end.
