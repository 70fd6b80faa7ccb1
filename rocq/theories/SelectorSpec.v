(** Specification vocabulary for Selectors: what a filter is supposed to do
    with a single member, and how a cell is spread over the memory of a
    soa_grid. *)
From Verif Require Import Base RegionSpec RegionModel CoordModel CoordSpec PatchModel GridModel SoAModel SelectorModel.

Section Spec.
Context {B : Type}.
Notation bytes := (list B).

(** [n] bytes at [p], and replacing as many bytes as [v] has at [p]. *)
Definition slice (l : bytes) (p n : Z) : bytes := firstn (Z.to_nat n) (skipn (Z.to_nat p) l).
Definition splice (l : bytes) (p : Z) (v : bytes) : bytes := firstn (Z.to_nat p) l ++ v ++ skipn (Z.to_nat p + length v) l.

(** Size of the elements and the arity of the member which a filter handles,
    and the size of the whole member. *)
Definition elem (f : filter B) : Z :=
  match f with FDefault s => s | FArray s _ => s | FSimple ms _ _ _ => ms | FSimpleArray ms _ _ _ _ => ms | FMember s _ _ _ => s end.
Definition nelem (f : filter B) : Z := match f with FArray _ a => a | FSimpleArray _ _ a _ _ => a | _ => 1 end.
Definition msize (f : filter B) : Z := nelem f * elem f.

(** Sizes are positive, user-defined functions fit the sizes, members lie inside of
    what they are members of. *)
Fixpoint filter_ok (f : filter B) : Prop :=
  0 < elem f /\ 0 < nelem f /\
  match f with
  | FSimple ms es load save =>
      0 < es /\ forall m, length m = Z.to_nat ms -> length (save m) = Z.to_nat es /\
        forall e, length e = Z.to_nat es -> length (load e m) = Z.to_nat ms
  | FSimpleArray ms es a load save =>
      0 < es /\ forall m, length m = Z.to_nat (a * ms) -> length (save m) = Z.to_nat (a * es) /\
        forall e, length e = Z.to_nat (a * es) -> length (load e m) = Z.to_nat (a * ms)
  | FMember s dflt pos f' => length dflt = Z.to_nat s /\ 0 <= pos /\ pos + msize f' <= s /\ filter_ok f'
  | _ => True
  end.

(** The external representation of a member, and the member after an external
    value has been assigned. *)
Fixpoint view (f : filter B) (m : bytes) : bytes :=
  match f with
  | FDefault _ | FArray _ _ => m
  | FSimple _ _ _ save | FSimpleArray _ _ _ _ save => save m
  | FMember _ _ pos f' => view f' (slice m pos (msize f'))
  end.
Fixpoint put (f : filter B) (e m : bytes) : bytes :=
  match f with
  | FDefault _ | FArray _ _ => e
  | FSimple _ _ load _ | FSimpleArray _ _ _ load _ => load e m
  | FMember _ _ pos f' => splice m pos (put f' e (slice m pos (msize f')))
  end.

(** Filters which don't select a part of a member. *)
Definition whole (f : filter B) : Prop := match f with FMember _ _ _ _ => False | _ => True end.
(** Filters which preserve the external value. *)
Fixpoint faithful (f : filter B) : Prop :=
  match f with
  | FSimple ms es load save => forall e m, length e = Z.to_nat es -> length m = Z.to_nat ms -> save (load e m) = e
  | FSimpleArray ms es a load save => forall e m, length e = Z.to_nat (a * es) -> length m = Z.to_nat (a * ms) -> save (load e m) = e
  | FMember _ _ _ f' => faithful f'
  | _ => True
  end.
(** Filters for arrays which set all elements, regardless of what was there. *)
Definition overwrites (f : filter B) : Prop :=
  match f with FSimpleArray ms es a load _ => forall e m m', length m = length m' -> load e m = load e m' | _ => True end.
(** At most one level of members of members *)
Definition shallow (f : filter B) : Prop := match f with FMember _ _ _ f' => whole f' | _ => overwrites f end.

(** Members of an object of [csize] bytes: they don't overlap. *)
Definition memb_len (m : memb) : Z := m_arity m * m_size m.
Definition memb_in (csize : Z) (m : memb) : Prop := 0 < m_size m /\ 0 < m_arity m /\ 0 <= m_pos m /\ m_pos m + memb_len m <= csize.
Definition memb_apart (a b : memb) : Prop := m_pos a + memb_len a <= m_pos b \/ m_pos b + memb_len b <= m_pos a.
Definition reg_ok (csize : Z) (reg : list memb) : Prop := Forall (memb_in csize) reg /\ ForallOrdPairs memb_apart reg.

(** The registered members of an object. *)
Definition get_memb (cell : bytes) (m : memb) : bytes := slice cell (m_pos m) (memb_len m).

(** The ways to create a Selector for a member. *)
Inductive sel_made (reg : option (list memb)) : memb -> selector B -> Prop :=
| made_member pos size sel : 0 < size -> sel_member reg pos size = Some sel -> sel_made reg (mkMemb pos size 1) sel
| made_array pos size a sel : 0 < size -> 0 < a -> sel_array reg pos size a = Some sel -> sel_made reg (mkMemb pos size a) sel
| made_filter m f sel : filter_ok f -> elem f = m_size m -> nelem f = m_arity m -> sel_filter reg m f = Some sel -> sel_made reg m sel
| made_nested pos size dflt pos2 size2 sel : length dflt = Z.to_nat size -> 0 <= pos2 -> 0 < size2 -> pos2 + size2 <= size ->
    sel_nested reg pos size dflt pos2 size2 = Some sel -> sel_made reg (mkMemb pos size 1) sel
| made_nested_array pos size dflt pos2 size2 a sel : length dflt = Z.to_nat size -> 0 <= pos2 -> 0 < size2 -> 0 < a -> pos2 + size2 * a <= size ->
    sel_nested_array reg pos size dflt pos2 size2 a = Some sel -> sel_made reg (mkMemb pos size 1) sel
| made_nested2 pos size dflt pos2 size2 dflt2 pos3 size3 sel : length dflt = Z.to_nat size -> length dflt2 = Z.to_nat size2 ->
    0 <= pos2 -> pos2 + size2 <= size -> 0 <= pos3 -> 0 < size3 -> pos3 + size3 <= size2 ->
    sel_nested2 reg pos size dflt pos2 size2 dflt2 pos3 size3 = Some sel -> sel_made reg (mkMemb pos size 1) sel.

(** The memory of a soa_grid holds cells: element [j] of member [k] of cell
    [i] is found in the array for element [j] of member [k]; those arrays come
    one after the other, each as large as the number of cells demands. *)
Definition soa_holds (csize : Z) (reg : list memb) (mem : bytes) (cells : list bytes) : Prop :=
  let n := Z.of_nat (length cells) in
  Z.of_nat (length mem) = n * cell_bytes reg /\ Forall (fun c => length c = Z.to_nat csize) cells /\
  forall i cell k m j, vec_get cells i = Some cell -> nth_error reg k = Some m -> 0 <= j < m_arity m ->
    slice mem (soa_addr n (member_off reg k) (m_size m) j i) (m_size m) = slice cell (m_pos m + j * m_size m) (m_size m).

(** ** Saving and loading *)

(** The member as represented externally, for some cells. *)
Definition saved (get : coord -> option bytes) (m : memb) (f : filter B) (cs : list coord) (out : bytes) : Prop :=
  exists vals, Forall2 (fun c v => get c = Some v) cs vals /\ out = flat_map (fun v => view f (get_memb v m)) vals.

(** Assigning an external value to the member of a cell: nothing but this
    member changes. Filters of the given kind do with the member what they
    should; faithful ones preserve the external value. *)
Definition assigned (kind : filter B -> Prop) (m : memb) (f : filter B) (e old new : bytes) : Prop :=
  exists v, new = splice old (m_pos m) v /\ length v = Z.to_nat (memb_len m) /\
    (kind f -> v = put f e (get_memb old m)) /\ (faithful f -> view f v = e).

(** External values are assigned to some cells, others don't change. [get],
    [get'] access the grid before and afterwards. *)
Definition assigns (kind : filter B -> Prop) (get get' : coord -> option bytes) (dom : coord -> Prop) (m : memb) (f : filter B) (cs : list coord) (src : bytes) : Prop :=
  (forall i c, nth_error cs i = Some c -> exists old new, get c = Some old /\ get' c = Some new /\
     assigned kind m f (slice src (Z.of_nat i * ext_size f) (ext_size f)) old new) /\
  forall c, dom c -> ~ In c cs -> get' c = get c.
End Spec.
