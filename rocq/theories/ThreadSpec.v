(** Specification vocabulary for threads and for SerialSimulator and
    OpenMPSimulator. *)
From Verif Require Import Base RegionSpec RegionModel CoordModel CoordSpec GridModel GridSpec StencilModel UpdateModel UpdateSpec AdapterModel CudaSpec ThreadModel.

(** The cell which an action updates. *)
Definition act_coord (a : act) : coord := s_pre (fst a) ++ [s_x (fst a) + snd a].

(** ** Programs, on grids which are functions from places to cells *)

Definition put {C} (f : place -> C) (p : place) (v : C) : place -> C := fun q => if place_dec p q then v else f q.

Fixpoint effect {C S} (den : coord -> place) (p : prog C S) (f : place -> C) : (place -> C) * S * bool :=
  match p with
  | PDone s e => (f, s, e)
  | PGet c k => effect den (k (f (den c))) f
  | PSet c v p' => effect den p' (put f (den c) v)
  | PGetEdge k => effect den (k (f None)) f
  | PSetEdge v p' => effect den p' (put f None v)
  end.

(** Programs all of whose coordinates meet [P]. *)
Inductive accesses {C S} (P : coord -> Prop) : prog C S -> Prop :=
| acc_done s e : accesses P (PDone s e)
| acc_get c k : P c -> (forall v, accesses P (k v)) -> accesses P (PGet c k)
| acc_set c v p : P c -> accesses P p -> accesses P (PSet c v p)
| acc_get_edge k : (forall v, accesses P (k v)) -> accesses P (PGetEdge k)
| acc_set_edge v p : accesses P p -> accesses P (PSetEdge v p).

(** ** The reference simulation *)

(** The current generation, the one which is overwritten next, the step, the
    Steerers' memory, and the calls of Writers. *)
Record world (C S : Type) := mkWorld { w_cur : place -> C; w_prev : place -> C; w_step : nat; w_mem : S; w_log : list (wcall (place -> C)) }.
Arguments mkWorld {C S}. Arguments w_cur {C S}. Arguments w_prev {C S}. Arguments w_step {C S}. Arguments w_mem {C S}. Arguments w_log {C S}.

(** All cells at once. The edge cell isn't updated. *)
Definition advance {C} (t : topology) (dim : coord) (st : stencil) (u : list C -> C -> C) (cur prev : place -> C) : place -> C :=
  fun p => match p with
           | Some c => u (map (fun c' => cur (denotes t dim c')) (neighbors st c)) (prev p)
           | None => prev None
           end.

Definition is_due (e : ioevent) (step period : nat) : bool := match e with IoStep => Nat.eqb (Nat.modulo step period) 0 | _ => true end.

Section Reference.
Context {C S : Type} (st : stencil) (t : topology) (dim : coord) (upd : nat -> list C -> C -> C) (nanos start stop : nat).
Context (init : prog C S) (steerers : list (steerer C S)) (writers : list nat).
Notation den := (denotes t dim).

Definition fill (f : place -> C) : place -> C := fst (fst (effect den init f)).

(** All nano steps of a step. *)
Fixpoint advances (i n : nat) (cur prev : place -> C) : (place -> C) * (place -> C) :=
  match n with O => (cur, prev) | Datatypes.S n' => advances (Datatypes.S i) n' (advance t dim st (upd i) cur prev) cur end.

(** Steerers modify the current generation one after another. *)
Fixpoint steer (e : ioevent) (step : nat) (l : list (steerer C S)) (f : place -> C) (m : S) (ended : bool) : (place -> C) * S * bool :=
  match l with
  | [] => (f, m, ended)
  | y :: l' =>
      if is_due e step (y_period y) then
        let '(f', m', en) := effect den (y_act y step e m) f in steer e step l' f' m' (ended || en)
      else steer e step l' f m ended
  end.

Definition input (e : ioevent) (w : world C S) (ended : bool) : world C S * bool :=
  let '(f, m, en) := steer e (w_step w) steerers (w_cur w) (w_mem w) ended in
  (mkWorld f (w_prev w) (w_step w) m (w_log w), en).

(** Writers see the current generation. *)
Definition output (e : ioevent) (w : world C S) : world C S :=
  mkWorld (w_cur w) (w_prev w) (w_step w) (w_mem w)
    (w_log w ++ map (fun x => mkWCall (fst x) (w_step w) e (w_cur w))
                  (filter (fun x => is_due e (w_step w) (snd x)) (combine (seq 0 (length writers)) writers))).

Definition ref_step (w : world C S) (ended : bool) : world C S * bool :=
  let '(w1, en) := input IoStep w ended in
  let '(cur, prev) := advances 0 nanos (w_cur w1) (w_prev w1) in
  let n := Datatypes.S (w_step w1) in
  (output (if Nat.eqb n stop then IoAllDone else IoStep) (mkWorld cur prev n (w_mem w1) (w_log w1)), en).

(** At most [k] steps, until a Steerer ends the simulation. *)
Fixpoint ref_loop (k : nat) (w : world C S) (ended : bool) : world C S * bool :=
  match k with
  | O => (w, ended)
  | Datatypes.S k' => if ended then (w, ended) else let '(w', en) := ref_step w ended in ref_loop k' w' en
  end.

Definition ref_start (dflt : C) (mem : S) : world C S := mkWorld (fill (fresh dflt dflt)) (fill (fresh dflt dflt)) start mem [].

Definition ref_run (w : world C S) : world C S :=
  let '(w1, en) := input IoInitialized (mkWorld (fill (w_cur w)) (w_prev w) start (w_mem w) (w_log w)) false in
  let '(w2, en2) := ref_loop (stop - start) (output IoInitialized w1) en in
  fst (input IoAllDone w2 en2).
End Reference.

(** What users may do with a simulator. *)
Inductive usage := UStep | URun.

Fixpoint use {X} (stp rn : X -> option X) (l : list usage) (s : X) : option X :=
  match l with
  | [] => Some s
  | u :: l' => match (match u with UStep => stp s | URun => rn s end) with Some s' => use stp rn l' s' | None => None end
  end.

Definition ref_use {X} (stp rn : X -> X) (l : list usage) (w : X) : X := fold_left (fun w u => match u with UStep => stp w | URun => rn w end) l w.

(** ** Observing a simulator *)

(** A grid's contents, as seen through its interface. *)
Definition displays {C} (t : topology) (dim : coord) (d : dgrid C) (f : place -> C) : Prop :=
  g_edge (d_grid d) = f None /\ forall c, close_by dim c -> dg_get t false d c = Some (f (denotes t dim c)).

Definition same_call {C} (t : topology) (dim : coord) (a : wcall (dgrid C)) (b : wcall (place -> C)) : Prop :=
  wc_writer a = wc_writer b /\ wc_step a = wc_step b /\ wc_event a = wc_event b /\ displays t dim (wc_grid a) (wc_grid b).

Definition mirrors {C S} (t : topology) (dim : coord) (s : sim C S) (w : world C S) : Prop :=
  displays t dim (m_cur s) (w_cur w) /\ m_step s = w_step w /\ m_mem s = w_mem w /\ Forall2 (same_call t dim) (m_log s) (w_log w).

(** Configurations which the simulators can handle: cells read their neighbors
    at most one period away from the grid; the path for fixed coordinates
    requires a stencil of radius 1; tranches are at least one cell long. *)
Definition sim_ok {C S} (st : stencil) (t : topology) (dim : coord) (fixed : bool) (th : threading)
    (init : prog C S) (steerers : list (steerer C S)) (writers : list nat) : Prop :=
  dim <> [] /\ length t = length dim /\ Forall (fun n => 0 < n) dim /\
  (forall c, in_grid dim c -> Forall (close_by dim) (neighbors st c)) /\
  (fixed = true -> line_stencil st /\ st_dim st = length dim) /\ 1 <= th_gran th /\
  accesses (close_by dim) init /\
  Forall (fun y => (0 < y_period y)%nat /\ forall n e m, accesses (close_by dim) (y_act y n e m)) steerers /\ Forall (fun p => (0 < p)%nat) writers.

(** Threads work on their tasks, in whatever order. *)
Definition schedule (dim : coord) (bd : build) (cs : conc) (th : threading) (order : nat -> list act) : Prop :=
  forall area ts, sim_area dim = Some area -> tasks bd cs th area = Some ts -> forall k, interleaves (work ts) (order k).

(** Grids which look the same. *)
Definition agree {C} (dim : coord) (f g : place -> C) : Prop := f None = g None /\ forall c, in_grid dim c -> f (Some c) = g (Some c).

(** Initializers which set up [ic] and [edge], on a new grid and once more. *)
Definition sets_up {C S} (t : topology) (dim : coord) (dflt : C) (init : prog C S) (ic : coord -> C) (edge : C) : Prop :=
  let f := fill t dim init (fresh dflt dflt) in agree dim f (value ic edge) /\ agree dim (fill t dim init f) (value ic edge).

(** Initializers which set up [ic] and [edge], whatever the cells contain. *)
Definition always_sets_up {C S} (t : topology) (dim : coord) (dflt : C) (init : prog C S) (ic : coord -> C) (edge : C) : Prop :=
  forall f, f None = dflt \/ f None = edge -> agree dim (fill t dim init f) (value ic edge).

(** Cells which set all of their members in update(). *)
Definition overwrites {C} (upd : nat -> list C -> C -> C) : Prop := forall i vs v v', upd i vs v = upd i vs v'.
