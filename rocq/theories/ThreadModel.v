(** Threads in UpdateFunctor, and the simulators which are built upon it:
    SerialSimulator and OpenMPSimulator. Definitions only.

    Sources: storage/updatefunctor.h, storage/updatefunctormacros.h,
    misc/apitraits.h, parallelization/serialsimulator.h,
    parallelization/openmpsimulator.h, all below /repo/src/libgeodecomp.

    [None] is undefined behaviour or out of fuel. *)
From Verif Require Import Base RegionSpec RegionModel RegionIterModel RegionOpsModel CoordModel PatchModel GridModel StencilModel UpdateModel
  PartitionManagerModel AdapterModel GridReach.

(** ** Which threads update which Streaks *)

(** ConcurrencyNoP, ConcurrencyEnableOpenMP, ConcurrencyEnableHPX
    (updatefunctor.h:290-389). *)
Record conc := mkConc { c_openmp : bool; c_hpx : bool; c_static : bool; c_fine : bool }.

Definition no_concurrency : conc := mkConc false false false false.
Definition enable_openmp (updating_ghost fine : bool) : conc := mkConc true false (negb updating_ghost) fine.
Definition enable_hpx (updating_ghost fine : bool) : conc := mkConc false true false fine.

(** What cells tell about threads in their own update()
    (apitraits.h:720-781). *)
Record threading := mkThreading { th_openmp : bool; th_hpx : bool; th_gran : Z }.

Definition default_threading : threading := mkThreading false false 16384.

(** LIBGEODECOMP_WITH_THREADS, LIBGEODECOMP_WITH_HPX *)
Record build := mkBuild { with_threads : bool; with_hpx : bool }.

(** [for (i = b; i != e; ++i)] *)
Definition range (r : indices) (b e : siter) : option (list streak) := it_run (reg_num_streaks r) r (zero_off r) 0 b e.

(** The loops over planes (updatefunctormacros.h:11-23, 27-38): one task per
    plane. Which thread executes it when is up to OpenMP. *)
Definition planes (r : indices) : option (list (list streak)) :=
  omap (fun c => obind (reg_plane r c) (fun b => obind (reg_plane r (S c)) (range r b))) (seq 0 (reg_num_planes r)).

(** The same for HPX (updatefunctormacros.h:86-104). *)
Fixpoint chain (r : indices) (last : siter) (c n : nat) : option (list (list streak)) :=
  match n with
  | O => Some []
  | S n' => obind (reg_plane r (S c)) (fun next => obind (range r last next) (fun l => option_map (cons l) (chain r next (S c) n')))
  end.

(** One task per tranche (updatefunctormacros.h:41-63, 108-140). *)
Definition pieces (gran : Z) (r : indices) : option (list (list streak)) :=
  option_map (map (fun s => [s])) (obind (reg_streaks r) (cut_streaks gran)).

(** LGD_UPDATE_FUNCTOR_THREADING_SELECTOR_1 to 8
    (updatefunctormacros.h:9-154). *)
Definition tasks (b : build) (cs : conc) (th : threading) (r : indices) : option (list (list streak)) :=
  if with_threads b && c_openmp cs && negb (th_openmp th) then
    if c_static cs then planes r else if negb (c_fine cs) then planes r else pieces (th_gran th) r
  else if with_hpx b && c_hpx cs && negb (th_hpx th) then
    if negb (c_fine cs) then obind (it_begin r (zero_off r) 0) (fun last => chain r last 0 (reg_num_planes r)) else pieces (th_gran th) r
  else option_map (fun l => [l]) (reg_streaks r).

(** ** What the threads do *)

(** Updating the [k]-th cell of a Streak. Threads take turns between cells,
    i.e. reading and writing the target cell is one action: nobody else
    accesses that cell, see C157. *)
Definition act : Type := (streak * Z)%type.

Definition streak_acts (s : streak) : list act := map (pair s) (zrange 0 (s_e s - s_x s)).

Definition work (ts : list (list streak)) : list (list act) := map (flat_map streak_acts) ts.

Section Acts.
Context {C : Type} (st : stencil) (upd : list C -> C -> C) (t : topology).
Context (old : vgrid C) (loc : coord -> ptr) (b : box) (locN : coord -> ptr) (soff toff : coord).

(** One iteration of VanillaUpdateFunctor's loop
    (vanillaupdatefunctor.h:29-33), see [van_body]. *)
Definition van_act (a : act) (g : vgrid C) : option (vgrid C) :=
  let s := move_streak (fst a) soff in
  let o := zadd (s_origin (fst a)) toff in
  van_loop st upd old loc locN 1 (s_pre s) (removelast o) (s_x s + snd a) (last o 0 + snd a) g.

(** One cell of LinePointerUpdateFunctor (linepointerupdatefunctor.h:115-164),
    see [lp_body]. *)
Definition lp_act (a : act) (g : vgrid C) : option (vgrid C) :=
  obind (lp_assemble st loc (fst a)) (fun ps =>
  let s := move_streak (fst a) soff in
  lp_loop st upd old (lp_flags st t s b (snd a =? 0) (snd a =? s_e s - s_x s - 1)) ps (locN (zadd (s_origin (fst a)) toff)) 1 (snd a) g).

Fixpoint run_acts (one : act -> vgrid C -> option (vgrid C)) (l : list act) (g : vgrid C) : option (vgrid C) :=
  match l with [] => Some g | a :: l' => obind (one a g) (run_acts one l') end.
End Acts.

(** ** Programs which access a grid *)

(** Initializers and Steerers: they read and write cells and the edge cell
    ([GridBase], gridbase.h) in any order they like, what they do may depend on
    what they have read, and Steerers keep memories ([S], of all of them) between
    calls. In the end they may ask to end the simulation (steerer.h:45-48). *)
Inductive prog (C S : Type) :=
| PDone (s : S) (ended : bool)
| PGet (c : coord) (k : C -> prog C S)
| PSet (c : coord) (v : C) (p : prog C S)
| PGetEdge (k : C -> prog C S)
| PSetEdge (v : C) (p : prog C S).
Arguments PDone {C S}. Arguments PGet {C S}. Arguments PSet {C S}. Arguments PGetEdge {C S}. Arguments PSetEdge {C S}.

Fixpoint run_prog {C S} (t : topology) (p : prog C S) (d : dgrid C) : option (dgrid C * S * bool) :=
  match p with
  | PDone s e => Some (d, s, e)
  | PGet c k => obind (dg_get t false d c) (fun v => run_prog t (k v) d)
  | PSet c v p' => obind (dg_set t false d c v) (run_prog t p')
  | PGetEdge k => run_prog t (k (g_edge (d_grid d))) d
  | PSetEdge v p' => run_prog t p' (dg_set_edge d v)
  end.

(** A Steerer: its period and what it does in [nextStep], given the step, the
    event, and its memory. *)
Record steerer (C S : Type) := mkSteerer { y_period : nat; y_act : nat -> ioevent -> S -> prog C S }.
Arguments mkSteerer {C S}. Arguments y_period {C S}. Arguments y_act {C S}.

(** ** SerialSimulator *)

(** A call of a Writer: which one, step, event, and the grid it gets to see. *)
Record wcall (G : Type) := mkWCall { wc_writer : nat; wc_step : nat; wc_event : ioevent; wc_grid : G }.
Arguments mkWCall {G}. Arguments wc_writer {G}. Arguments wc_step {G}. Arguments wc_event {G}. Arguments wc_grid {G}.

(** curGrid, newGrid, stepNum; the Steerers' memory, the calls of Writers so
    far, and the number of nano steps so far. *)
Record sim (C S : Type) := mkSim { m_cur : dgrid C; m_new : dgrid C; m_step : nat; m_mem : S; m_log : list (wcall (dgrid C)); m_ticks : nat }.
Arguments mkSim {C S}. Arguments m_cur {C S}. Arguments m_new {C S}. Arguments m_step {C S}. Arguments m_mem {C S}. Arguments m_log {C S}. Arguments m_ticks {C S}.

(** When Writers and Steerers are called (serialsimulator.h:149-150,
    167-168). *)
Definition due (e : ioevent) (step period : nat) : option bool :=
  match e with
  | IoStep => if Nat.eqb period 0 then None else Some (Nat.eqb (Nat.modulo step period) 0)
  | _ => Some true
  end.

Section Sim.
Context {C S : Type} (st : stencil) (t : topology) (dim : coord).
(* the cell's update(), by nano step, CELL() and the number of nano steps *)
Context (upd : nat -> list C -> C -> C) (dflt : C) (nanos : nat).
(* SelectFixedCoordsOnlyUpdate *)
Context (fixed : bool).
Context (bd : build) (cs : conc) (th : threading).
(* the order in which threads work during the nano steps *)
Context (order : nat -> list act).
(* startStep, maxSteps and grid of the Initializer, Steerers, and the periods
   of Writers *)
Context (start stop : nat) (init : prog C S) (steerers : list (steerer C S)) (writers : list nat).

(** simArea (serialsimulator.h:52-53); DisplacedGrid::remapRegion doesn't
    change it (gridbase.h:287-290). *)
Definition sim_area : option indices :=
  reg_insert_box (Z.to_nat (prod dim)) (reg_empty (length dim)) (mkBox (zeros dim) dim).

(** GridTypeSelector (gridtypeselector.h:27-31) yields DisplacedGrids which
    aren't topologically correct; their constructor (displacedgrid.h:140-148). *)
Definition sim_grid (area : indices) : option (dgrid C) :=
  option_map (fun b => dg_make b dflt dflt (zeros dim)) (bounding_box area).

Definition initialize (d : dgrid C) : option (dgrid C) := option_map (fun x => fst (fst x)) (run_prog t init d).

(** The constructor (serialsimulator.h:48-60, simulator.h:44-48). *)
Definition construct (mem : S) : option (sim C S) :=
  obind sim_area (fun area => obind (sim_grid area) (fun g =>
  obind (initialize g) (fun c => obind (initialize g) (fun n => Some (mkSim c n start mem [] 0))))).

(** [nanoStep] (serialsimulator.h:131-138, openmpsimulator.h:58-73):
    UpdateFunctor without offsets, then the grids are swapped. *)
Definition nano_step (i : nat) (s : sim C S) : option (sim C S) :=
  obind sim_area (fun area => obind (tasks bd cs th area) (fun _ =>
  let old := d_grid (m_cur s) in
  let loc := dg_loc t false (m_cur s) in
  let locN := dg_loc t false (m_new s) in
  let b := mkBox (d_org (m_cur s)) (g_dim old) in
  let one := if fixed then lp_act st (upd i) t old loc b locN (zeros dim) (zeros dim) else van_act st (upd i) old loc locN (zeros dim) (zeros dim) in
  obind (run_acts one (order (m_ticks s)) (d_grid (m_new s))) (fun g' =>
  Some (mkSim (dg_with (m_new s) g') (m_cur s) (m_step s) (m_mem s) (m_log s) (Datatypes.S (m_ticks s)))))).

Fixpoint nano_steps (i n : nat) (s : sim C S) : option (sim C S) :=
  match n with O => Some s | Datatypes.S n' => obind (nano_step i s) (nano_steps (Datatypes.S i) n') end.

(** [handleInput] (serialsimulator.h:162-180). The one of OpenMPSimulator
    (openmpsimulator.h:96-107) isn't an override, and isn't called. *)
Fixpoint handle_input (e : ioevent) (l : list (steerer C S)) (s : sim C S) (ended : bool) : option (sim C S * bool) :=
  match l with
  | [] => Some (s, ended)
  | y :: l' =>
      obind (due e (m_step s) (y_period y)) (fun d =>
      if d then
        obind (run_prog t (y_act y (m_step s) e (m_mem s)) (m_cur s)) (fun '(g, m, en) =>
        handle_input e l' (mkSim g (m_new s) (m_step s) m (m_log s) (m_ticks s)) (ended || en))
      else handle_input e l' s ended)
  end.

(** [handleOutput] (serialsimulator.h:143-157). Likewise for
    OpenMPSimulator. *)
Fixpoint handle_output (e : ioevent) (w : nat) (l : list nat) (s : sim C S) : option (sim C S) :=
  match l with
  | [] => Some s
  | p :: l' =>
      obind (due e (m_step s) p) (fun d =>
      handle_output e (Datatypes.S w) l'
        (if d then mkSim (m_cur s) (m_new s) (m_step s) (m_mem s) (m_log s ++ [mkWCall w (m_step s) e (m_cur s)]) (m_ticks s) else s))
  end.

(** [step] (serialsimulator.h:71-93), [ended] is the feedback. *)
Definition step_with (s : sim C S) (ended : bool) : option (sim C S * bool) :=
  obind (handle_input IoStep steerers s ended) (fun '(s1, en) =>
  obind (nano_steps 0 nanos s1) (fun s2 =>
  let s3 := mkSim (m_cur s2) (m_new s2) (Datatypes.S (m_step s2)) (m_mem s2) (m_log s2) (m_ticks s2) in
  option_map (fun s4 => (s4, en)) (handle_output (if Nat.eqb (m_step s3) stop then IoAllDone else IoStep) 0 writers s3))).

Definition step (s : sim C S) : option (sim C S) := option_map fst (step_with s false).

(** The loop in [run] (serialsimulator.h:108-114). *)
Fixpoint loop (fuel : nat) (s : sim C S) (ended : bool) : option (sim C S * bool) :=
  if Nat.ltb (m_step s) stop then
    if ended then Some (s, ended)
    else match fuel with O => None | Datatypes.S f => obind (step_with s ended) (fun '(s', en) => loop f s' en) end
  else Some (s, ended).

(** [run] (serialsimulator.h:98-117) *)
Definition run (fuel : nat) (s : sim C S) : option (sim C S) :=
  obind (initialize (m_cur s)) (fun g =>
  obind (handle_input IoInitialized steerers (mkSim g (m_new s) start (m_mem s) (m_log s) (m_ticks s)) false) (fun '(s1, en) =>
  obind (handle_output IoInitialized 0 writers s1) (fun s2 =>
  obind (loop fuel s2 en) (fun '(s3, en') =>
  option_map fst (handle_input IoAllDone steerers s3 en'))))).
End Sim.

(** How the simulators call UpdateFunctor (serialsimulator.h:136,
    openmpsimulator.h:63-71). *)
Definition serial_conc : conc := no_concurrency.
Definition openmp_conc (fine : bool) : conc := enable_openmp true fine.
