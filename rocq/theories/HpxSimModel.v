(** Simulations on top of HPX: the nodes are HPXUpdateGroups with HPXSteppers.
    Definitions only.

    HPXStepper (parallelization/nesting/hpxstepper.h:17-138) is a VanillaStepper
    ([StepperModel]) with other [notifyPatchAccepters] and
    [notifyPatchProviders]: each of the providers (accepters) of a kind which
    are due is asked by a task of its own, then all tasks are waited for. Tasks
    of one notification run in any order; each of them is performed as a whole.
    Writers' adapters only see the grid, the links are those of
    [HpxLinkModel]. *)
From Verif Require Import Base PatchModel AdapterModel StepperModel HpxLinkModel.

(** ** Tasks in any order *)

(** The elements of [l] in the order [ord]. *)
Definition permute {A} (ord : list nat) (l : list A) : list A :=
  flat_map (fun i => match nth_error l i with Some x => [x] | None => [] end) ord.

(** [ord] is a permutation of 0, ..., [n - 1]. *)
Definition is_order (n : nat) (ord : list nat) : bool :=
  Nat.eqb (length ord) n && forallb (fun i => existsb (Nat.eqb i) ord) (seq 0 n).

Fixpoint index (i : nat) (l : list nat) : nat :=
  match l with
  | [] => O
  | x :: l' => if Nat.eqb i x then O else S (index i l')
  end.

Definition inverse (ord : list nat) : list nat := map (fun i => index i ord) (seq 0 (length ord)).

Definition hlinks (C : Type) := nat -> nat -> hlink C.   (* sender, receiver *)

Definition set_hlink {C} (ls : hlinks C) (i j : nat) (l : hlink C) : hlinks C :=
  fun a b => if Nat.eqb a i && Nat.eqb b j then l else ls a b.

(** The node's steerers listed in another order. *)
Definition reorder {C} (ord : list nat) (nd : node C) : node C :=
  mkNode (n_step nd) (n_nano nd) (n_valid nd) (n_old nd) (n_new nd) (n_rim nd) (n_ker nd)
    (permute ord (n_sg nd)) (permute ord (n_si nd)) (n_log nd) (n_left nd) (n_pc nd).

Section Sim.
Context {C : Type} (upd : nat -> coord -> list C -> C) (nb : coord -> list (option coord)) (edge : C) (nanos : nat).
Context (steerers : list (adapter * @action C)).

(** Another node step, or a part of one, in which the tasks of the steerers'
    adapters, created by [PatchProvider::getAsync] (storage/patchprovider.h:50-61), run
    in the order [ord]. *)
Definition in_order (ord : list nat) (f : list (adapter * @action C) -> node C -> outcome (node C)) (nd : node C) : outcome (node C) :=
  match f (permute ord steerers) (reorder ord nd) with
  | Ok nd' => Ok (reorder (inverse ord) nd')
  | x => x
  end.

(** One step of node [i]: as [StepperModel.node_step], but the next of the links
    to be served is the [k]-th of those remaining. Getting from a link
    ([getAsync], hpxpatchlink.h:162-188) may have to wait, putting ([putAsync],
    storage/patchaccepter.h:42-52) doesn't. Whether a link is due is the same
    when its task is created (hpxstepper.h:84, 117) and when it runs, as it is
    the only one to change the link's end. *)
Definition hnode_step (cf : node_cfg) (i k : nat) (ord : list nat) (ls : hlinks C) (nd : node C) : outcome (node C * hlinks C) :=
  if negb (is_order (length steerers) ord) then Wait else
  match n_pc nd with
  | PStep =>
      if Nat.eqb (n_left nd) 0 then Wait
      else match in_order ord (fun ss => update1 upd nb edge nanos ss cf) nd with Ok nd' => Ok (nd', ls) | _ => Fail end
  | PRecv gh [] =>
      match in_order ord (fun ss nd => update_rim upd nb edge nanos ss cf nd gh) nd with Ok nd' => Ok (nd', ls) | _ => Fail end
  | PRecv gh rem =>
      match take_nth k rem with
      | None => Wait
      | Some ((j, cs), rem') =>
          let t := global_step nanos (n_step nd) (n_nano nd) in
          if due_at (hl_sto (ls j i)) t then
            match hlink_get cs (ls j i) (n_old nd) t with
            | LDone (l, g) => Ok (set_pc (set_old nd g) (PRecv gh rem'), set_hlink ls j i l)
            | LWait => Wait
            | LThrow => Fail
            end
          else Ok (set_pc nd (PRecv gh rem'), ls)
      end
  | PSend gh [] =>
      if Nat.ltb (gh_t gh + 1) (cf_w cf)
      then Ok (set_pc nd (PRecv (mkGhost (gh_t gh + 1) (gh_gl gh) (gh_step gh) (gh_nano gh) (gh_init gh)) (cf_in cf)), ls)
      else match in_order ord (fun ss nd => finish_ghost nanos ss cf nd gh) nd with Ok nd' => Ok (nd', ls) | _ => Fail end
  | PSend gh rem =>
      match take_nth k rem with
      | None => Wait
      | Some ((j, cs), rem') =>
          if due_at (hl_req (ls i j)) (gh_gl gh) then
            match hlink_put cs (ls i j) (n_old nd) (gh_gl gh) with
            | LDone l => Ok (set_pc nd (PSend gh rem'), set_hlink ls i j l)
            | LWait => Wait
            | LThrow => Fail
            end
          else Ok (set_pc nd (PSend gh rem'), ls)
      end
  end.

(** ** All nodes ([HpxSimulator::nanoStep], parallelization/hpxsimulator.h:279-289) *)

Record hsim := mkHSim { hs_nodes : list (node C); hs_links : hlinks C }.

(** A node performs a step, serving the [k]-th of the remaining links, steerers
    in the order [ord]; the [k]-th parcel on its way from [i] to [j] arrives. *)
Inductive hevent := HNode (i k : nat) (ord : list nat) | HArrive (i j k : nat).

Definition hsim_step (cfs : list node_cfg) (st : hsim) (e : hevent) : outcome hsim :=
  match e with
  | HNode i k ord =>
      match nth_error cfs i, nth_error (hs_nodes st) i with
      | Some cf, Some nd =>
          match hnode_step cf i k ord (hs_links st) nd with
          | Ok (nd', ls') => Ok (mkHSim (set_nth (hs_nodes st) i nd') ls')
          | Wait => Wait
          | Fail => Fail
          end
      | _, _ => Wait
      end
  | HArrive i j k =>
      match hlink_arrive (hs_links st i j) k with
      | LDone l => Ok (mkHSim (hs_nodes st) (set_hlink (hs_links st) i j l))
      | LWait => Wait
      | LThrow => Fail
      end
  end.

Fixpoint hsim_run (cfs : list node_cfg) (st : hsim) (es : list hevent) : outcome hsim :=
  match es with
  | [] => Ok st
  | e :: es' => match hsim_step cfs st e with Ok st' => hsim_run cfs st' es' | x => x end
  end.

(** All nodes have been set up ([HpxSimulator::createUpdateGroup],
    hpxsimulator.h:291-311) and are to perform [left] nano steps. In the
    constructor the functions of CommonStepper are called instead of those of
    HPXStepper: steerers are called one after the other. The links are charged
    with the first synchronisation point (updategroup.h:182-184). *)
Definition hsim_init (cfs : list node_cfg) (dflt : C) (start left : nat) (ini : nat -> grid C) : outcome hsim :=
  match init_nodes nanos steerers cfs dflt start left ini 0 with
  | Ok nodes =>
      Ok (mkHSim nodes (fun i _ =>
        let w := match nth_error cfs i with Some cf => cf_w cf | None => O end in
        hlink_charge (global_step nanos start 0 + w) None w))
  | _ => Fail
  end.

End Sim.
Arguments hsim : clear implicits.
Arguments mkHSim {C}. Arguments hs_nodes {C}. Arguments hs_links {C}.

(** Events tried one after the other, for running the model: those of
    [es] which are possible. *)
Fixpoint hsim_try {C} upd nb edge nanos steerers cfs (es : list hevent) (st : hsim C) : list hevent :=
  match es with
  | [] => []
  | e :: es' =>
      match hsim_step upd nb edge nanos steerers cfs st e with
      | Ok st' => e :: hsim_try upd nb edge nanos steerers cfs es' st'
      | _ => hsim_try upd nb edge nanos steerers cfs es' st
      end
  end.
