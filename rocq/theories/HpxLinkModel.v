(** Links between nodes on top of HPX: HPXReceiver, HPXPatchLink, the
    notifications of HPXStepper and [allGather]. Definitions only.

    A parcel sent by [hpx::apply] is executed at its destination some time
    later; parcels may overtake each other. [hpx::lcos::local::receive_buffer]
    is not part of the repository: it is modelled as a map from steps to the
    value received for them, from which [receive(step)] takes the entry.
    Registering and finding receivers by name (hpxreceiver.h:59-93) is not
    modelled: both ends of a link are given. *)
From Verif Require Import Base PatchModel.

(** ** HPXReceiver (communication/hpxreceiver.h) *)

Definition inbox (V : Type) := list (nat * V).

(** Whether a value for the step has arrived and wasn't taken yet. *)
Definition inbox_find {V} (b : inbox V) (t : nat) : option V :=
  option_map snd (find (fun m => Nat.eqb (fst m) t) b).

(** [receive(step, val)] (hpxreceiver.h:98-101). [None] (an exception) if the step's promise has
    already been satisfied. *)
Definition inbox_store {V} (b : inbox V) (m : nat * V) : option (inbox V) :=
  match inbox_find b (fst m) with Some _ => None | None => Some (b ++ [m]) end.

(** [get(step).get()] (hpxreceiver.h:104-107). [None] while the future isn't ready. *)
Definition inbox_take {V} (b : inbox V) (t : nat) : option (V * inbox V) :=
  option_map (fun v => (v, filter (fun m => negb (Nat.eqb (fst m) t)) b)) (inbox_find b t).

(** The [i]-th parcel on its way arrives. *)
Definition take_nth {A} (i : nat) (l : list A) : option (A * list A) :=
  match nth_error l i with Some x => Some (x, firstn i l ++ skipn (S i) l) | None => None end.

(** ** HPXPatchLink (communication/hpxpatchlink.h) *)

(** Accepter, parcels on their way, and provider with its receiver. *)
Record hlink (C : Type) := mkHLink {
  hl_last : option nat;                (* lastNanoStep, None is infinity *)
  hl_stride : nat;
  hl_req : list nat;                   (* accepter: requestedNanoSteps *)
  hl_net : list (nat * list C);        (* parcels *)
  hl_in : inbox (list C);              (* provider: receiver *)
  hl_sto : list nat                    (* provider: storedNanoSteps *)
}.
Arguments mkHLink {C}. Arguments hl_last {C}. Arguments hl_stride {C}. Arguments hl_req {C}.
Arguments hl_net {C}. Arguments hl_in {C}. Arguments hl_sto {C}.

(** Both ends after [charge(next, last, newStride)] (hpxpatchlink.h:54-58, 98-102, 156-160, 202-205). *)
Definition hlink_charge {C} (next : nat) (last : option nat) (stride : nat) : hlink C :=
  mkHLink last stride [next] [] [] [next].

(** Whether another exchange follows the one at step [t] (hpxpatchlink.h:119-123, 180-184). *)
Definition hlink_next {C} (l : hlink C) (t : nat) : option nat :=
  let t' := (t + hl_stride l)%nat in
  match hl_last l with
  | None => Some t'
  | Some last => if Nat.ltb t' last then Some t' else None
  end.

(** [Accepter::put] (hpxpatchlink.h:104-126). *)
Definition hlink_put {C} (cs : list coord) (l : hlink C) (g : grid C) (t : nat) : lres (hlink C) :=
  match check_put (hl_req l) t with
  | PutIgnore => LDone l
  | PutThrow => LThrow
  | PutAccept =>
      LDone (mkHLink (hl_last l) (hl_stride l) (tl (set_add_opt (hlink_next l (hd O (hl_req l))) (hl_req l)))
               (hl_net l ++ [(t, save_region g cs)]) (hl_in l) (hl_sto l))
  end.

(** The [i]-th parcel arrives ([receiveAction], hpxreceiver.h:98-102). [LWait]:
    there is none. *)
Definition hlink_arrive {C} (l : hlink C) (i : nat) : lres (hlink C) :=
  match take_nth i (hl_net l) with
  | None => LWait
  | Some (m, net) =>
      match inbox_store (hl_in l) m with
      | None => LThrow
      | Some b => LDone (mkHLink (hl_last l) (hl_stride l) (hl_req l) net b (hl_sto l))
      end
  end.

(** The continuation of [Provider::getAsync] (hpxpatchlink.h:176-188), which
    runs as soon as the value for the step is there. *)
Definition hlink_continue {C} (cs : list coord) (l : hlink C) (g : grid C) (t : nat) : lres (hlink C * grid C) :=
  match inbox_take (hl_in l) t with
  | None => LWait
  | Some (v, b) =>
      match load_region g cs v with
      | None => LThrow
      | Some g' =>
          LDone (mkHLink (hl_last l) (hl_stride l) (hl_req l) (hl_net l) b
                   (tl (set_add_opt (hlink_next l (hd O (hl_sto l))) (hl_sto l))), g')
      end
  end.

(** What [Provider::getAsync] returns (hpxpatchlink.h:162-175): a future which is ready, one with
    a continuation, or an exception. *)
Inductive fut := FReady | FThen | FThrow.
Definition hlink_async {C} (l : hlink C) (t : nat) : fut :=
  match hl_sto l with
  | [] => FReady
  | m :: _ => if Nat.ltb t m then FReady else if check_get (hl_sto l) t then FThen else FThrow
  end.

(** [Provider::get] (hpxpatchlink.h:191-200) *)
Definition hlink_get {C} (cs : list coord) (l : hlink C) (g : grid C) (t : nat) : lres (hlink C * grid C) :=
  match hlink_async l t with
  | FReady => LDone (l, g)
  | FThrow => LThrow
  | FThen => hlink_continue cs l g t
  end.

(** ** [HPXStepper::notifyPatchProviders] (parallelization/nesting/hpxstepper.h:104-137)

    The providers of one kind: links (with the coordinates of their regions)
    whose other ends are elsewhere. [notify_start] collects the futures: the
    numbers of the providers with a continuation; [nextAvailableNanoStep]
    (storage/patchprovider.h:64-71) decides who is asked. *)
Definition next_available {C} (l : hlink C) : option nat := hd_error (hl_sto l).

Fixpoint notify_start {C} (i : nat) (ps : list (list coord * hlink C)) (t : nat) : option (list nat) :=
  match ps with
  | [] => Some []
  | (cs, l) :: ps' =>
      match next_available l with
      | Some m =>
          if Nat.eqb t m then
            match hlink_async l t with
            | FThrow => None
            | FReady => notify_start (S i) ps' t
            | FThen => option_map (cons i) (notify_start (S i) ps' t)
            end
          else notify_start (S i) ps' t
      | None => notify_start (S i) ps' t
      end
  end.

(** While [when_all(getFutures).get()] waits: continuations not run yet,
    providers, grid. A parcel arrives at a provider or a continuation runs. *)
Record waiting (C : Type) := mkWaiting { w_todo : list nat; w_links : list (list coord * hlink C); w_grid : grid C }.
Arguments mkWaiting {C}. Arguments w_todo {C}. Arguments w_links {C}. Arguments w_grid {C}.

Inductive wev := WArrive (i k : nat) | WRun (i : nat).

Definition wstep {C} (t : nat) (w : waiting C) (e : wev) : lres (waiting C) :=
  match e with
  | WArrive i k =>
      match nth_error (w_links w) i with
      | None => LWait
      | Some (cs, l) =>
          match hlink_arrive l k with
          | LWait => LWait
          | LThrow => LThrow
          | LDone l' => LDone (mkWaiting (w_todo w) (set_nth (w_links w) i (cs, l')) (w_grid w))
          end
      end
  | WRun i =>
      if existsb (Nat.eqb i) (w_todo w) then
        match nth_error (w_links w) i with
        | None => LWait
        | Some (cs, l) =>
            match hlink_continue cs l (w_grid w) t with
            | LWait => LWait
            | LThrow => LThrow
            | LDone (l', g) =>
                LDone (mkWaiting (filter (fun j => negb (Nat.eqb i j)) (w_todo w)) (set_nth (w_links w) i (cs, l')) g)
            end
        end
      else LWait
  end.

Fixpoint wrun {C} (t : nat) (w : waiting C) (es : list wev) : lres (waiting C) :=
  match es with
  | [] => LDone w
  | e :: es' => match wstep t w e with LDone w' => wrun t w' es' | LWait => LWait | LThrow => LThrow end
  end.

(** ** [HPXReceiver::allGather] (communication/hpxreceiver.h:109-139), one receiver

    Every rank broadcasts its datum under its own number; the receiver fetches
    them in the order of the ranks. *)
Record gather (V : Type) := mkGather { ga_net : list (nat * V); ga_in : inbox V; ga_vec : list V }.
Arguments mkGather {V}. Arguments ga_net {V}. Arguments ga_in {V}. Arguments ga_vec {V}.

Definition gather_start {V} (data : list V) : gather V := mkGather (combine (seq 0 (length data)) data) [] [].

Inductive gev := GArrive (k : nat) | GFetch.

Definition gstep {V} (size : nat) (s : gather V) (e : gev) : lres (gather V) :=
  match e with
  | GArrive k =>
      match take_nth k (ga_net s) with
      | None => LWait
      | Some (m, net) =>
          match inbox_store (ga_in s) m with
          | None => LThrow
          | Some b => LDone (mkGather net b (ga_vec s))
          end
      end
  | GFetch =>
      if Nat.ltb (length (ga_vec s)) size then
        match inbox_take (ga_in s) (length (ga_vec s)) with
        | None => LWait
        | Some (v, b) => LDone (mkGather (ga_net s) b (ga_vec s ++ [v]))
        end
      else LWait
  end.

Fixpoint grun {V} (size : nat) (s : gather V) (es : list gev) : lres (gather V) :=
  match es with
  | [] => LDone s
  | e :: es' => match gstep size s e with LDone s' => grun size s' es' | LWait => LWait | LThrow => LThrow end
  end.
