(** Grid fragments and the buffers which hold them. Definitions only.

    Grids are modelled as total functions from coordinates to cells; the
    regions a grid is accessed with are given by the list of the coordinates
    their streaks consist of. Cells are copied one by one, i.e. the
    SerializationBuffer is a vector of cells (serializationbuffer.h:24-58);
    the variants for SoA and Boost Serialization are not modelled. Time steps
    are natural numbers without overflow; [infinity()] is [None]. *)
From Verif Require Import Base RegionSpec RegionModel RegionIterModel RegionOpsModel.

Definition coord_eqb (a b : coord) : bool := if list_eq_dec Z.eq_dec a b then true else false.

(** The coordinates of a Region, streak by streak ([beginStreak()] to
    [endStreak()], region.h:1037-1061). *)
Definition region_coords (r : indices) : option (list coord) :=
  option_map (flat_map streak_coords) (reg_streaks r).

Definition grid (C : Type) := coord -> C.

Definition gset {C} (g : grid C) (c : coord) (v : C) : grid C :=
  fun c' => if coord_eqb c c' then v else g c'.

(** [saveRegionImplementation] and [loadRegionImplementation] of Grid
    (grid.h:316-343) and DisplacedGrid (displacedgrid.h:302-322): cells are
    copied to, respectively from, consecutive places of the buffer. [None] if
    the buffer is too small. *)
Definition save_region {C} (g : grid C) (cs : list coord) : list C := map g cs.

Fixpoint load_region {C} (g : grid C) (cs : list coord) (vs : list C) : option (grid C) :=
  match cs, vs with
  | [], _ => Some g
  | c :: cs', v :: vs' => load_region (gset g c v) cs' vs'
  | _ :: _, [] => None
  end.

(** ** std::set<std::size_t> as a strictly ascending list *)

(** [set << t] (stdcontaineroverloads.h:153-158) *)
Fixpoint set_add (t : nat) (s : list nat) : list nat :=
  match s with
  | [] => [t]
  | x :: s' => if Nat.ltb t x then t :: s else if Nat.eqb t x then s else x :: set_add t s'
  end.

(** [checkNanoStepPut] (storage/patchaccepter.h:77-88) *)
Inductive put_check := PutIgnore | PutAccept | PutThrow.

Definition check_put (req : list nat) (t : nat) : put_check :=
  match req with
  | [] => PutIgnore
  | m :: _ => if Nat.ltb t m then PutIgnore else if Nat.ltb m t then PutThrow else PutAccept
  end.

(** [checkNanoStepGet] (storage/patchprovider.h:76-88): true if nothing is
    thrown. *)
Definition check_get (sto : list nat) (t : nat) : bool :=
  match sto with
  | [] => false
  | m :: _ => Nat.eqb m t
  end.

(** ** Buffers *)

(** The calls to a buffer. [OPut g t] is [put(g, ..., t, ...)], [OGet g t rm]
    is [get(&g, ..., t, ..., rm)]. *)
Inductive bop (C : Type) :=
| OPush (t : nat)
| OPut (g : grid C) (t : nat)
| OGet (g : grid C) (t : nat) (rm : bool).
Arguments OPush {C} t. Arguments OPut {C} g t. Arguments OGet {C} g t rm.

(** The effect of a call as seen by the caller: nothing, the grid written by
    [get], an exception, or undefined behaviour. *)
Inductive bres (C : Type) := RVoid | RGrid (g : grid C) | RThrow | RUndef.
Arguments RVoid {C}. Arguments RGrid {C} g. Arguments RThrow {C}. Arguments RUndef {C}.

Definition loaded {C} (o : option (grid C)) : bres C :=
  match o with Some g => RGrid g | None => RUndef end.

(** PatchBuffer (storage/patchbuffer.h:17-85). *)
Record pbuf (C : Type) := mkPBuf { pb_req : list nat; pb_sto : list nat; pb_regions : list (list C) }.
Arguments mkPBuf {C}. Arguments pb_req {C}. Arguments pb_sto {C}. Arguments pb_regions {C}.

Definition pbuf_init {C} : pbuf C := mkPBuf [] [] [].

(** [pushRequest] (patchaccepter.h:69-72), [put] (patchbuffer.h:37-58) and
    [get] (60-79) for the given region. *)
Definition pbuf_step {C} (cs : list coord) (b : pbuf C) (o : bop C) : pbuf C * bres C :=
  match o with
  | OPush t => (mkPBuf (set_add t (pb_req b)) (pb_sto b) (pb_regions b), RVoid)
  | OPut g t =>
      match check_put (pb_req b) t with
      | PutIgnore => (b, RVoid)
      | PutThrow => (b, RThrow)
      | PutAccept =>
          (mkPBuf (tl (pb_req b)) (set_add (hd O (pb_req b)) (pb_sto b))
                  (pb_regions b ++ [save_region g cs]), RVoid)
      end
  | OGet g t rm =>
      if check_get (pb_sto b) t then
        match pb_regions b with
        | [] => (b, RThrow)
        | p :: ps =>
            (if rm then mkPBuf (pb_req b) (tl (pb_sto b)) ps else b, loaded (load_region g cs p))
        end
      else (b, RThrow)
  end.

(** PatchBufferFixed (storage/patchbufferfixed.h:16-91); [SIZE] is the number
    of slots. *)
Record fbuf (C : Type) := mkFBuf {
  fb_req : list nat; fb_sto : list nat; fb_rd : nat; fb_wr : nat; fb_slots : list (list C)
}.
Arguments mkFBuf {C}. Arguments fb_req {C}. Arguments fb_sto {C}. Arguments fb_rd {C}. Arguments fb_wr {C}. Arguments fb_slots {C}.

(** The constructor (33-38); the slots hold default constructed cells. *)
Definition fbuf_init {C} (size : nat) (dflt : C) (cs : list coord) : fbuf C :=
  mkFBuf [] [] 0 0 (repeat (map (fun _ => dflt) cs) size).

Fixpoint set_nth {A} (l : list A) (i : nat) (x : A) : list A :=
  match l, i with
  | [], _ => []
  | _ :: l', O => x :: l'
  | a :: l', S i' => a :: set_nth l' i' x
  end.

(** [inc] (87-90) *)
Definition fb_inc (size i : nat) : nat := Nat.modulo (i + 1) size.

(** [put] (40-61), [get] (63-79) *)
Definition fbuf_step {C} (cs : list coord) (b : fbuf C) (o : bop C) : fbuf C * bres C :=
  let size := length (fb_slots b) in
  match o with
  | OPush t => (mkFBuf (set_add t (fb_req b)) (fb_sto b) (fb_rd b) (fb_wr b) (fb_slots b), RVoid)
  | OPut g t =>
      match check_put (fb_req b) t with
      | PutIgnore => (b, RVoid)
      | PutThrow => (b, RThrow)
      | PutAccept =>
          if Nat.leb size (length (fb_sto b)) then (b, RThrow)
          else
            (mkFBuf (tl (fb_req b)) (set_add (hd O (fb_req b)) (fb_sto b)) (fb_rd b) (fb_inc size (fb_wr b))
                    (set_nth (fb_slots b) (fb_wr b) (save_region g cs)), RVoid)
      end
  | OGet g t rm =>
      if check_get (fb_sto b) t then
        match nth_error (fb_slots b) (fb_rd b) with
        | None => (b, RUndef)
        | Some p =>
            (if rm then mkFBuf (fb_req b) (tl (fb_sto b)) (fb_inc size (fb_rd b)) (fb_wr b) (fb_slots b) else b,
             loaded (load_region g cs p))
        end
      else (b, RThrow)
  end.

(** A sequence of calls and what they returned. *)
Fixpoint brun {C S} (step : S -> bop C -> S * bres C) (b : S) (ops : list (bop C)) : S * list (bres C) :=
  match ops with
  | [] => (b, [])
  | o :: ops' => let '(b1, r) := step b o in let '(b2, rs) := brun step b1 ops' in (b2, r :: rs)
  end.

(** ** PatchLink (communication/patchlink.h)

    One link: the accepter on the sending node, the messages on their way and
    the provider on the receiving node. A message which the MPI layer has
    copied when [MPI_Isend] returned is [Some buffer], one which is still read
    from the sender's buffer when it is delivered is [None]. MPI delivers the
    messages of a link in the order they were sent (same communicator, source,
    destination and tag). Only payloads of fixed size are modelled (no header
    messages, 158-171, 259-282). *)
Record link (C : Type) := mkLink {
  lk_last : option nat;            (* lastNanoStep, None is infinity *)
  lk_stride : nat;
  lk_req : list nat;               (* accepter: requestedNanoSteps *)
  lk_sbuf : list C;                (* accepter: buffer *)
  lk_flight : list (option (list C));
  lk_sto : list nat;               (* provider: storedNanoSteps *)
  lk_rbuf : list C;                (* provider: buffer *)
  lk_posted : bool;                (* provider: a receive was posted and not yet waited for *)
  lk_arrived : bool                (* ... and its message has arrived *)
}.
Arguments mkLink {C}. Arguments lk_last {C}. Arguments lk_stride {C}. Arguments lk_req {C}. Arguments lk_sbuf {C}.
Arguments lk_flight {C}. Arguments lk_sto {C}. Arguments lk_rbuf {C}. Arguments lk_posted {C}. Arguments lk_arrived {C}.

(** Both ends after [charge(next, last, stride)] (121-125, 212-216). *)
Definition link_charge {C} (dflt : C) (cs : list coord) (next : nat) (last : option nat) (stride : nat) : link C :=
  mkLink last stride [next] (map (fun _ => dflt) cs) [] [next] (map (fun _ => dflt) cs) true false.

(** Whether another exchange follows the one at step [t] (144-148, 237-241). *)
Definition link_next {C} (l : link C) (t : nat) : option nat :=
  let t' := (t + lk_stride l)%nat in
  match lk_last l with
  | None => Some t'
  | Some last => if Nat.ltb t' last then Some t' else None
  end.

(** [Accepter::wait()] may return: the previous message isn't read from the
    buffer any more. *)
Definition link_sent {C} (l : link C) : bool :=
  forallb (fun m => match m with Some _ => true | None => false end) (lk_flight l).

(** Result of an operation: done, still waiting, exception. *)
Inductive lres (A : Type) := LDone (a : A) | LWait | LThrow.
Arguments LDone {A} a. Arguments LWait {A}. Arguments LThrow {A}.

Definition set_add_opt (o : option nat) (s : list nat) : list nat :=
  match o with Some t => set_add t s | None => s end.

(** [Accepter::put] (127-151); [eager] tells whether the MPI layer copies the
    message. *)
Definition link_put {C} (cs : list coord) (eager : bool) (l : link C) (g : grid C) (t : nat) : lres (link C) :=
  match check_put (lk_req l) t with
  | PutIgnore => LDone l
  | PutThrow => LThrow
  | PutAccept =>
      if link_sent l then
        let buf := save_region g cs in
        let m := hd O (lk_req l) in
        LDone (mkLink (lk_last l) (lk_stride l) (tl (set_add_opt (link_next l m) (lk_req l))) buf
                 (lk_flight l ++ [if eager then Some buf else None])
                 (lk_sto l) (lk_rbuf l) (lk_posted l) (lk_arrived l))
      else LWait
  end.

(** The first message is delivered. [None] if there is no message or no
    matching receive. *)
Definition link_deliver {C} (l : link C) : option (link C) :=
  match lk_flight l with
  | [] => None
  | m :: ms =>
      if lk_posted l && negb (lk_arrived l) then
        Some (mkLink (lk_last l) (lk_stride l) (lk_req l) (lk_sbuf l) ms (lk_sto l)
                (match m with Some b => b | None => lk_sbuf l end) true true)
      else None
  end.

(** [Provider::get] (218-244) and [recv] (246-251). *)
Definition link_get {C} (cs : list coord) (l : link C) (g : grid C) (t : nat) : lres (link C * grid C) :=
  match lk_sto l with
  | [] => LDone (l, g)
  | m :: _ =>
      if Nat.ltb t m then LDone (l, g)
      else if check_get (lk_sto l) t then
        if negb (lk_posted l) || lk_arrived l then
          match load_region g cs (lk_rbuf l) with
          | None => LThrow
          | Some g' =>
              let next := link_next l m in
              LDone (mkLink (lk_last l) (lk_stride l) (lk_req l) (lk_sbuf l) (lk_flight l)
                       (tl (set_add_opt next (lk_sto l))) (lk_rbuf l)
                       (match next with Some _ => true | None => false end) false, g')
          end
        else LWait
      else LThrow
  end.
