(** Specification vocabulary for patch links. *)
From Verif Require Import Base PatchModel.

(** The step of the [k]-th exchange. *)
Definition link_step_no (first stride k : nat) : nat := (first + k * stride)%nat.

(** The first exchange takes place anyway, others before [last] only. *)
Definition link_due (first stride : nat) (last : option nat) (k : nat) : bool :=
  Nat.eqb k 0 || match last with None => true | Some m => Nat.ltb (link_step_no first stride k) m end.

(** What happens to a link: the sender offers its grid, a message arrives, the
    receiver asks for its halo. *)
Inductive lev (C : Type) := EvPut (eager : bool) (g : grid C) (t : nat) | EvDeliver | EvGet (g : grid C) (t : nat).
Arguments EvPut {C}. Arguments EvDeliver {C}. Arguments EvGet {C}.

(** A run of a link, with the grids which were sent and the ones which were
    received (before and after). [None] if an event is not possible. *)
Record lhist (C : Type) := mkHist { h_sent : list (nat * grid C); h_got : list (nat * (grid C * grid C)) }.
Arguments mkHist {C}. Arguments h_sent {C}. Arguments h_got {C}.

Definition lstep {C} (cs : list coord) (l : link C) (h : lhist C) (e : lev C) : option (link C * lhist C) :=
  match e with
  | EvPut eager g t =>
      match link_put cs eager l g t with
      | LDone l' => Some (l', match check_put (lk_req l) t with
                              | PutAccept => mkHist (h_sent h ++ [(t, g)]) (h_got h)
                              | _ => h
                              end)
      | _ => None
      end
  | EvDeliver => option_map (fun l' => (l', h)) (link_deliver l)
  | EvGet g t =>
      match link_get cs l g t with
      | LDone (l', g') => Some (l', if check_get (lk_sto l) t then mkHist (h_sent h) (h_got h ++ [(t, (g, g'))]) else h)
      | _ => None
      end
  end.

Fixpoint lrun {C} (cs : list coord) (l : link C) (h : lhist C) (es : list (lev C)) : option (link C * lhist C) :=
  match es with
  | [] => Some (l, h)
  | e :: es' => match lstep cs l h e with Some (l', h') => lrun cs l' h' es' | None => None end
  end.
