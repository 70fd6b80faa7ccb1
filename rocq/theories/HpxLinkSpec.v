(** Specification vocabulary for links on top of HPX. *)
From Verif Require Import Base PatchModel LinkSpec HpxLinkModel.

(** What happens to a link: the sender offers its grid, one of the parcels on
    their way arrives, the receiver asks for its halo. *)
Inductive hev (C : Type) := HPut (g : grid C) (t : nat) | HArrive (i : nat) | HGet (g : grid C) (t : nat).
Arguments HPut {C}. Arguments HArrive {C}. Arguments HGet {C}.

(** An event, with the history of what was sent and received: [LWait] if it
    can't take place yet, [LThrow] if it raises an exception. *)
Definition hstep {C} (cs : list coord) (l : hlink C) (h : lhist C) (e : hev C) : lres (hlink C * lhist C) :=
  match e with
  | HPut g t =>
      match hlink_put cs l g t with
      | LDone l' => LDone (l', match check_put (hl_req l) t with
                               | PutAccept => mkHist (h_sent h ++ [(t, g)]) (h_got h)
                               | _ => h
                               end)
      | LWait => LWait
      | LThrow => LThrow
      end
  | HArrive i =>
      match hlink_arrive l i with LDone l' => LDone (l', h) | LWait => LWait | LThrow => LThrow end
  | HGet g t =>
      match hlink_get cs l g t with
      | LDone (l', g') =>
          LDone (l', if check_get (hl_sto l) t then mkHist (h_sent h) (h_got h ++ [(t, (g, g'))]) else h)
      | LWait => LWait
      | LThrow => LThrow
      end
  end.

Fixpoint hrun {C} (cs : list coord) (l : hlink C) (h : lhist C) (es : list (hev C)) : lres (hlink C * lhist C) :=
  match es with
  | [] => LDone (l, h)
  | e :: es' => match hstep cs l h e with LDone (l', h') => hrun cs l' h' es' | LWait => LWait | LThrow => LThrow end
  end.

(** A link after some use, and the history of it. *)
Definition used {C} (cs : list coord) (l : hlink C) (h : lhist C) : Prop :=
  exists first stride last es, (1 <= stride)%nat /\ hrun cs (hlink_charge first last stride) (mkHist [] []) es = LDone (l, h).
