(** Model of base::MPSCIntrusiveQueue (base/mpsc_intrusive_queue.h): any number of producer threads,
    one consumer, one shared access per transition, sequential consistency (the relaxed / acquire /
    release orders of lines 59, 97, 119, 135 are not modelled).
    Nodes are natural numbers, [stub] is 0; [nx] is the intrusive next pointer. [own n]: node [n] belongs
    to the queue (from the start of its Push until a Pop hands it back); the caller must not push a node
    the queue owns, and may free or push again a node it got back. Accessing the next pointer of a node
    the queue does not own is undefined behaviour (use after free). [tr] is ghost state. *)
From Verif Require Import Util Conc.

Definition stub : nat := 0.

(** Push (52-67), PopWeak (93-157), Empty (85-90). *)
Inductive op := Push (n : nat) | PopWeak | Empty.
Inductive res := RUnit | RPop (e : option nat) (empty : bool) | RBool (b : bool).

Inductive ppc :=
| PIdle
| PInit (n : nat)            (* line 54 *)
| PXchg (n : nat)            (* line 59 *)
| PLink (prev n : nat)       (* line 66 *)
| PRet (n : nat).
Inductive cpc :=
| CIdle
| CNext                      (* lines 95-97 *)
| CTail0                     (* line 119 *)
| CNext2 (h : nat)           (* line 126 *)
| CTail (h : nat)            (* line 135 *)
| CInit (h : nat)            (* lines 144, 54 *)
| CXchg (h : nat)            (* lines 144, 59 *)
| CLink (prev h : nat)       (* lines 144, 66 *)
| CNext3 (h : nat)           (* line 149 *)
| CEmpty                     (* lines 86-89 *)
| CRet (o : op) (r : res).

Record state := St {
  head : nat; tail : nat; nx : nat -> option nat; own : nat -> bool;
  pp : nat -> ppc; cp : cpc; tr : list (ev op res)
}.
(** Lines 43-45; [nx0]: whatever the nodes' next pointers hold before they are pushed. *)
Definition init (nx0 : nat -> option nat) : state :=
  St stub stub (upd nx0 stub None) (fun n => Nat.eqb n stub) (fun _ => PIdle) CIdle [].

(** The consumer is thread 0 in histories; producer [t] is thread [S t]. *)
Inductive label := CallPush (t n : nat) | StepP (t : nat) | CallPop | CallEmpty | StepC.

Definition setp s t p e := St (head s) (tail s) (nx s) (own s) (upd (pp s) t p) (cp s) (tr s ++ e).
Definition setc s c e := St (head s) (tail s) (nx s) (own s) (pp s) c (tr s ++ e).
Definition store_next s n v := St (head s) (tail s) (upd (nx s) n v) (own s) (pp s) (cp s) (tr s).
Definition exchange s n := St (head s) n (nx s) (own s) (pp s) (cp s) (tr s).
Definition set_head s n := St n (tail s) (nx s) (own s) (pp s) (cp s) (tr s).
Definition set_own s n b := St (head s) (tail s) (nx s) (upd (own s) n b) (pp s) (cp s) (tr s).

Definition call_push s t n : outcome state :=
  match pp s t with
  | PIdle => if own s n then Stuck else Next (setp (set_own s n true) t (PInit n) [Inv (S t) (Push n)])
  | _ => Stuck
  end.

Definition step_p s t : outcome state :=
  match pp s t with
  | PIdle => Stuck
  | PInit n => if own s n then Next (setp (store_next s n None) t (PXchg n) []) else Ub
  | PXchg n => Next (setp (exchange s n) t (PLink (tail s) n) [Lin (S t) (Push n) RUnit])
  | PLink prev n => if own s prev then Next (setp (store_next s prev (Some n)) t (PRet n) []) else Ub
  | PRet n => Next (setp s t PIdle [Ret (S t) (Push n) RUnit])
  end.

(** PopWeak hands back [h] and moves head_ to [n]: lines 131-132, 151-152. *)
Definition give s h n : state :=
  setc (set_own (set_head s n) h false) (CRet PopWeak (RPop (Some h) false)) [Lin 0 PopWeak (RPop (Some h) false)].
Definition none s (empty : bool) : state :=
  setc s (CRet PopWeak (RPop None empty)) [Lin 0 PopWeak (RPop None empty)].

Definition step_c s : outcome state :=
  match cp s with
  | CIdle => Stuck
  | CNext =>
    let h := head s in
    if own s h then
      if Nat.eqb stub h then
        match nx s h with
        | None => Next (setc s CTail0 [])
        | Some n => Next (setc (set_head s n) (CNext2 n) [])     (* lines 124-125 *)
        end
      else match nx s h with Some n => Next (give s h n) | None => Next (setc s (CTail h) []) end
    else Ub
  | CTail0 => Next (none s (Nat.eqb (tail s) (head s)))
  | CNext2 h =>
    if own s h then match nx s h with Some n => Next (give s h n) | None => Next (setc s (CTail h) []) end
    else Ub
  | CTail h => if Nat.eqb (tail s) h then Next (setc s (CInit h) []) else Next (none s false)
  | CInit h => Next (setc (store_next s stub None) (CXchg h) [])
  | CXchg h => Next (setc (exchange s stub) (CLink (tail s) h) [])
  | CLink prev h => if own s prev then Next (setc (store_next s prev (Some stub)) (CNext3 h) []) else Ub
  | CNext3 h =>
    if own s h then match nx s h with Some n => Next (give s h n) | None => Next (none s false) end
    else Ub
  | CEmpty =>
    let h := head s in
    if own s h then
      let b := Nat.eqb stub h && match nx s h with None => true | Some _ => false end in
      Next (setc s (CRet Empty (RBool b)) [Lin 0 Empty (RBool b)])
    else Ub
  | CRet o r => Next (setc s CIdle [Ret 0 o r])
  end.

Definition step s l : outcome state :=
  match l with
  | CallPush t n => call_push s t n
  | StepP t => step_p s t
  | CallPop => match cp s with CIdle => Next (setc s CNext [Inv 0 PopWeak]) | _ => Stuck end
  | CallEmpty => match cp s with CIdle => Next (setc s CEmpty [Inv 0 Empty]) | _ => Stuck end
  | StepC => step_c s
  end.

(** Pop (70-77), when no producer moves: PopWeak is called until it yields an element or reports
    emptiness. [fuel] bounds the number of consumer steps of one PopWeak and the number of calls. *)
Fixpoint pop_alone (fuel : nat) s : option (state * option nat) :=
  match fuel with
  | O => None
  | S f =>
    match cp s with
    | CIdle => match step s CallPop with Next s' => pop_alone f s' | _ => None end
    | CRet PopWeak (RPop e b) =>
      match step s StepC with
      | Next s' => if (match e with Some _ => true | None => false end) || b then Some (s', e) else pop_alone f s'
      | _ => None
      end
    | _ => match step s StepC with Next s' => pop_alone f s' | _ => None end
    end
  end.

(** A Push that has not linked its node yet. *)
Definition push_in_progress s : Prop := exists t n, pp s t = PXchg n \/ exists prev, pp s t = PLink prev n.
