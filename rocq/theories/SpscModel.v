(** Model of folly::ProducerConsumerQueue (base/ProducerConsumerQueue.h): a transition system with
    one producer (thread 0) and one consumer (thread 1), one shared access per transition, under
    sequential consistency (the code's acquire/release pairs are stronger than needed for the
    relaxed own-index loads; weak-memory behaviours are not modelled).
    [records_] is a map from indices to [option T]: [None] is raw storage. Constructing over a live
    object, and reading or destroying raw storage, are undefined behaviour. The trace [tr] is
    ghost state: no transition depends on it. *)
From Verif Require Import Util Conc.

Section Spsc.
Context {T : Type}.

(** The calls of the interface (lines 56-144). [SizeP]/[SizeC]: sizeGuess() called by the producer
    / the consumer. isEmpty and isFull are comparisons of the same two loads. *)
Inductive op := Write (v : T) | SizeP | FullP | Read | Front | Pop | SizeC | EmptyC.
Inductive res := RBool (b : bool) | ROpt (v : option T) | RNat (n : nat) | RUnit.

Definition is_producer (o : op) : bool :=
  match o with Write _ | SizeP | FullP => true | _ => false end.

(** Program counters of the producer. *)
Inductive ppc :=
| PIdle
| PLoadW (v : T)                 (* line 57 next *)
| PLoadR (v : T) (cw : nat)      (* lines 58-62 *)
| PCons (v : T) (cw nx : nat)    (* line 63 *)
| PStoreW (v : T) (nx : nat)     (* line 65 *)
| PSizeW                         (* line 139, load of writeIndex_ *)
| PSizeR (w : nat)               (* line 139, load of readIndex_ *)
| PFullW                         (* line 121 *)
| PFullR (nx : nat)              (* line 125 *)
| PRet (o : op) (r : res).
(** Program counters of the consumer. *)
Inductive cpc :=
| CIdle
| CLoadR                         (* line 75 *)
| CLoadW (cr : nat)              (* line 76 *)
| CMove (cr nx : nat)            (* line 85 *)
| CDestroy (v : T) (cr nx : nat) (* line 86 *)
| CStoreR (v : T) (nx : nat)     (* line 87 *)
| FLoadR                         (* line 94 *)
| FLoadW (cr : nat)              (* line 95 *)
| FDeref (cr : nat)              (* line 99 and the caller's use of the pointer *)
| OLoadR                         (* line 104 *)
| ODestroy (cr nx : nat)         (* line 111 *)
| OStoreR (nx : nat)             (* line 112 *)
| CSizeW                         (* line 139 *)
| CSizeR (w : nat)
| CEmptyR                        (* line 116 *)
| CEmptyW (r : nat)              (* line 117 *)
| CRet (o : op) (r : res).

Record state := St {
  size : nat;                       (* size_ *)
  rd : nat;                         (* readIndex_ *)
  wr : nat;                         (* writeIndex_ *)
  slots : nat -> option T;          (* records_ *)
  pp : ppc;
  cp : cpc;
  tr : list (ev op res)             (* ghost: invocations, effect points, responses *)
}.

(** Lines 176-180. *)
Definition init (n : nat) : state := St n 0 0 (fun _ => None) PIdle CIdle [].

(** Lines 58-61, 81-84, 107-110, 121-124. *)
Definition next (n i : nat) : nat := if Nat.eqb (i + 1) n then 0 else i + 1.

(** Lines 138-143; both indices are below size_, assumed below 2^31 for the conversion to int. *)
Definition guess (n w r : nat) : nat := if Nat.ltb w r then w + n - r else w - r.

Definition upd_pp (s : state) (p : ppc) (e : list (ev op res)) : state :=
  St (size s) (rd s) (wr s) (slots s) p (cp s) (tr s ++ e).
Definition upd_cp (s : state) (c : cpc) (e : list (ev op res)) : state :=
  St (size s) (rd s) (wr s) (slots s) (pp s) c (tr s ++ e).

(** The scheduler's choices: a thread starts a call, or takes its next step. *)
Inductive label := Call (o : op) | StepP | StepC.

Definition call (s : state) (o : op) : outcome state :=
  let p pc := match pp s with PIdle => Next (upd_pp s pc [Inv 0 o]) | _ => Stuck end in
  let c pc := match cp s with CIdle => Next (upd_cp s pc [Inv 1 o]) | _ => Stuck end in
  match o with
  | Write v => p (PLoadW v)
  | SizeP => p PSizeW
  | FullP => p PFullW
  | Read => c CLoadR
  | Front => c FLoadR
  | Pop => if Nat.eqb (rd s) (wr s) then Stuck (* "queue must not be empty", line 102 *)
           else c OLoadR
  | SizeC => c CSizeW
  | EmptyC => c CEmptyR
  end.

Definition step_p (s : state) : outcome state :=
  match pp s with
  | PIdle => Stuck
  | PLoadW v => Next (upd_pp s (PLoadR v (wr s)) [])
  | PLoadR v cw =>
    let nx := next (size s) cw in
    if Nat.eqb nx (rd s) then Next (upd_pp s (PRet (Write v) (RBool false)) [Lin 0 (Write v) (RBool false)])
    else Next (upd_pp s (PCons v cw nx) [])
  | PCons v cw nx =>
    match slots s cw with
    | Some _ => Ub
    | None => Next (St (size s) (rd s) (wr s) (upd (slots s) cw (Some v)) (PStoreW v nx) (cp s) (tr s))
    end
  | PStoreW v nx =>
    Next (St (size s) (rd s) nx (slots s) (PRet (Write v) (RBool true)) (cp s)
             (tr s ++ [Lin 0 (Write v) (RBool true)]))
  | PSizeW => Next (upd_pp s (PSizeR (wr s)) [])
  | PSizeR w => let r := RNat (guess (size s) w (rd s)) in Next (upd_pp s (PRet SizeP r) [Lin 0 SizeP r])
  | PFullW => Next (upd_pp s (PFullR (next (size s) (wr s))) [])
  | PFullR nx => let r := RBool (Nat.eqb nx (rd s)) in Next (upd_pp s (PRet FullP r) [Lin 0 FullP r])
  | PRet o r => Next (upd_pp s PIdle [Ret 0 o r])
  end.

Definition step_c (s : state) : outcome state :=
  match cp s with
  | CIdle => Stuck
  | CLoadR => Next (upd_cp s (CLoadW (rd s)) [])
  | CLoadW cr =>
    if Nat.eqb cr (wr s) then Next (upd_cp s (CRet Read (ROpt None)) [Lin 1 Read (ROpt None)])
    else Next (upd_cp s (CMove cr (next (size s) cr)) [])
  | CMove cr nx => match slots s cr with None => Ub | Some v => Next (upd_cp s (CDestroy v cr nx) []) end
  | CDestroy v cr nx =>
    match slots s cr with
    | None => Ub
    | Some _ => Next (St (size s) (rd s) (wr s) (upd (slots s) cr None) (pp s) (CStoreR v nx) (tr s))
    end
  | CStoreR v nx =>
    Next (St (size s) nx (wr s) (slots s) (pp s) (CRet Read (ROpt (Some v))) (tr s ++ [Lin 1 Read (ROpt (Some v))]))
  | FLoadR => Next (upd_cp s (FLoadW (rd s)) [])
  | FLoadW cr =>
    if Nat.eqb cr (wr s) then Next (upd_cp s (CRet Front (ROpt None)) [Lin 1 Front (ROpt None)])
    else Next (upd_cp s (FDeref cr) [])
  | FDeref cr =>
    match slots s cr with
    | None => Ub
    | Some v => Next (upd_cp s (CRet Front (ROpt (Some v))) [Lin 1 Front (ROpt (Some v))])
    end
  | OLoadR => Next (upd_cp s (ODestroy (rd s) (next (size s) (rd s))) [])
  | ODestroy cr nx =>
    match slots s cr with
    | None => Ub
    | Some _ => Next (St (size s) (rd s) (wr s) (upd (slots s) cr None) (pp s) (OStoreR nx) (tr s))
    end
  | OStoreR nx =>
    Next (St (size s) nx (wr s) (slots s) (pp s) (CRet Pop RUnit) (tr s ++ [Lin 1 Pop RUnit]))
  | CSizeW => let r := RNat (guess (size s) (wr s) (rd s)) in
              Next (upd_cp s (CSizeR (wr s)) [Lin 1 SizeC r])
  | CSizeR w => Next (upd_cp s (CRet SizeC (RNat (guess (size s) w (rd s)))) [])
  | CEmptyR => Next (upd_cp s (CEmptyW (rd s)) [])
  | CEmptyW r => let x := RBool (Nat.eqb r (wr s)) in Next (upd_cp s (CRet EmptyC x) [Lin 1 EmptyC x])
  | CRet o r => Next (upd_cp s CIdle [Ret 1 o r])
  end.

Definition step (s : state) (l : label) : outcome state :=
  match l with Call o => call s o | StepP => step_p s | StepC => step_c s end.

(** Lines 151-163 destroy(), run when no thread uses the queue: the objects left in [read, end) are
    destroyed; [k] bounds the loop. [None]: a raw slot is destroyed or the loop does not end. *)
Fixpoint destroy_loop (k n r e : nat) (sl : nat -> option T) : option (nat -> option T) :=
  if Nat.eqb r e then Some sl else
  match k with
  | O => None
  | S k' => match sl r with None => None | Some _ => destroy_loop k' n (next n r) e (upd sl r None) end
  end.
Definition destroy (s : state) : option (nat -> option T) := destroy_loop (size s) (size s) (rd s) (wr s) (slots s).
End Spsc.
Arguments op : clear implicits. Arguments res : clear implicits. Arguments state : clear implicits.
Arguments label : clear implicits.
