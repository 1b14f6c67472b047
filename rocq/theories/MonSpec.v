(** What a user sees of a Mutex and a CondVar. A client program tells for each of its points whether
    it lies between lock() and unlock(): [own]. *)
From Verif Require Import Util Conc MonModel.
Section MonSpec.
  Context {C L : Type}.
  Variable code : nat -> L -> minstr C L.
  Variable own : nat -> L -> bool.
  (** The client pairs its calls: it locks when it does not hold the mutex, unlocks when it does,
      waits on the condition variable with the mutex held, and [own] follows these calls. *)
  Definition paired : Prop := forall t l,
    match code t l with
    | MAtom f => forall c n c' l', f c n = Next (c', l') -> own t l' = own t l
    | MLock k => own t l = false /\ own t k = true
    | MTry kt kf => own t l = false /\ own t kt = true /\ own t kf = false
    | MUnlock k => own t l = true /\ own t k = false
    | CvWait k => own t l = true /\ own t k = true
    | CvNotify _ k => own t k = own t l
    end.
  (** It also notifies with the mutex held (synchronization.h:80-81, 87-88: "should be called under the mutex"). *)
  Definition cv_guarded : Prop := forall t l,
    match code t l with CvNotify _ _ => own t l = true | _ => True end.
  (** Its own computations are defined. *)
  Definition sane : Prop := forall t l,
    match code t l with MAtom f => forall c n, f c n <> Ub | _ => True end.

  (** Fiber [t] is between lock() (or a successful try_lock()) and unlock(). *)
  Definition inside (s : mst C L) (t : nat) : Prop := exists l, pc s t = Run l /\ own t l = true.
  Definition outside (s : mst C L) (t : nat) : Prop := exists l, pc s t = Run l /\ own t l = false.
  (** Suspended in lock(); suspended in wait(). *)
  Definition lock_suspended (s : mst C L) (t : nat) : Prop := exists k, pc s t = LParked k.
  Definition cv_suspended (s : mst C L) (t : nat) : Prop := exists k, pc s t = CvParked k.
End MonSpec.

(** Use of wait(lock, pred) with notify_all: [wants t k c] says that the predicate of a fiber that
    waits with continuation [k] is true of the data [c]. *)
Section CvSpec.
  Context {C L : Type}.
  Variable code : nat -> L -> minstr C L.
  Variable own : nat -> L -> bool.
  Variable wants : nat -> L -> C -> bool.
  (** Program points at which a fiber has changed the data and has yet to call notify_all(). *)
  Variable owes : nat -> L -> bool.
  Definition cv_discipline : Prop := forall t l,
    (match code t l with
     | MAtom f => forall c n c' l', f c n = Next (c', l') ->
         (* data are changed with the mutex held *)
         (own t l = false -> forall u k, wants u k c' = wants u k c) /\
         (* wait() is called after pred() has answered false *)
         (forall k, code t l' = CvWait k -> wants t k c' = false) /\
         (* whoever makes a predicate true notifies later *)
         (owes t l = true -> owes t l' = true) /\
         (forall u k, wants u k c = false -> wants u k c' = true -> owes t l' = true)
     | MLock k | MUnlock k => owes t k = owes t l /\ forall k', code t k <> CvWait k'
     | MTry k1 k2 => owes t k1 = owes t l /\ owes t k2 = owes t l /\ forall k', code t k1 <> CvWait k' /\ code t k2 <> CvWait k'
     | CvWait k => owes t l = false /\ forall k', code t k <> CvWait k'
     | CvNotify all k => (all = false -> owes t k = owes t l) /\ forall k', code t k <> CvWait k'
     end).
  (** A fiber that owes a notification: at such a point, or in a call that returns to one. *)
  Definition owing (s : mst C L) (u : nat) : bool :=
    match pc s u with
    | Run l | LSpin l | LTest l | LRel l _ | LParked l | TRel _ l => owes u l
    | TSpin l _ | TTest l _ => owes u l
    | USpin (ARun l) | UDo (ARun l) | URel (ARun l) => owes u l
    | _ => false
    end.
End CvSpec.
