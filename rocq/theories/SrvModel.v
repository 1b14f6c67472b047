(** Adding listeners and shutting one down: util/fibers/accept_server.cc:24-53 (CreateServerSocket), :118-202
    (AddListener, AddUDSListener); util/fibers/listener_interface.cc:185-244 (the end of RunAcceptLoop), :255-301
    (RunSingleConnection), :350-413 (Migrate), :43-86 (TLConnList).

    What the accept loop does before, the client limit and traversals are in ListenerModel.v. *)
From Verif Require Import Util Conc.

(** ** Adding listeners *)

(** ai_family *)
Inductive family := F4 | F6 | Other.
Definition fam_eqb (a b : family) : bool := match a, b with F4, F4 | F6, F6 | Other, Other => true | _, _ => false end.
(** An entry of getaddrinfo's list, with the error codes (0: none) that Create, ConfigureServerSocket, Bind and Listen
    give for it: an oracle, since these are calls to the kernel. *)
Record addr := Addr { a_id : nat; a_fam : family; e_create : N; e_conf : N; e_bind : N; e_listen : N }.

Inductive made := Found (a : addr) | Tried (ec : N).
(** accept_server.cc:31-49: one family; [ec] is the variable of :28. Leaving the inner loop is [Tried]. *)
Fixpoint try_family (f : family) (ec : N) (l : list addr) : made :=
  match l with
  | [] => Tried ec
  | a :: r =>
      if negb (fam_eqb (a_fam a) f) then try_family f ec r
      else if (e_create a =? 0)%N then
        (if (e_conf a =? 0)%N then
           if (e_bind a =? 0)%N then
             if (e_listen a =? 0)%N then Found a else Tried (e_listen a)
           else Tried (e_bind a)
         else Tried (e_conf a))
      else try_family f ec r
  end.
(** accept_server.cc:24-53. Close (:50) is left out: its result is ignored. *)
Definition CreateServerSocket (l : list addr) : made :=
  match try_family F4 0%N l with
  | Found a => Found a
  | Tried ec => try_family F6 ec l
  end.

(** The listeners of a server: what each is bound to. [None]: the listener has no socket, or is not in the list. *)
Inductive added := Aborts | AddUb | Returns (ec : N) (bound : option nat).
Definition address_not_available : N := 99.
(** accept_server.cc:126-173. [l]: [None] if getaddrinfo fails; an empty list aborts (:146). The two CHECKs of :128-129 are
    left out: the listener is fresh and Run has not been called. The code returned, and the address that the listener added
    to the list is bound to. *)
Definition AddListener (l : option (list addr)) : added :=
  match l with
  | None => Returns address_not_available None
  | Some [] => Aborts
  | Some l =>
      match CreateServerSocket l with
      | Tried ec => Returns ec None
      | Found a => Returns 0%N (Some (a_id a))
      end
  end.
(** accept_server.cc:118-124: CHECK(!ec), then the socket of the listener is used: undefined behaviour if it has none. *)
Definition AddListenerPort (l : option (list addr)) : added :=
  match AddListener l with
  | Returns ec b => if (ec =? 0)%N then match b with None => AddUb | Some _ => Returns ec b end else Aborts
  | r => r
  end.
(** accept_server.cc:175-202; the path is that of [a], Bind and Listen are one call *)
Definition AddUDSListener (a : addr) : added :=
  let ec := if (e_create a =? 0)%N then if (e_conf a =? 0)%N then e_listen a else e_conf a else e_create a in
  if (ec =? 0)%N then Returns ec (Some (a_id a)) else Returns ec None.

(** ** Shutting a listener down *)

(** The accept loop: accepting; in the first AwaitFiberOnAll (:190-215); in the second (:220-228); returned, so that
    AcceptServer::Wait can return (accept_server.cc:87-90, :106-111); the listener has been destroyed. *)
Inductive phase := Accepting | Sweeping | Emptying | Returned | Destroyed.
(** What a thread of the pool has been given to run and has not started yet. All of these come through its task queue
    and then its queue of ready fibers (Launch::post), both first in first out: a new connection (:174-183), the two callbacks of
    AwaitFiberOnAll, a connection that migrates here (proactor_base.cc:288-296). *)
Inductive task := TConn (c : nat) | TSweep | TAwait | TMig (c : nat).
(** The callbacks on one thread: not started; in conn.Shutdown() for [c] (:204), a preemption point; the first is done; in
    AwaitEmpty; the list is deleted and erased from the thread's listener_map. *)
Inductive sweep := NotYet | Inside (c : nat) | Swept | Waiting | Erased.
(** A connection: none yet; accepted, its fiber not started; linked in the list of thread [t]; in Migrate, unlinked, on its
    way to [d]; running unlinked ("left unlinked", :401-403); over. *)
Inductive cst := Absent | Queued (t : nat) | On (t : nat) | Away (d : nat) | Loose (t : nat) | Gone.

(** [list t]: the connection list of the thread. [shut c]: Connection::Shutdown has been called for it (ghost). *)
Record st := mk { ph : phase; queue : nat -> list task; lst : nat -> list nat; sw : nat -> sweep; conn : nat -> cst; shut : nat -> bool }.

Definition init : st := mk Accepting (fun _ => []) (fun _ => []) (fun _ => NotYet) (fun _ => Absent) (fun _ => false).

Definition is_swept (w : sweep) : bool := match w with Swept => true | _ => false end.
Definition is_erased (w : sweep) : bool := match w with Erased => true | _ => false end.
Definition is_destroyed (p : phase) : bool := match p with Destroyed => true | _ => false end.

(** Every thread of a pool of [n]. *)
Definition every (n : nat) (f : nat -> bool) : bool := forallb f (seq 0 n).
(** list.erase *)
Definition unlink (c : nat) (l : list nat) : list nat := filter (fun x => negb (x =? c)) l.
(** What comes after [c]: ++iter *)
Fixpoint after (c : nat) (l : list nat) : list nat :=
  match l with [] => [] | x :: r => if x =? c then r else after c r end.

(** :200-204: the iterator is at the front of [l], a suffix of the thread's list: end the loop, or call Shutdown. *)
Definition sweep_at (s : st) (t : nat) (q : list task) (l : list nat) : st :=
  match l with
  | [] => mk (ph s) (upd (queue s) t q) (lst s) (upd (sw s) t Swept) (conn s) (shut s)
  | c :: _ => mk (ph s) (upd (queue s) t q) (lst s) (upd (sw s) t (Inside c)) (conn s) (upd (shut s) c true)
  end.
(** TLConnList::Link, :63-69 *)
Definition link (s : st) (t : nat) (q : list task) (c : nat) : st :=
  mk (ph s) (upd (queue s) t q) (upd (lst s) t (lst s t ++ [c])) (sw s) (upd (conn s) c (On t)) (shut s).

Inductive lab :=
  | Accept (c t : nat)   (* a connection is accepted, for thread [t] *)
  | Break                (* Accept fails: the loop ends *)
  | Run (t : nat)        (* thread [t] starts what is next in its queue *)
  | Back (t : nat)       (* the call of Shutdown returns *)
  | Await                (* the first AwaitFiberOnAll is over *)
  | Drop (t : nat)       (* AwaitEmpty returns *)
  | End                  (* the second AwaitFiberOnAll is over, RunAcceptLoop returns *)
  | Destroy              (* Wait has returned, the server and its listeners are deleted *)
  | Close (c : nat)      (* the connection's fiber ends *)
  | Migrate (c d : nat). (* the connection calls Migrate *)

(** One step. [n]: size of the pool. The steps of a thread up to its next preemption point are one step: they only touch
    what belongs to that thread (and [open_connections_], [migrate_traversal_state_] of the listener: undefined behaviour if it is
    destroyed). Simplifications: Migrate's wait for traversals
    is left out; DispatchOnAll gives the callback to all threads in one step. *)
Definition step (n : nat) (s : st) (l : lab) : outcome st :=
  match l with
  | Accept c t =>   (* :117-183 *)
      match ph s, conn s c with
      | Accepting, Absent =>
          if t <? n then Next (mk (ph s) (upd (queue s) t (queue s t ++ [TConn c])) (lst s) (sw s) (upd (conn s) c (Queued t)) (shut s))
          else Stuck
      | _, _ => Stuck
      end
  | Break =>        (* :185-190 *)
      match ph s with
      | Accepting => Next (mk Sweeping (fun t => queue s t ++ [TSweep]) (lst s) (sw s) (conn s) (shut s))
      | _ => Stuck
      end
  | Run t =>
      if t <? n then
        match queue s t with
        | [] => Stuck
        | TConn c :: q =>   (* :255-264; find(this)->second of a missing entry is undefined *)
            if is_erased (sw s t) then Ub else Next (link s t q c)
        | TSweep :: q => Next (sweep_at s t q (lst s t))   (* :191-204 *)
        | TAwait :: q => Next (mk (ph s) (upd (queue s) t q) (lst s) (upd (sw s) t Waiting) (conn s) (shut s))   (* :220-224 *)
        | TMig c :: q =>    (* :387-413: the lock is released after linking *)
            if is_destroyed (ph s) then Ub
            else if is_erased (sw s t) then Next (mk (ph s) (upd (queue s) t q) (lst s) (sw s) (upd (conn s) c (Loose t)) (shut s))
            else Next (link s t q c)
        end
      else Stuck
  | Back t =>       (* :205-210; the iterator of another thread's list is undefined *)
      match sw s t with
      | Inside c =>
          match conn s c with
          | On u => if u =? t then Next (sweep_at s t (queue s t) (after c (lst s t))) else Ub
          | _ => Next (sweep_at s t (queue s t) (lst s t))
          end
      | _ => Stuck
      end
  | Await =>
      match ph s with
      | Sweeping => if every n (fun t => is_swept (sw s t))
                    then Next (mk Emptying (fun t => queue s t ++ [TAwait]) (lst s) (sw s) (conn s) (shut s)) else Stuck
      | _ => Stuck
      end
  | Drop t =>       (* :50-58, :224-227 *)
      match sw s t, lst s t with
      | Waiting, [] => Next (mk (ph s) (queue s) (lst s) (upd (sw s) t Erased) (conn s) (shut s))
      | _, _ => Stuck
      end
  | End =>          (* :231-234, accept_server.cc:89 *)
      match ph s with
      | Emptying => if every n (fun t => is_erased (sw s t))
                    then Next (mk Returned (queue s) (lst s) (sw s) (conn s) (shut s)) else Stuck
      | _ => Stuck
      end
  | Destroy =>      (* accept_server.cc:69-74 *)
      match ph s with
      | Returned => Next (mk Destroyed (queue s) (lst s) (sw s) (conn s) (shut s))
      | _ => Stuck
      end
  | Close c =>      (* :275-300 *)
      match conn s c with
      | On t => if is_destroyed (ph s) || is_erased (sw s t) then Ub
                else Next (mk (ph s) (queue s) (upd (lst s) t (unlink c (lst s t))) (sw s) (upd (conn s) c Gone) (shut s))
      | Loose _ => if is_destroyed (ph s) then Ub
                   else Next (mk (ph s) (queue s) (lst s) (sw s) (upd (conn s) c Gone) (shut s))
      | _ => Stuck
      end
  | Migrate c d =>  (* :350-385 *)
      match conn s c with
      | On t => if (t =? d) || negb (d <? n) then Stuck
                else if is_destroyed (ph s) || is_erased (sw s t) then Ub
                else Next (mk (ph s) (upd (queue s) d (queue s d ++ [TMig c])) (upd (lst s) t (unlink c (lst s t)))
                              (sw s) (upd (conn s) c (Away d)) (shut s))
      | Loose t => if (t =? d) || negb (d <? n) then Stuck else Ub   (* find(this)->second *)
      | _ => Stuck
      end
  end.
