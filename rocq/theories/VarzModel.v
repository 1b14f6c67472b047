(** Variables that report themselves: base/varz_node.cc, base/varz_node.h, base/varz_value.h, and VarzMapAverage of
    util/varz.h:43-80, util/fibers/varz.cc:25-82. *)
From Verif Require Import Util Conc.

(** ** The list of variables, varz_node.cc:16-38, :64-78 *)

(** A VarzListNode. Pointers are addresses; an address whose object is destroyed may be used again. *)
Record node := Node { n_name : option (list N); n_next : option nat; n_prev : option nat }.
(** [mem]: the live objects. [head]: global_list(). *)
Record heap := Heap { mem : nat -> option node; head : option nat }.
Definition empty : heap := Heap (fun _ => None) None.

Inductive vop := New (a : nat) (name : option (list N)) | Del (a : nat).

(** p->prev_ = v; p->next_ = v: undefined behaviour if [p] is not live *)
Definition set_prev (m : nat -> option node) (p : nat) (v : option nat) : option (nat -> option node) :=
  match m p with None => None | Some x => Some (upd m p (Some (Node (n_name x) (n_next x) v))) end.
Definition set_next (m : nat -> option node) (p : nat) (v : option nat) : option (nat -> option node) :=
  match m p with None => None | Some x => Some (upd m p (Some (Node (n_name x) v (n_prev x)))) end.

(** varz_node.cc:16-24; the lock makes it one step *)
Definition construct (h : heap) (a : nat) (name : option (list N)) : outcome heap :=
  let next := head h in
  match (match next with Some b => set_prev (mem h) b (Some a) | None => Some (mem h) end) with
  | None => Ub
  | Some m => Next (Heap (upd m a (Some (Node name next None))) (Some a))
  end.
(** varz_node.cc:26-38 *)
Definition destroy (h : heap) (a : nat) (x : node) : outcome heap :=
  if (match head h with Some b => b =? a | None => false end) then Next (Heap (upd (mem h) a None) (n_next x))
  else
    match (match n_next x with Some b => set_prev (mem h) b (n_prev x) | None => Some (mem h) end) with
    | None => Ub
    | Some m =>
        match (match n_prev x with Some p => set_next m p (n_next x) | None => Some m end) with
        | None => Ub
        | Some m => Next (Heap (upd m a None) (head h))
        end
    end.
(** [Stuck]: the client constructs over a live object, or destroys what is not there. *)
Definition vstep (h : heap) (o : vop) : outcome heap :=
  match o with
  | New a name => match mem h a with Some _ => Stuck | None => construct h a name end
  | Del a => match mem h a with None => Stuck | Some x => destroy h a x end
  end.
(** varz_node.cc:70-78: the names passed to the callback. [None]: a dead node is read, or the walk goes on for more than
    [fuel] nodes. *)
Fixpoint walk (fuel : nat) (m : nat -> option node) (p : option nat) : option (list (list N)) :=
  match p with
  | None => Some []
  | Some a =>
      match fuel, m a with
      | O, _ | _, None => None
      | S k, Some x =>
          match walk k m (n_next x) with
          | None => None
          | Some r => Some (match n_name x with Some s => s :: r | None => r end)
          end
      end
  end.
Definition Iterate (fuel : nat) (h : heap) : option (list (list N)) := walk fuel (mem h) (head h).

(** ** Format, varz_node.cc:40-62 *)

(** VarzValue, base/varz_value.h:13-58. [VDbl] holds the text that StrAppend writes for the double. *)
Inductive val := VStr (s : list N) | VNum (z : Z) | VTime (z : Z) | VDbl (t : list N) | VMap (l : list (list N * val)).

(** StrAppend of an int64 *)
Fixpoint digs (fuel : nat) (n : N) : list N :=
  match fuel with
  | O => []
  | S k => if (n <? 10)%N then [48 + n]%N else digs k (n / 10)%N ++ [48 + n mod 10]%N
  end.
Definition dec (z : Z) : list N :=
  (if (z <? 0)%Z then [45%N] else []) ++ digs (S (N.size_nat (Z.abs_N z))) (Z.abs_N z).

(** result.back() = ' ' *)
Definition set_back (l : list N) : list N := removelast l ++ [32%N].
Fixpoint Format (v : val) : list N :=
  match v with
  | VStr s => 34%N :: s ++ [34%N]
  | VNum z | VTime z => dec z
  | VDbl t => t
  | VMap l =>
      set_back ([123; 32]%N ++ (fix go (l : list (list N * val)) : list N :=
         match l with
         | [] => []
         | (k, w) :: r => (34%N :: k ++ [34; 58; 32]%N ++ Format w ++ [44]%N) ++ go r
         end) l) ++ [125%N]
  end.

(** ** VarzMapAverage *)

(** avg_map_[t]: key, sum, count, in the order of iteration. Simplifications: keys are numbers, only compared; counters
    are unbounded and nothing leaves their window (that is C10's subject). *)
Definition entry := (nat * (Z * nat))%type.
(** GetData's callback on one thread: not in it; at entry [i]; the counters of entry [i] are read, it waits for the mutex (varz.cc:76), a
    preemption point; done. *)
Inductive pos := Out | At (i : nat) | Hold (i : nat) (e : entry) | Fin.
(** [res]: the result so far, with the thread each entry came from. *)
Record avg := Avg { maps : nat -> list entry; at_ : nat -> pos; res : list (nat * entry) }.
Definition avg0 : avg := Avg (fun _ => []) (fun _ => Out) [].

Inductive alab := Inc (t k : nat) (d : Z) | Get | Read (t : nat) | Put (t : nat).

(** map.find, then dest->first.IncBy(delta), dest->second.Inc(); varz.h:55-68 *)
Fixpoint bump (k : nat) (d : Z) (l : list entry) : option (list entry) :=
  match l with
  | [] => None
  | (k', (s, c)) :: r =>
      if k' =? k then Some ((k', ((s + d)%Z, S c)) :: r)
      else match bump k d r with Some r' => Some ((k', (s, c)) :: r') | None => None end
  end.
Definition inside (p : pos) : bool := match p with At _ | Hold _ _ => true | _ => false end.

Definition astep (s : avg) (l : alab) : outcome avg :=
  match l with
  | Inc t k d =>
      match bump k d (maps s t) with
      | Some m => Next (Avg (upd (maps s) t m) (at_ s) (res s))
      | None =>   (* FindSlow, varz.cc:45-52: emplace may rehash and invalidates iterators *)
          if inside (at_ s t) then Ub
          else Next (Avg (upd (maps s) t (maps s t ++ [(k, (d, 1))])) (at_ s) (res s))
      end
  | Get => Next (Avg (maps s) (fun _ => At 0) [])   (* varz.cc:54-60, :80 *)
  | Read t =>     (* varz.cc:63-74 *)
      match at_ s t with
      | At i => match nth_error (maps s t) i with
                | Some e => Next (Avg (maps s) (upd (at_ s) t (Hold i e)) (res s))
                | None => Next (Avg (maps s) (upd (at_ s) t Fin) (res s))
                end
      | _ => Stuck
      end
  | Put t =>      (* varz.cc:76-77, ++it *)
      match at_ s t with
      | Hold i e => Next (Avg (maps s) (upd (at_ s) t (At (S i))) (res s ++ [(t, e)]))
      | _ => Stuck
      end
  end.
