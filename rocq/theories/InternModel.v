(** Model of ProactorPool::GetString (util/fibers/proactor_pool.cc:184-217): interned strings. [n] is not needed: any thread may
    call. Contents are numbers, [0] being the empty string; a pointer is the number of an allocation. The lock is what
    C72 proves of RWSpinLock: its word is left out. *)
From Verif Require Import Util Conc.

(** Where a call is: [Reading c]: between lines 189 and 193, lock held; [Gap c]: between the locks; [Writing c]: from line 195 on. *)
Inductive pc := Out | Reading (c : nat) | Gap (c : nat) | Writing (c : nat).
(** A result: the argument, and the pointer; [None]: the argument itself (line 186). *)
Record st := mkS {
  th : nat -> pc; rds : nat; wr : bool;          (* str_lock_ *)
  sset : list (nat * nat);                       (* str_set_: content and pointer *)
  mem : nat -> option nat; nextp : nat;          (* str_arena_ *)
  res : list (nat * option nat) }.
Definition init : st := mkS (fun _ => Out) 0 false [] (fun _ => None) 0 [].

Inductive lab := LCall (t c : nat) | LLook (t : nat) | LLock (t : nat) | LInsert (t : nat).

(** str_set_.find *)
Fixpoint find (c : nat) (l : list (nat * nat)) : option nat :=
  match l with [] => None | (d, p) :: t => if Nat.eqb d c then Some p else find c t end.

Definition step (s : st) (l : lab) : outcome st :=
  match l with
  | LCall t c =>
    match th s t with
    | Out =>
      if Nat.eqb c 0 then Next (mkS (th s) (rds s) (wr s) (sset s) (mem s) (nextp s) (res s ++ [(c, None)]))
      else if wr s then Stuck
      else Next (mkS (upd (th s) t (Reading c)) (S (rds s)) (wr s) (sset s) (mem s) (nextp s) (res s))
    | _ => Stuck
    end
  | LLook t =>
    match th s t with
    | Reading c =>
      match find c (sset s) with
      | Some p => Next (mkS (upd (th s) t Out) (rds s - 1) (wr s) (sset s) (mem s) (nextp s) (res s ++ [(c, Some p)]))
      | None => Next (mkS (upd (th s) t (Gap c)) (rds s - 1) (wr s) (sset s) (mem s) (nextp s) (res s))
      end
    | _ => Stuck
    end
  | LLock t =>
    match th s t with
    | Gap c => if (Nat.eqb (rds s) 0 && negb (wr s))%bool then Next (mkS (upd (th s) t (Writing c)) (rds s) true (sset s) (mem s) (nextp s) (res s)) else Stuck
    | _ => Stuck
    end
  | LInsert t =>
    match th s t with
    | Writing c =>
      match find c (sset s) with
      | Some p => Next (mkS (upd (th s) t Out) (rds s) false (sset s) (mem s) (nextp s) (res s ++ [(c, Some p)]))
      | None => Next (mkS (upd (th s) t Out) (rds s) false ((c, nextp s) :: sset s) (upd (mem s) (nextp s) (Some c)) (S (nextp s)) (res s ++ [(c, Some (nextp s))]))
      end
    | _ => Stuck
    end
  end.
