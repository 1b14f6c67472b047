(** Model of Barrier (/repo/util/fibers/synchronization.cc:181-206, synchronization.h:488-518) on top of
    the mutex and the condition variable. [NP] participants (fibers 0 .. NP-1) call Wait() again and
    again; fibers from NP on may call Cancel(). *)
From Verif Require Import Util Conc MonModel.
Local Open Scope N_scope.

Record bst := mk_b {
  current : N;       (* current_ *)
  cycle : N;         (* cycle_, a size_t *)
  (* ghosts: what the fibers have seen *)
  ent : nat -> nat;  (* number of calls of Wait() *)
  ret : nat -> list bool   (* what the calls have returned, oldest first *)
}.
Inductive bloc :=
| BIdle                  (* between two calls *)
| BLock | BIn | BNtf | BTest (cy : N) | BWait (cy : N) | BOut (r : bool) | BRet (r : bool)   (* Wait() *)
| KLock | KSet | KUnl | KNtf.                                                                (* Cancel() *)

Definition size_max : N := two64 - 1.
Section Barrier.
  Variable NP : nat.      (* initial_ *)
  Definition bcode (t : nat) (l : bloc) : minstr bst bloc :=
    match l with
    | BIdle => MAtom (fun c _ =>
        if (t <? NP)%nat then Next (mk_b (current c) (cycle c) (upd (ent c) t (S (ent c t))) (ret c), BLock) else Next (c, KLock))
    | BLock => MLock BIn                                       (* :186 *)
    | BIn => MAtom (fun c _ =>                                 (* :187-190; current_ is a size_t *)
        let cur := (current c + (two64 - 1)) mod two64 in
        if cur =? 0 then Next (mk_b (N.of_nat NP) ((cycle c + 1) mod two64) (ent c) (ret c), BNtf)
        else Next (mk_b cur (cycle c) (ent c) (ret c), BTest (cycle c)))
    | BNtf => CvNotify true (BOut true)                        (* :191-192 *)
    | BTest cy => MAtom (fun c _ =>                            (* :195-196: pred() *)
        Next (c, if negb (cy =? cycle c) || (cycle c =? size_max) then BOut false else BWait cy))
    | BWait cy => CvWait (BTest cy)
    | BOut r => MUnlock (BRet r)                               (* ~unique_lock *)
    | BRet r => MAtom (fun c _ => Next (mk_b (current c) (cycle c) (ent c) (upd (ret c) t (ret c t ++ [r])), BIdle))
    | KLock => MLock KSet                                      (* :202 *)
    | KSet => MAtom (fun c _ => Next (mk_b (current c) size_max (ent c) (ret c), KUnl))   (* :203 *)
    | KUnl => MUnlock KNtf
    | KNtf => CvNotify true BIdle                              (* :205 *)
    end.
  (** :181-183 *)
  Definition binit : mst bst bloc := minit (mk_b (N.of_nat NP) 0 (fun _ => 0%nat) (fun _ => [])) (fun _ => BIdle).
End Barrier.
