(** Specification of C02: a FIFO list holding at most [cap] elements. *)
From Verif Require Import Util RingBufferModel.
Open Scope N_scope.

Section Spec.
Context {T : Type}.

Definition q_step (cap : N) (q : list T) (o : rop T) : list T * rres T :=
  match o with
  | RTry v => if len q <? cap then (q ++ [v], RBool true) else (q, RBool false)
  | RForce v => if len q <? cap then (q ++ [v], RBool false) else (drop 1 q ++ [v], RBool true)
  | RPop => match q with [] => ([], RVal None) | x :: t => (t, RVal (Some x)) end
  | RSet i v => (set (N.to_nat i) v q, RUnit)
  | RConsume n => (drop n q, RUnit)
  end.

(** The caller's obligations: index in range, do not consume more than there is. *)
Definition q_pre (q : list T) (o : rop T) : Prop :=
  match o with
  | RSet i _ => i < len q
  | RConsume n => n <= len q
  | _ => True
  end.

Fixpoint q_run (cap : N) (q : list T) (h : list (rop T)) : list T * list (rres T) :=
  match h with
  | [] => (q, [])
  | o :: h' => let (q1, r1) := q_step cap q o in
               let (q2, rs) := q_run cap q1 h' in (q2, r1 :: rs)
  end.
Fixpoint q_respects (cap : N) (q : list T) (h : list (rop T)) : Prop :=
  match h with
  | [] => True
  | o :: h' => q_pre q o /\ q_respects cap (fst (q_step cap q o)) h'
  end.

Fixpoint rrun (r : ring T) (h : list (rop T)) : option (ring T * list (rres T)) :=
  match h with
  | [] => Some (r, [])
  | o :: h' => match rstep r o with
               | None => None
               | Some (r1, x) => match rrun r1 h' with
                                 | None => None
                                 | Some (r2, xs) => Some (r2, x :: xs)
                                 end
               end
  end.
End Spec.
