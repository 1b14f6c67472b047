(** Specification for C03-C05: a ledger of the segments the callers hold. *)
From Verif Require Import Util SegmentPoolModel.
Open Scope N_scope.

(** Events: a request of a length, giving back a held segment, growing the pool. *)
Inductive pev := Req (n : N) | Ret (o n : N) | Gro (a : N).

Definition seg_eqb (a b : seg) : bool := (fst a =? fst b) && (snd a =? snd b).
Fixpoint remove1 (x : seg) (l : list seg) : list seg :=
  match l with [] => [] | y :: t => if seg_eqb x y then t else y :: remove1 x t end.

(** The ledger changes exactly by what the callers asked for and were told. Only the offset is
    passed to the pool when a segment is given back. *)
Definition pexec (st : pool * list seg) (e : pev) : option (pool * list seg) :=
  let (p, held) := st in
  match e with
  | Req n => match Request n p with
             | (Some o, p') => Some (p', (o, n) :: held)
             | (None, p') => Some (p', held)
             end
  | Ret o n => match Return o p with
               | Some p' => Some (p', remove1 (o, n) held)
               | None => None
               end
  | Gro a => Some (Grow a p, held)
  end.

Fixpoint prun (st : pool * list seg) (h : list pev) : option (pool * list seg) :=
  match h with
  | [] => Some st
  | e :: h' => match pexec st e with Some st' => prun st' h' | None => None end
  end.

(** Caller obligations. [minlen] is 1 for C03/C04 and 0 for C05. *)
Definition pallowed (minlen : N) (st : pool * list seg) (e : pev) : Prop :=
  match e with
  | Req n => minlen <= n < two32
  | Ret o n => In (o, n) (snd st)
  | Gro a => psize (fst st) + a < two32
  end.
Fixpoint plegal (minlen : N) (st : pool * list seg) (h : list pev) : Prop :=
  match h with
  | [] => True
  | e :: h' => pallowed minlen st e /\ forall st', pexec st e = Some st' -> plegal minlen st' h'
  end.

(** Total size the caller gave to the pool. *)
Fixpoint grown (s : N) (h : list pev) : N :=
  match h with [] => s | Gro a :: h' => grown (s + a) h' | _ :: h' => grown s h' end.

Definition disjoint (a b : seg) : Prop := fst a + snd a <= fst b \/ fst b + snd b <= fst a.
Definition pairwise_disjoint (l : list seg) : Prop :=
  forall i j a b, i <> j -> nth_error l i = Some a -> nth_error l j = Some b -> disjoint a b.
Definition inside (s : N) (l : list seg) : Prop := forall a, In a l -> fst a + snd a <= s.

(** The byte-level interface of the proactor: held byte ranges (start, length). *)
Inductive bev := BReq (size : N) | BRet (start n : N).
Definition bexec (st : pool * list seg) (e : bev) : option (pool * list seg) :=
  let (p, held) := st in
  match e with
  | BReq size => match RequestBuffer size p with
                 | (Some r, p') => Some (p', r :: held)
                 | (None, p') => Some (p', held)
                 end
  | BRet start n => match ReturnBuffer start p with
                    | Some p' => Some (p', remove1 (start, n) held)
                    | None => None
                    end
  end.
Fixpoint brun (st : pool * list seg) (h : list bev) : option (pool * list seg) :=
  match h with
  | [] => Some st
  | e :: h' => match bexec st e with Some st' => brun st' h' | None => None end
  end.
(** Non-zero sizes whose segment count fits [unsigned] (below 16 TB - 4 KB). *)
Definition ballowed (st : pool * list seg) (e : bev) : Prop :=
  match e with
  | BReq size => 0 < size /\ size <= 4096 * (two32 - 1)
  | BRet start n => In (start, n) (snd st)
  end.
Fixpoint blegal (st : pool * list seg) (h : list bev) : Prop :=
  match h with
  | [] => True
  | e :: h' => ballowed st e /\ forall st', bexec st e = Some st' -> blegal st' h'
  end.
