(** On-idle tasks of a proactor: util/fibers/proactor_base.cc:167-250 (AddOnIdleTask,
    RunOnIdleTasks, RemoveOnIdleTask), util/fibers/proactor_base.h:152-177, :314-321.

    Everything happens in the proactor's thread. A task is user code: while it runs it may call
    AddOnIdleTask and RemoveOnIdleTask; then it returns a level. Clock readings are arbitrary.
    std::vector is a list with a capacity and a generation: the buffer moves when push_back finds it
    full (it then doubles, as libstdc++ does), and a reference taken before no longer denotes a live
    element; neither does a reference to a slot that was popped. Release build: DCHECKs are off. *)
From Verif Require Import Util Conc.
From Coq Require Import ZArith.

(** A reference to a slot of the vector. *)
Record ref := mk_r { rgen : nat; ridx : nat }.

(** Where the thread is: outside of RunOnIdleTasks; at the head of its loop; inside a task.
    [r] is [on_idle], [t] the task called, [start] and [cur] the local start and curr_ts, [nm] the
    local task_name, [sp] the local should_spin. *)
Inductive md :=
| Out
| Loop (start cur : N) (nm : option ref) (sp : bool)
| Call (r : ref) (t : nat) (start cur : N) (nm : option ref) (sp : bool).

(** [arr] on_idle_arr_: a task (numbered in order of registration) or an empty std::function, and
    next_ts; [next] on_idle_next_; [nid] the number the next task gets; [due] (ghost) the time before
    which a task asked not to be called. *)
Record st := mk { arr : list (option nat * N); cap : nat; gen : nat; next : nat; mode : md; nid : nat; due : nat -> N }.

Inductive lab := Add | Remove (id : nat) | Begin (now : N) | Iter | Ret (level : Z) (now : N).

(** while (!arr.empty() && !arr.back().task) arr.pop_back() *)
Fixpoint trim (l : list (option nat * N)) : list (option nat * N) :=
  match l with
  | [] => []
  | (o, ts) :: r => match o, trim r with None, [] => [] | _, r' => (o, ts) :: r' end
  end.

Definition valid (s : st) (r : ref) : bool := (rgen r =? gen s)%nat && (ridx r <? length (arr s))%nat.

Section Step.
  (** kLoopBudgetCycles, kSlowWarnCycles, kIdleMaxCycles (proactor_base.cc:186-188) depend on the
      clock frequency; kOnIdleMaxLevel = 21 (proactor_base.h:49). *)
  Variables budget slow kmax : N.
  Definition max_level : Z := 21.

  (** a - b on uint64_t *)
  Definition sub64 (a b : N) : N := ((a + two64 - b) mod two64)%N.

  (** proactor_base.cc:167-175 *)
  Definition add (s : st) : st :=
    let full := (length (arr s) =? cap s)%nat in
    mk (arr s ++ [(Some (nid s), 0%N)]) (if full then Nat.max 1 (cap s + cap s) else cap s)
       (if full then S (gen s) else gen s) (next s) (mode s) (S (nid s)) (due s).

  (** proactor_base.cc:170, :174: the id it returns. *)
  Definition add_result (s : st) : nat := length (arr s).

  (** proactor_base.cc:238-249; the answer is whether the slot held a task. *)
  Definition remove (s : st) (id : nat) : st :=
    match nth_error (arr s) id with
    | Some (Some _, ts) => mk (trim (set id (None, ts) (arr s))) (cap s) (gen s) (next s) (mode s) (nid s) (due s)
    | _ => s
    end.

  Definition remove_result (s : st) (id : nat) : bool :=
    match nth_error (arr s) id with Some (Some _, _) => true | _ => false end.

  (** proactor_base.cc:229-236: the end of RunOnIdleTasks; task_name is read if it took too long. *)
  Definition leave (s : st) (start cur : N) (nm : option ref) : outcome st :=
    let s' := mk (arr s) (cap s) (gen s) (next s) Out (nid s) (due s) in
    match nm with
    | Some r => if (slow <=? sub64 cur start)%N && negb (valid s r) then Ub else Next s'
    | None => Next s'
    end.

  (** proactor_base.cc:223-228 *)
  Definition advance (s : st) (start cur : N) (nm : option ref) (sp : bool) : outcome st :=
    let nx := S (next s) in
    if (length (arr s) <=? nx)%nat
    then leave (mk (arr s) (cap s) (gen s) 0 (mode s) (nid s) (due s)) start cur nm
    else let s' := mk (arr s) (cap s) (gen s) nx (Loop start cur nm sp) (nid s) (due s) in
         if (sub64 cur start <? budget)%N then Next s' else leave s' start cur nm.

  (** proactor_base.cc:193-197: the head of the loop, up to the call. *)
  Definition iter (s : st) (start cur : N) (nm : option ref) (sp : bool) : outcome st :=
    match nth_error (arr s) (next s) with
    | None => Ub
    | Some (Some t, ts) =>
        if (ts <=? cur)%N
        then Next (mk (arr s) (cap s) (gen s) (next s) (Call (mk_r (gen s) (next s)) t start cur nm sp) (nid s) (due s))
        else advance s start cur nm sp
    | Some (None, _) => advance s start cur nm sp
    end.

  (** proactor_base.cc:199-221: the task has returned [level]; [now] is what the clock says then. *)
  Definition ret (s : st) (r : ref) (t : nat) (start cur : N) (nm : option ref) (sp : bool) (level : Z) (now : N) : outcome st :=
    if (level <? 0)%Z
    then if negb (valid s r) then Ub
         else let a := match nth_error (arr s) (ridx r) with Some (_, ts) => set (ridx r) (None, ts) (arr s) | None => arr s end in
              if (S (next s) =? length (arr s))%nat
              then leave (mk (trim (removelast a)) (cap s) (gen s) 0 (mode s) (nid s) (due s)) start cur None
              else advance (mk a (cap s) (gen s) (next s) (mode s) (nid s) (due s)) start cur None sp
    else if (max_level <=? level)%Z then advance s start now (Some r) true
    else if (next s <? length (arr s))%nat
    then if negb (valid s r) then Ub
         else let ts := ((now + N.shiftr kmax (Z.to_N level)) mod two64)%N in
              let a := match nth_error (arr s) (ridx r) with Some (o, _) => set (ridx r) (o, ts) (arr s) | None => arr s end in
              advance (mk a (cap s) (gen s) (next s) (mode s) (nid s) (upd (due s) t ts)) start now (Some r) sp
    else advance s start now (Some r) sp.

  Definition step (s : st) (l : lab) : outcome st :=
    match l, mode s with
    | Add, Loop _ _ _ _ | Remove _, Loop _ _ _ _ => Stuck
    | Add, _ => Next (add s)
    | Remove id, _ => Next (remove s id)
    | Begin now, Out => match arr s with [] => Next s | _ => Next (mk (arr s) (cap s) (gen s) (next s) (Loop now now None false) (nid s) (due s)) end
    | Iter, Loop start cur nm sp => iter s start cur nm sp
    | Ret level now, Call r t start cur nm sp => ret s r t start cur nm sp level now
    | _, _ => Stuck
    end.

  Definition init : st := mk [] 0 0 0 Out 0 (fun _ => 0%N).
End Step.
