(** base::CuckooMap::Compact: base/cuckoo_map.cc:446-690, on the table of CuckooModel.v.

    Simplifications: as in CuckooModel.v; the ten numbers of buckets tried (the prime not less than max(16, 1 + size*ratio/4),
    then the next primes, :454-460, :488) are given as a list; visited_count does not wrap around; the two buffers of pending
    values are one entry. *)
From Verif Require Import Util Conc CuckooModel.

(** BucketState, :65-157: the bits of mask_; [ch] the children bits that are set, in ascending order *)
Record bstate := BS { explored : bool; visited : bool; full : bool; ch : list nat }.
Definition bs0 : bstate := BS false false false [].
Definition has (k : nat) (l : list nat) : bool := existsb (Nat.eqb k) l.
(** set_explored, :84-87 *)
Definition set_explored (mask : list nat) (b : bstate) : bstate :=
  BS true (visited b) (full b) (filter (fun k => has k (ch b) || has k mask) (seq 0 kLen)).
(** set_visited, clear_visited, set_full: :95-109 *)
Definition set_visited (b : bstate) : bstate := BS (explored b) true (full b) (ch b).
Definition clear_visited (b : bstate) : bstate := BS (explored b) false (full b) (ch b).
Definition set_full (b : bstate) : bstate := BS (explored b) (visited b) true (ch b).
(** remove_child, :130-132 *)
Definition remove_child (k : nat) (b : bstate) : bstate := BS (explored b) (visited b) (full b) (filter (fun j => negb (j =? k)) (ch b)).
(** unshiftable, :140-142 *)
Definition unshiftable (b : bstate) : bool := explored b && negb (visited b) && match ch b with [] => true | _ => false end.
(** reset_but_preserve_unshiftable, :144-149 *)
Definition reset (b : bstate) : bstate := if unshiftable b then BS true false true [] else BS false false (full b) [].

Definition info := list bstate.
Definition st (f : info) (b : nat) : bstate := nth b f bs0.
Definition mod_ (f : info) (b : nat) (g : bstate -> bstate) : info := set b (g (st f b)) f.

Section V.
  Variable V : Type.
  Notation table := (table V).
  Notation entry := (entry V).

  (** Explore, :639-686: from the slots [ks] on, [e] is pending *)
  Inductive explore_res := Hit (t : table) (f : info) | Miss (f : info) | EBad.
  Fixpoint explore (ks : list nat) (t : table) (f : info) (e : entry) (parent : nat) (mask : list nat) : explore_res :=
    match ks with
    | [] => Miss (mod_ f parent (set_explored mask))
    | k :: ks =>
        match at_ _ t parent k with
        | None => EBad                                          (* DCHECK_NE(key, empty_value_), :646 *)
        | Some e' =>
            let next := other (length t) parent (fst e') in
            if visited (st f next) || unshiftable (st f next) then explore ks t f e parent mask
            else if full (st f next) then explore ks t (mod_ f next set_visited) e parent (mask ++ [k])
            else match first_empty _ (bucket _ t next) with
                 | Some i =>                                     (* SwapPending, InsertIntoBucket: :660-661 *)
                     Hit (put _ (put _ t parent k e) next i e') (match mask with [] => f | _ => mod_ f parent (set_explored mask) end)
                 | None => explore ks t (mod_ f next (fun b => set_visited (set_full b))) e parent (mask ++ [k])
                 end
        end
    end.

  (** The locals of ShiftExhaustive and what it works on; the top of the stack is first *)
  Record dfs := Dfs { dt : table; df : info; de : entry; stack : list nat; count : nat }.
  Inductive dres := More (s : dfs) | Found (s : dfs) | DBad.
  (** The rest of one pass of its loop after Explore, :556-604 *)
  Definition advance (bid : nat) (start : N) (s : dfs) (parent : nat) (below : list nat) : dres :=
    match ch (st (df s) parent) with
    | [] =>
        if visited (st (df s) parent)                            (* CHECK, :558 *)
        then let f := mod_ (df s) parent clear_visited in
             if unshiftable (st f parent)                        (* CHECK, :560 *)
             then More (Dfs (dt s) f (de s) below (count s - 1)) else DBad
        else DBad
    | c :: _ =>
        match at_ _ (dt s) parent c with
        | None => DBad
        | Some e' =>                                             (* SwapPending, :570 *)
            let t := put _ (dt s) parent c (de s) in
            let back := More (Dfs t (mod_ (df s) parent (remove_child c)) e' (stack s) (count s)) in
            if (parent =? bid) && (fst e' =? start)%N then back
            else let next := other (length t) parent (fst e') in
                 if explored (st (df s) next) then back
                 else More (Dfs t (df s) e' (next :: stack s) (count s))
        end
    end.
  (** One pass, :540-605 *)
  Definition pass (bid : nat) (start : N) (s : dfs) : dres :=
    match stack s with
    | [] => DBad
    | parent :: below =>
        if explored (st (df s) parent) then advance bid start s parent below
        else match explore (seq 0 kLen) (dt s) (df s) (de s) parent [] with
             | Hit t f => Found (Dfs t f (de s) (stack s) (count s))
             | Miss f => advance bid start (Dfs (dt s) f (de s) (stack s) (count s + length (ch (st f parent)))) parent below
             | EBad => DBad
             end
    end.
  (** One element of the stack is cleaned up, :619-631: its children, then itself *)
  Fixpoint unmark (t : table) (f : info) (id : nat) (below : list nat) (cs : list nat) : info :=
    match cs with
    | [] => mod_ f id reset
    | c :: cs =>
        let next := match at_ _ t id c with Some e => other (length t) id (fst e) | None => 0 end in
        let f := mod_ f id (remove_child c) in
        if match below with b :: _ => next =? b | [] => false end then unmark t f id below cs
        else unmark t (mod_ f next reset) id below cs
    end.
  Fixpoint unwind (t : table) (f : info) (stk : list nat) : info :=
    match stk with [] => f | id :: below => unwind t (unmark t f id below (ch (st f id))) below end.
  (** :611-637 *)
  Definition cleanup (s : dfs) : info :=
    if count s <? length (df s) / 6 then unwind (dt s) (df s) (stack s) else map reset (df s).
  (** ShiftExhaustive, :529-638: [None] if the bound on the number of passes is too small *)
  Inductive shift_res := Shifted (t : table) (f : info) | NoPath (t : table) | SBad | Endless.
  Fixpoint passes (fuel : nat) (bid : nat) (start : N) (s : dfs) : shift_res :=
    match stack s with
    | [] => NoPath (dt s)
    | _ =>
        match fuel with
        | O => Endless
        | S fuel =>
            match pass bid start s with
            | More s => passes fuel bid start s
            | Found s => Shifted (dt s) (cleanup s)
            | DBad => SBad
            end
        end
    end.
  Definition shift_exhaustive (t : table) (f : info) (e : entry) (bid : nat) : shift_res :=
    passes (16 * length t + 1) bid (fst e) (Dfs t (mod_ f bid set_visited) e [bid] 1).

  (** InsertProblematicKeys, :492-510 *)
  Inductive solved := Solved (t : table) | Unsolved (t : table) | VBad | VEndless.
  Fixpoint problematic (t : table) (f : info) (es : list entry) : solved :=
    match es with
    | [] => Solved t
    | e :: es =>
        match shift_exhaustive t f e (fst (id_pair (length t) (fst e))) with
        | Shifted t f => problematic t f es
        | NoPath t => Unsolved t
        | SBad => VBad
        | Endless => VEndless
        end
    end.
  (** CopyBuffer as Compact uses it, :469-482 *)
  Inductive filled := Filled (t : table) (r : N) (bad : list entry) | FBad.
  Fixpoint fill (limit : nat) (t : table) (r : N) (es bad : list entry) : filled :=
    match es with
    | [] => Filled t r bad
    | e :: es =>
        match roll _ limit t r e with
        | Placed t r _ => fill limit t r es bad
        | Left t r e' => fill limit t r es (bad ++ [e'])
        | Bad => FBad
        end
    end.
  (** The loop of Compact, :462-490: [old] the entries of the old buffer. The last table stays if all tries fail. *)
  Fixpoint tries (old : list entry) (s : cmap V) (ns : list nat) : outcome (cmap V * bool) :=
    match ns with
    | [] => Next (s, false)
    | m :: ns =>
        match fill (shifts_limit m * 2) (fresh _ m) (rnd s) old [] with
        | FBad => Ub
        | Filled t r bad =>
            match problematic t (repeat bs0 m) bad with
            | Solved t => Next (Map t (size s) r, true)
            | Unsolved t => tries old (Map t (size s) r) ns
            | VBad => Ub
            | VEndless => Stuck
            end
        end
    end.
  Definition kTries : nat := 10.
  (** Compact, :446-490 *)
  Definition compact (s : cmap V) (ns : list nat) : outcome (cmap V * bool) :=
    if length (tab s) <? 128 then Next (s, true)
    else if length ns =? kTries then tries (entries _ (tab s)) s ns
    else Stuck.

  (** The calls of CuckooModel.v and Compact() with what it returned *)
  Inductive clab := Call (l : lab V) | Compact (ns : list nat) (res : bool).
  Definition cstep (s : cmap V) (l : clab) : outcome (cmap V) :=
    match l with
    | Call l => step _ s l
    | Compact ns res =>
        match compact s ns with
        | Next (s', res') => if Bool.eqb res res' then Next s' else Stuck
        | Ub => Ub
        | Stuck => Stuck
        end
    end.
End V.
Arguments Hit {V}. Arguments Miss {V}. Arguments EBad {V}. Arguments Dfs {V}. Arguments dt {V}. Arguments df {V}. Arguments de {V}.
Arguments stack {V}. Arguments count {V}. Arguments More {V}. Arguments Found {V}. Arguments DBad {V}.
Arguments Shifted {V}. Arguments NoPath {V}. Arguments SBad {V}. Arguments Endless {V}.
Arguments Solved {V}. Arguments Unsolved {V}. Arguments VBad {V}. Arguments VEndless {V}. Arguments Filled {V}. Arguments FBad {V}.
Arguments Call {V}. Arguments Compact {V}.
