(** Counter and gauge families: util/metrics/metrics.cc:34-86 (SingleFamily::IncBy, Combine, GetDenseId,
    GaugeFamily::Set), util/metrics/family.cc:71-102 (Family::Emplace), :116-180 (Iterate).

    A family is shared by the threads of a pool; every thread has its own map from label hashes to dense
    ids and its own vector of values. A call that does not find its labels in the thread's own map may
    be preempted before it gets the family's lock, so it is split in two: [Call] up to the lock,
    [Finish] from the lock to the end. What a fiber does between two preemption points is one step, and
    the only thing threads share is touched under the lock.

    Simplifications: a value is an integer (the code has doubles: exact up to 2^53); callers pass as many
    labels as the family has names (CHECK_EQ) and run on a pool thread (elsewhere the calls do nothing). *)
From Verif Require Import Util Conc.
From Coq Require Import ZArith.

Definition label := list N.
Definition labels := list label.
Inductive op := Add (v : Z) | Put (v : Z).

(** metrics.h PerThread: label_map and metric_vec. *)
Record thread := mkT { tmap : list (N * nat); tvec : list Z }.

(** [thr] per_thread_, [gmap] label_map_, [gvals] label_values_, [pend] the calls that wait for the
    lock; ghost: [done] the calls that have ended, in order. *)
Record st := mk { thr : list thread; gmap : list (N * nat); gvals : list labels;
                  pend : list (nat * labels * op); done : list (nat * labels * op) }.

Definition init (n : nat) : st := mk (repeat (mkT [] []) n) [] [] [] [].

(** flat_hash_map::find *)
Fixpoint find (m : list (N * nat)) (h : N) : option nat :=
  match m with
  | [] => None
  | (k, i) :: r => if (k =? h)%N then Some i else find r h
  end.

(** vector::resize: cuts the tail off, or pads with zeros. *)
Definition resize (v : list Z) (n : nat) : list Z := firstn n v ++ repeat 0%Z (n - length v).

(** SingleFamily::IncBy, metrics.cc:41; GaugeFamily::Set, :82. *)
Definition opval (o : op) (x : Z) : Z := match o with Add v => (x + v)%Z | Put v => v end.

(** metrics.cc:41,82: operator[] of a vector past its end is undefined. *)
Definition write (v : list Z) (id : nat) (o : op) : option (list Z) :=
  match nth_error v id with Some x => Some (set id (opval o x) v) | None => None end.

Section H.
  (** XXH3 over the bytes it is fed, however these are cut. *)
  Variable hash : list N -> N.
  (** metrics.cc:61-65 *)
  Definition hash_of (L : labels) : N := hash (concat L).

  (** Emplace under the lock, family.cc:87-101, with the resize of metrics.cc:67-69: the thread, the
      family's map and its label tuples afterwards, and the dense id. *)
  Definition emplace (th : thread) (gm : list (N * nat)) (gv : list labels) (L : labels)
    : thread * list (N * nat) * list labels * nat :=
    let h := hash_of L in
    match find (tmap th) h with
    | Some id => (th, gm, gv, id)
    | None =>
        match find gm h with
        | Some id => (mkT ((h, id) :: tmap th) (resize (tvec th) (S id)), gm, gv, id)
        | None => let id := length gv in
                  (mkT ((h, id) :: tmap th) (resize (tvec th) (S id)), (h, id) :: gm, gv ++ [L], id)
        end
    end.

  Inductive lab := Call (t : nat) (L : labels) (o : op) | Finish (i : nat).

  Definition step (s : st) (l : lab) : outcome st :=
    match l with
    | Call t L o =>
        match nth_error (thr s) t with
        | None => Stuck
        | Some th =>
            (* quick path, family.cc:73-76 *)
            match find (tmap th) (hash_of L) with
            | Some id =>
                match write (tvec th) id o with
                | None => Ub
                | Some v => Next (mk (set t (mkT (tmap th) v) (thr s)) (gmap s) (gvals s) (pend s)
                                     (done s ++ [(t, L, o)]))
                end
            | None => Next (mk (thr s) (gmap s) (gvals s) (pend s ++ [(t, L, o)]) (done s))
            end
        end
    | Finish i =>
        match nth_error (pend s) i with
        | None => Stuck
        | Some (t, L, o) =>
            match nth_error (thr s) t with
            | None => Stuck
            | Some th =>
                let '(th', gm, gv, id) := emplace th (gmap s) (gvals s) L in
                match write (tvec th') id o with
                | None => Ub
                | Some v => Next (mk (set t (mkT (tmap th') v) (thr s)) gm gv
                                     (firstn i (pend s) ++ skipn (S i) (pend s)) (done s ++ [(t, L, o)]))
                end
            end
        end
    end.
End H.

(** Combine for every thread, metrics.cc:44-54, family.cc:154-169. *)
Definition combined (ts : list thread) (i : nat) : Z := fold_right Z.add 0%Z (map (fun th => nth i (tvec th) 0%Z) ts).
(** Iterate when no call is under way: the rows it hands to its callback. *)
Definition report (s : st) : list (labels * Z) :=
  map (fun p => (fst p, combined (thr s) (snd p))) (combine (gvals s) (seq 0 (length (gvals s)))).
