(** base::Histogram: base/histogram.h:16-94, base/histogram.cc.

    Doubles are modelled by the rational numbers they denote; infinities and NaN are left out. An arithmetic operation
    gives the exact result, rounded by [rnd], which the theorems assume only a few things of. Counters are 64 bit words. *)
From Verif Require Import Util.
From Coq Require Export QArith Qround.

(** x < y *)
Definition ltb (x y : Q) : bool := negb (Qle_bool y x).

(** kBucketLimit without its last element: histogram.cc:21-176 *)
Definition limits : list Z := [
    1; 2; 3; 4; 5; 6; 7; 8; 9; 10; 12; 14; 16; 18; 20; 25; 30; 35; 40; 45; 50; 60; 70; 80; 90; 100; 120; 140; 160;
    180; 200; 250; 300; 350; 400; 450; 500; 600; 700; 800; 900; 1000; 1200; 1400; 1600; 1800; 2000; 2500; 3000;
    3500; 4000; 4500; 5000; 6000; 7000; 8000; 9000; 10000; 12000; 14000; 16000; 18000; 20000; 25000; 30000; 35000;
    40000; 45000; 50000; 60000; 70000; 80000; 90000; 100000; 120000; 140000; 160000; 180000; 200000; 250000; 300000;
    350000; 400000; 450000; 500000; 600000; 700000; 800000; 900000; 1000000; 1200000; 1400000; 1600000; 1800000;
    2000000; 2500000; 3000000; 3500000; 4000000; 4500000; 5000000; 6000000; 7000000; 8000000; 9000000; 10000000;
    12000000; 14000000; 16000000; 18000000; 20000000; 25000000; 30000000; 35000000; 40000000; 45000000; 50000000;
    60000000; 70000000; 80000000; 90000000; 100000000; 120000000; 140000000; 160000000; 180000000; 200000000; 250000000;
    300000000; 350000000; 400000000; 450000000; 500000000; 600000000; 700000000; 800000000; 900000000; 1000000000;
    1200000000; 1400000000; 1600000000; 1800000000; 2000000000; 2500000000; 3000000000; 3500000000; 4000000000;
    4500000000; 5000000000; 6000000000; 7000000000; 8000000000; 9000000000]%Z.
(** its last element, 1e200 as a double: histogram.cc:175 *)
Definition top : Z := (2941796710330669 * 2 ^ 613)%Z.
(** kBucketLimit[i] *)
Definition limit (i : nat) : Q := inject_Z (nth i limits top).

(** uint64_t *)
Definition w64 (x : N) : N := (x mod two64)%N.

(** histogram.h:82-90. Clear(): histogram.cc:195-201 *)
Record hist := mk { hmin : Q; hmax : Q; hsum : Q; num : N; bks : list N }.
Definition clear : hist := mk (inject_Z top) 0 0 0 [].

(** upper_bound on the table without its last element, histogram.cc:204: the first element greater than the value *)
Fixpoint upper_bound (l : list Z) (v : Q) (k : nat) : nat :=
  match l with [] => k | x :: r => if ltb v (inject_Z x) then k else upper_bound r v (S k) end.
Definition bucket (v : Q) : nat := upper_bound limits v 0.
(** vector::resize, when it makes the vector longer *)
Definition grow (n : nat) (l : list N) : list N := l ++ repeat 0%N (n - length l).

(** element-wise +=, the first list being the longer one: histogram.cc:233-236 *)
Fixpoint plus (a o : list N) : list N :=
  match a, o with
  | x :: a', y :: o' => w64 (x + y) :: plus a' o'
  | _, _ => a
  end.

Section R.
  Variable rnd : Q -> Q.

  (** histogram.cc:203-220 *)
  Definition add (h : hist) (v : Q) (c : N) : hist :=
    let b := bucket v in
    let l := if (length (bks h) <=? b)%nat then grow (S b) (bks h) else bks h in
    mk (if ltb v (hmin h) then v else hmin h) (if ltb (hmax h) v then v else hmax h)
       (rnd (hsum h + rnd (v * rnd (inject_Z (Z.of_N c))))) (w64 (num h + c)) (set b (w64 (nth b l 0%N + c)) l).

  (** histogram.cc:222-237 *)
  Definition merge (h o : hist) : hist :=
    mk (if ltb (hmin o) (hmin h) then hmin o else hmin h) (if ltb (hmax h) (hmax o) then hmax o else hmax h)
       (rnd (hsum h + hsum o)) (w64 (num h + num o))
       (plus (if (length (bks h) <? length (bks o))%nat then grow (length (bks o)) (bks h) else bks h) (bks o)).

  (** histogram.cc:299-307 *)
  Definition decay (h : hist) : hist :=
    let l := map (fun b => N.shiftr b 1) (bks h) in
    mk (hmin h) (hmax h) (rnd (hsum h * (1 # 2))) (fold_left (fun a b => w64 (a + b)) l 0%N) l.

  (** BucketLimits: histogram.cc:178-181 *)
  Definition low (b : nat) : Q := match b with O => 0 | S b' => limit b' end.
  (** histogram.cc:348-361 *)
  Definition interpolate (h : hist) (b : nat) (position : N) : Q :=
    let pos := rnd (rnd (inject_Z (Z.of_N position)) / rnd (inject_Z (Z.of_N (w64 (nth b (bks h) 0%N + 1))))) in
    let r := rnd (low b + rnd (rnd (limit b - low b) * pos)) in
    let r := if ltb r (hmin h) then hmin h else r in
    if ltb (hmax h) r then hmax h else r.

  (** uint64_t threshold = num_ * (p / 100.0), histogram.cc:265. Converting a number outside the 64 bit range is undefined. *)
  Definition threshold (h : hist) (p : Q) : option N :=
    let x := rnd (rnd (inject_Z (Z.of_N (num h))) * rnd (p / 100)) in
    let z := Qfloor x in
    if ((0 <=? z) && (z <? Z.of_N two64))%Z then Some (Z.to_N z) else None.

  (** The inner loop, histogram.cc:264-275: the results, and the percentiles that remain. *)
  Fixpoint inner (h : hist) (b : nat) (sum : N) (ps : list Q) : option (list Q * list Q) :=
    match ps with
    | [] => Some ([], [])
    | p :: ps' =>
        match threshold h p with
        | None => None
        | Some t =>
            if (t <=? sum)%N
            then let left_sum := w64 (sum + (two64 - nth b (bks h) 0%N)) in
                 match inner h b sum ps' with
                 | None => None
                 | Some (r, rest) => Some (interpolate h b (w64 (t + (two64 - left_sum))) :: r, rest)
                 end
            else Some ([], ps)
        end
    end.
  (** The outer loop and what follows, histogram.cc:260-284; [bs] the buckets from [b] on *)
  Fixpoint outer (h : hist) (bs : list N) (b : nat) (sum : N) (ps : list Q) : option (list Q) :=
    match bs, ps with
    | [], _ => Some (map (fun _ => hmax h) ps)
    | _, [] => Some []
    | x :: bs', _ =>
        let sum := w64 (sum + x) in
        match inner h b sum ps with
        | None => None
        | Some (r, rest) => match outer h bs' (S b) sum rest with Some r' => Some (r ++ r') | None => None end
        end
    end.
  (** PercentilesImpl, histogram.cc:243-285. [None]: undefined behaviour. The order of [ps] is only checked in debug builds. *)
  Definition percentiles (h : hist) (ps : list Q) : option (list Q) :=
    if (num h =? 0)%N then Some (map (fun _ => 0) ps) else outer h (bks h) 0 0 ps.
  (** histogram.cc:239-241 *)
  Definition percentile (h : hist) (p : Q) : option Q :=
    match percentiles h [p] with Some (r :: _) => Some r | _ => None end.

  (** How a histogram came about. *)
  Inductive history := New | AddTo (e : history) (v : Q) (c : N) | MergeTo (e o : history) | DecayOf (e : history).
  Fixpoint run (e : history) : hist :=
    match e with
    | New => clear
    | AddTo e v c => add (run e) v c
    | MergeTo e o => merge (run e) (run o)
    | DecayOf e => decay (run e)
    end.
End R.
