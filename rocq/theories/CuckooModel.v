(** base::CuckooMap: base/cuckoo_map.cc, base/cuckoo_map-internal.h.

    A slot is [None] if its key is the empty value; keys that are inserted or looked for differ from it (DCHECK_NE,
    cuckoo_map.cc:217). Simplifications: libdivide divides (bucket_cuckoo in LibdivProps.v), allocation does not fail, the new number of buckets in Grow() (a
    float multiplication and the next prime) is any number larger than the old one, and the counter for random numbers does not
    wrap around (only its last two bits are used). *)
From Verif Require Import Util Conc.

(** cuckoo_map-internal.h:18-20 *)
Definition kMask1 : N := 14504361325974414679%N.
Definition kMask2 : N := 11160318154034397263%N.
Definition kLen : nat := 4.

Section V.
  Variable V : Type.
  Definition entry : Type := (N * V)%type.
  Definition slot := option entry.
  Definition table := list (list slot).

  (** hash1, hash2: cuckoo_map-internal.h:166-185 *)
  Definition hash (mask : N) (n : nat) (k : N) : nat := N.to_nat (N.lxor mask k mod N.of_nat n).
  (** HashToIdPair, cuckoo_map.cc:185-198 *)
  Definition id_pair (n : nat) (k : N) : nat * nat :=
    let a := hash kMask1 n k in let b := hash kMask2 n k in
    (a, if b =? a then (b + 1) mod n else b).
  (** NextBucketId, :177-183 *)
  Definition other (n : nat) (cur : nat) (k : N) : nat := let '(a, b) := id_pair n k in if cur =? a then b else a.

  Definition bucket (t : table) (b : nat) : list slot := nth b t [].
  Definition at_ (t : table) (b i : nat) : slot := nth i (bucket t b) None.
  Definition put (t : table) (b i : nat) (e : entry) : table := set b (set i (Some e) (bucket t b)) t.
  (** CheckEmpty and countr_zero, :168-175, :253-258: the first empty slot *)
  Fixpoint first_empty (l : list slot) : option nat :=
    match l with [] => None | None :: _ => Some 0 | Some _ :: l => option_map S (first_empty l) end.
  (** The loops of FindInBucket, :200-213 *)
  Fixpoint index (k : N) (l : list slot) : option nat :=
    match l with
    | [] => None
    | Some (k', _) :: l => if (k' =? k)%N then Some 0 else option_map S (index k l)
    | None :: l => option_map S (index k l)
    end.
  Definition find (t : table) (k : N) : option (nat * nat) :=
    let '(a, b) := id_pair (length t) k in
    match index k (bucket t a) with
    | Some i => Some (a, i)
    | None => option_map (pair b) (index k (bucket t b))
    end.
  (** ToDenseId, cuckoo_map-internal.h:147-149: in 32 bits. FromDenseId, :396-411 *)
  Definition to_dense (p : nat * nat) : N := ((N.of_nat (fst p) * 4 + N.of_nat (snd p)) mod two32)%N.
  Definition from_dense (t : table) (d : N) : slot := at_ t (N.to_nat (d / 4)) (N.to_nat (d mod 4)).

  (** RollPending, :305-361. [Placed]: where the first pending entry is. *)
  Inductive rolled := Placed (t : table) (r : N) (p : nat * nat) | Left (t : table) (r : N) (e : entry) | Bad.
  (** The loop, :336-357: [cur], [idx] the slot to swap with, [start], [sidx] the first one *)
  Fixpoint shift (limit : nat) (t : table) (r : N) (e : entry) (cur idx start sidx : nat) : rolled :=
    match limit with
    | O => Left t r e
    | S limit =>
        match at_ t cur idx with
        | None => Bad
        | Some e' =>
            let t := put t cur idx e in                     (* SwapPending, :260-270 *)
            let next := other (length t) cur (fst e') in
            match first_empty (bucket t next) with
            | Some i => Placed (put t next i e') r (start, sidx)
            | None =>
                let s := N.to_nat (r mod 4) in
                let s := if (next =? start) && (s =? sidx) then (s + 1) mod kLen else s in
                shift limit t (r + 1)%N e' next s start sidx
            end
        end
    end.
  Definition roll (limit : nat) (t : table) (r : N) (e : entry) : rolled :=
    let '(a, b) := id_pair (length t) (fst e) in
    match first_empty (bucket t a) with
    | Some i => Placed (put t a i e) r (a, i)
    | None =>
        match first_empty (bucket t b) with
        | Some i => Placed (put t b i e) r (b, i)
        | None =>
            let start := if (r mod 2 =? 0)%N then a else b in
            let s := N.to_nat ((r + 1) mod 4) in
            shift limit t (r + 2)%N e start s start s
        end
    end.
  (** shifts_limit_, :427-430: twice the number of trailing zeros *)
  Fixpoint zeros (p : positive) : nat := match p with xO p => S (zeros p) | _ => 0 end.
  Definition shifts_limit (n : nat) : nat := match N.of_nat n with N0 => 0 | Npos p => zeros p * 2 end.

  (** DoAllocate, SetEmptyValues: :439-444, :272-278 *)
  Definition fresh (n : nat) : table := repeat (repeat None kLen) n.
  Definition somes (l : list slot) : list entry := flat_map (fun s => match s with Some e => [e] | None => [] end) l.
  (** The entries in the order in which CopyBuffer goes over them, :409-425 *)
  Definition entries (t : table) : list entry := somes (concat t).
  (** CopyBuffer as Grow uses it: [None] if an entry could not be placed *)
  Inductive copied := Copied (t : table) (r : N) | Failed (r : N) | CBad.
  Fixpoint copy (limit : nat) (t : table) (r : N) (es : list entry) : copied :=
    match es with
    | [] => Copied t r
    | e :: es => match roll limit t r e with Placed t r _ => copy limit t r es | Left _ r _ => Failed r | Bad => CBad end
    end.
  (** Grow, :363-407. [old] the entries, [n] the number of buckets, [ns] the numbers tried. *)
  Fixpoint grow (old : list entry) (n : nat) (r : N) (ns : list nat) : outcome (table * N * list nat) :=
    match ns with
    | [] => Stuck
    | m :: ns =>
        if n <? m
        then match copy (shifts_limit m * 2) (fresh m) r old with
             | Copied t r => Next (t, r, ns)
             | Failed r => grow old m r ns
             | CBad => Ub
             end
        else Stuck                                            (* CHECK_LT, :387 *)
    end.

  (** cuckoo_map-internal.h:239-275 *)
  Record cmap := Map { tab : table; size : nat; rnd : N }.
  (** Insert's loop, cuckoo_map.cc:232-243. Where the entry given first is: [None] after Grow() *)
  Fixpoint insert_loop (fuel : nat) (t : table) (r : N) (e : entry) (ns : list nat) (first : bool) : outcome (table * N * option (nat * nat)) :=
    match fuel with
    | O => Stuck
    | S fuel =>
        match roll (shifts_limit (length t)) t r e with
        | Placed t r p => Next (t, r, if first then Some p else None)
        | Left t r e =>
            match grow (entries t) (length t) r ns with
            | Next (t, r, ns) => insert_loop fuel t r e ns false
            | Ub => Ub
            | Stuck => Stuck
            end
        | Bad => Ub
        end
    end.
  (** Insert, :215-251; what it returns, npos is [None] *)
  Definition insert (s : cmap) (k : N) (v : V) (ns : list nat) : outcome (cmap * (option N * bool)) :=
    match find (tab s) k with
    | Some p => Next (s, (Some (to_dense p), false))
    | None =>
        match insert_loop (S (length ns)) (tab s) (rnd s) (k, v) ns true with
        | Next (t, r, Some p) => Next (Map t (S (size s)) r, (Some (to_dense p), true))
        | Next (t, r, None) => Next (Map t (S (size s)) r, (option_map to_dense (find t k), true))
        | Ub => Ub
        | Stuck => Stuck
        end
    end.
  (** find, then FromDenseId *)
  Definition lookup (s : cmap) (k : N) : option V :=
    match find (tab s) k with
    | None => None
    | Some p => option_map snd (from_dense (tab s) (to_dense p))
    end.

  Inductive lab := Insert (k : N) (v : V) (ns : list nat) | Reserve (c : nat) (ns : list nat) | Clear.
  Definition step (s : cmap) (l : lab) : outcome cmap :=
    match l with
    | Insert k v ns => match insert s k v ns with Next (s, _) => Next s | Ub => Ub | Stuck => Stuck end
    | Reserve c ns =>                                        (* :294-303 *)
        if c <=? length (tab s) * kLen then Next s
        else if size s =? 0 then match ns with n :: _ => if c / kLen <=? n then Next (Map (fresh n) 0 (rnd s)) else Stuck | [] => Stuck end
        else match grow (entries (tab s)) (length (tab s)) (rnd s) ns with Next (t, r, _) => Next (Map t (size s) r) | Ub => Ub | Stuck => Stuck end
    | Clear => Next (Map (fresh (length (tab s))) 0 (rnd s))  (* cuckoo_map-internal.h:58-61 *)
    end.
  (** The constructor makes at least 16 buckets, cuckoo_map.cc:37, :160-163 *)
  Definition init (n : nat) : cmap := Map (fresh n) 0 0.
End V.
Arguments Placed {V}. Arguments Left {V}. Arguments Bad {V}. Arguments Map {V}. Arguments tab {V}. Arguments size {V}. Arguments rnd {V}.
Arguments Insert {V}. Arguments Reserve {V}. Arguments Clear {V}. Arguments Copied {V}. Arguments Failed {V}. Arguments CBad {V}.
