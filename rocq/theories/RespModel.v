(** redis::RespParser: examples/pingserver/resp_parser.{h,cc}.

    Strings are lists of byte values. An argument (absl::Span) is empty, a view into the string given to Parse(), a view of the
    first bytes of a block the parser owns, or a view into a string the caller was allowed to drop (resp_parser.h:29-33).
    Arrays do not nest (ConsumeArrayLen fails if arr_stack_ is not empty), so arr_stack_ is a counter, and ast_vec_ has at most
    one vector. After an error the parser is not used again, as in the ping server (ping_iouring_server.cc:131). *)
From Verif Require Import Util Conc.

Definition bytes := list N.
Inductive arg := Null | View (b : bytes) | Blob (cap : nat) (b : bytes) | Dead.
(** resp_parser.h:17-24, :57-65 *)
Inductive status := Ok | More | BadArrayLen | BadBulkLen | BadString.
Inductive state := START | INLINE | ARRAY_LEN | PARSE_ARG | BULK_STR | FINISH_ARG | CMD_COMPLETE.
(** resp_parser.h:67-80. [own]: top_ points to a vector of the parser (and not to the caller's, or to nothing). *)
Record parser := P { st : state; arr : nat; bulk : nat; broken : bool; top : list arg; own : bool; idx : nat }.
Definition init : parser := P START 0 0 false [] false 0.
Definition with_st p s := P s (arr p) (bulk p) (broken p) (top p) (own p) (idx p).
Definition with_top p t := P (st p) (arr p) (bulk p) (broken p) t (own p) (idx p).

Definition kMaxArrayLen : Z := 1024.
Definition kMaxBulkLen : Z := 67108864.
(** absl::SimpleAtoi to int64_t, resp_parser.cc:209: spaces around, a sign, digits, in range *)
Definition is_space (c : N) : bool := ((9 <=? c) && (c <=? 13) || (c =? 32))%N.
Fixpoint skip (f : N -> bool) (l : bytes) : bytes := match l with c :: l' => if f c then skip f l' else l | [] => [] end.
Definition is_digit (c : N) : bool := ((48 <=? c) && (c <=? 57))%N.
Definition number (l : bytes) : N := fold_left (fun a c => a * 10 + (c - 48))%N l 0%N.
Definition atoi (l : bytes) : option Z :=
  let l := rev (skip is_space (rev (skip is_space l))) in
  let '(neg, l) := match l with c :: l' => if (c =? 45)%N then (true, l') else if (c =? 43)%N then (false, l') else (false, l) | [] => (false, l) end in
  match l with
  | [] => None
  | _ =>
      if forallb is_digit l
      then let v := if neg : bool then Z.opp (Z.of_N (number l)) else Z.of_N (number l) in
           if ((- 9223372036854775808 <=? v) && (v <=? 9223372036854775807))%Z then Some v else None
      else None
  end.
(** memchr for '\n': the index *)
Fixpoint index_lf (l : bytes) : option nat := match l with [] => None | c :: l => if (c =? 10)%N then Some 0 else option_map S (index_lf l) end.
(** ParseNum, :195-216: the number and last_consumed_ *)
Inductive num := NMore | NBad | NOk (v : Z) (consumed : nat).
Definition parse_num (str : bytes) : num :=
  if length str <? 4 then NMore
  else match index_lf (tl str) with
  | None => if length str <? 32 then NMore else NBad
  | Some pos =>
      if negb (nth pos str 0 =? 13)%N then NBad               (* pos[-1]: str starts one before s *)
      else match atoi (firstn (pos - 1) (tl str)) with None => NBad | Some v => NOk v (pos + 2) end
  end.

(** InitStart, :88-109 *)
Definition init_start (p : parser) (c : N) : parser :=
  if ((c =? 36) || (c =? 58))%N then P PARSE_ARG 1 (bulk p) (broken p) [] false 0
  else if (c =? 42)%N then P ARRAY_LEN 0 (bulk p) (broken p) [] false 0
  else P INLINE 0 (bulk p) (broken p) [] false 0.
(** ConsumeArrayLen, :218-246 *)
Definition array_len (p : parser) (str : bytes) : parser * status * nat :=
  match parse_num str with
  | NMore => (p, More, 0)
  | NBad => (p, BadArrayLen, 0)
  | NOk v n =>
      if ((v <? -1) || (kMaxArrayLen <? v))%Z then (p, BadArrayLen, n)
      else if negb (arr p =? 0) then (p, BadString, n)
      else match top p with
           | _ :: _ => (p, BadString, n)
           | [] => if (v <=? 0)%Z then (p, BadArrayLen, n) else (P PARSE_ARG (Z.to_nat v) (bulk p) (broken p) (top p) (own p) (idx p), Ok, n)
           end
  end.
(** ParseArg, :248-275 *)
Definition parse_arg (p : parser) (str : bytes) : parser * status * nat :=
  if (nth 0 str 0 =? 36)%N
  then match parse_num str with
       | NMore => (p, More, 0)
       | NBad => (p, BadArrayLen, 0)
       | NOk v n =>
           if ((v <? -1) || (kMaxBulkLen <? v))%Z then (p, BadArrayLen, n)
           else if (v <? 0)%Z then (p, BadBulkLen, n)
           else (P BULK_STR (arr p) (Z.to_nat v) (broken p) (top p ++ [Null]) (own p) (idx p), Ok, n)
       end
  else (p, BadBulkLen, 0).
(** memcpy(bulk_str.end(), ...), :286-287, :305-306: inside the block, or out of bounds *)
Definition extend (a : arg) (b : bytes) : option arg :=
  match a with Blob cap c => if length c + length b <=? cap then Some (Blob cap (c ++ b)) else None | _ => None end.
Definition set_last (t : list arg) (a : arg) : list arg := removelast t ++ [a].
(** ConsumeBulk, :277-322 *)
Definition consume_bulk (p : parser) (str : bytes) : outcome (parser * status * nat) :=
  let k := bulk p in
  let last := last (top p) Null in
  if k + 2 <=? length str
  then if negb (nth k str 0 =? 13)%N || negb (nth (k + 1) str 0 =? 10)%N then Next (p, BadString, 0)
       else
         let fin a := Next (P FINISH_ARG (arr p) 0 false (set_last (top p) a) (own p) (idx p), Ok, k + 2) in
         if k =? 0 then fin last
         else if broken p then match extend last (firstn k str) with Some a => fin a | None => Ub end
         else fin (View (firstn k str))
  else if 32 <=? length str
  then
    let n := Nat.min (length str) k in
    let fin a := Next (P (st p) (arr p) (k - n) true (set_last (top p) a) (own p) (idx p), More, n) in
    if broken p then match extend last (firstn n str) with Some a => fin a | None => Ub end
    else fin (Blob k (firstn n str))
  else Next (p, More, 0).
(** HandleFinishArg, :324-341 *)
Definition finish_arg (p : parser) : parser :=
  match arr p with
  | S (S n) => P PARSE_ARG (S n) (bulk p) (broken p) (top p) (own p) (idx p)
  | _ => P CMD_COMPLETE 0 (bulk p) (broken p) (top p) (own p) (idx p)
  end.
(** ParseInline, :142-193: the tokens from :163 on, and what is left (empty or from '\n' on) *)
Definition in_word (c : N) : bool := (32 <? c)%N.
Fixpoint take_while (f : N -> bool) (l : bytes) : bytes := match l with c :: l' => if f c then c :: take_while f l' else [] | [] => [] end.
Fixpoint inline_loop (fuel : nat) (l : bytes) (acc : list arg) : list arg * bytes :=
  match fuel with
  | O => (acc, l)
  | S fuel =>
      let l := skip (fun c => (c <=? 32) && negb (c =? 10))%N l in
      match l with
      | [] => (acc, l)
      | c :: _ => if (c =? 10)%N then (acc, l) else inline_loop fuel (skip in_word l) (acc ++ [View (take_while in_word l)])
      end
  end.
Definition parse_inline (p : parser) (str : bytes) : outcome (parser * status * nat) :=
  let go (t : list arg) (br : bool) (l : bytes) : outcome (parser * status * nat) :=
    let '(t, rest) := inline_loop (S (length l)) l t in
    let used := length str - length rest in
    match rest with
    | [] => Next (P (st p) (arr p) (bulk p) (br || in_word (List.last str 0%N)) t (own p) (idx p), More, used)
    | _ :: _ => Next (P CMD_COMPLETE (arr p) (bulk p) br t (own p) (idx p), Ok, used + 1)
    end in
  if broken p
  then match last (top p) Null with                           (* ExtendLastString, :343-356 *)
       | Blob _ b =>
           let w := take_while in_word str in
           let l := skip in_word str in
           go (set_last (top p) (Blob (length b + length w) (b ++ w))) (match l with [] => true | _ => false end) l
       | _ => Ub
       end
  else go (top p) false str.

(** CacheState, :111-140 *)
Fixpoint copy_args (l : list arg) : option (list arg) :=
  match l with
  | [] => Some []
  | a :: l =>
      match (match a with
             | Null => Some Null
             | View b => Some (match b with [] => View b | _ => Blob (length b) b end)
             | Blob cap b => Some (match b with [] => Blob cap b | _ => Blob (length b) b end)
             | Dead => None
             end), copy_args l with
      | Some a, Some l => Some (a :: l)
      | _, _ => None
      end
  end.
Definition cache (p : parser) : outcome parser :=
  match top p, own p with
  | [], false => Next p
  | t, _ =>
      match copy_args (skipn (idx p) t) with
      | Some l => Next (P (st p) (arr p) (bulk p) (broken p) (firstn (idx p) t ++ l) true (length t))
      | None => Ub
      end
  end.

(** The loop of Parse, :39-72 *)
Fixpoint loop (fuel : nat) (p : parser) (str : bytes) (used : nat) : outcome (parser * status * nat) :=
  let continue r fuel :=
    match r with
    | Next (p, Ok, n) => loop fuel p (skipn n str) (used + n)
    | Next (p, s, n) => Next (p, s, used + n)
    | Ub => Ub
    | Stuck => Stuck
    end in
  match fuel with
  | O => Stuck
  | S fuel =>
      match st p with
      | CMD_COMPLETE => Next (p, Ok, used)
      | ARRAY_LEN => continue (Next (array_len p str)) fuel
      | PARSE_ARG => continue (if length str <? 4 then Next (p, More, 0) else Next (parse_arg p str)) fuel
      | INLINE => continue (parse_inline p str) fuel
      | BULK_STR => continue (consume_bulk p str) fuel
      | FINISH_ARG => continue (Next (finish_arg p, Ok, 0)) fuel
      | START => Ub                                            (* LOG(FATAL), :63 *)
      end
  end.
(** What a view into the caller's string is after the caller dropped it *)
Definition dead (a : arg) : arg := match a with View _ => Dead | _ => a end.
(** Parse, :20-86: the status, *consumed, and *res if the status is RESP_OK *)
Definition parse (p : parser) (str : bytes) : outcome (parser * (status * nat * list arg)) :=
  if length str <? 2 then Next (p, (More, 0, []))
  else
    let p := with_top p (if own p then map dead (top p) else []) in
    let p := match st p with CMD_COMPLETE | START => init_start p (nth 0 str 0%N) | _ => p end in
    match loop (S (3 * length str)) p str 0 with
    | Next (p, More, n) => match cache p with Next p => Next (p, (More, n, [])) | Ub => Ub | Stuck => Stuck end
    | Next (p, Ok, n) => Next (p, (Ok, n, top p))
    | Next (p, s, n) => Next (p, (s, n, []))
    | Ub => Ub
    | Stuck => Stuck
    end.

(** The caller: appends what it reads to the bytes that are not consumed, and parses until more input is needed (the ping server
    parses once for each read, ping_iouring_server.cc:92-133). An argument it gets is [None] if it dangles. *)
Definition content (a : arg) : option bytes := match a with Null => Some [] | View b => Some b | Blob _ b => Some b | Dead => None end.
Record conn := C { par : parser; buf : bytes; got : list (list (option bytes)) }.
Fixpoint drain (fuel : nat) (p : parser) (b : bytes) (g : list (list (option bytes))) : outcome conn :=
  match fuel with
  | O => Stuck
  | S fuel =>
      match parse p b with
      | Next (p, (Ok, n, args)) => drain fuel p (skipn n b) (g ++ [map content args])
      | Next (p, (More, n, _)) => Next (C p (skipn n b) g)
      | Next _ => Stuck
      | Ub => Ub
      | Stuck => Stuck
      end
  end.
Definition feed (c : conn) (chunk : bytes) : outcome conn := let b := buf c ++ chunk in drain (S (length b)) (par c) b (got c).
Definition start : conn := C init [] [].
