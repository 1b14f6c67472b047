(** Sizes in bytes written for people: strings/human_readable.cc:50-82 (HumanReadableNumBytes), :137-212
    (ParseHumanReadableBytes), :214-227 (the flag's parse and unparse functions).

    A non-negative double is the number of units of 2^-1074 in it, so that arithmetic on it is exact
    arithmetic on naturals followed by a rounding ([rnd]). Overflow to infinity is left out: the code treats no
    value from 2^63 on in a defined way. *)
From Verif Require Import Util.
From Coq Require Import ZArith.
Local Open Scope N_scope.

(** The double 1.0 *)
Definition one : N := 2 ^ 1074.
Definition half : N := 2 ^ 1073.

(** The integer nearest to num/den, ties to even. *)
Definition rne (num den : N) : N :=
  let q := num / den in let r := num mod den in
  if 2 * r <? den then q else if den <? 2 * r then q + 1 else q + q mod 2.
(** The double nearest to num/den units: 53 significant bits. *)
Definition rnd (num den : N) : N :=
  let g := 2 ^ (N.log2 (num / den) - 52) in g * rne num (den * g).

Definition isdig (c : N) : bool := (48 <=? c) && (c <=? 57).
Definition isws (c : N) : bool := (c =? 32) || ((9 <=? c) && (c <=? 13)).
Fixpoint skip_ws (l : list N) : list N :=
  match l with c :: r => if isws c then skip_ws r else l | [] => [] end.
Fixpoint span_dig (l : list N) : list N * list N :=
  match l with
  | c :: r => if isdig c then let '(a, b) := span_dig r in (c :: a, b) else ([], l)
  | [] => ([], [])
  end.
Definition decval (w : list N) : N := fold_left (fun a c => 10 * a + (c - 48)) w 0.

Definition head_is (c : N) (l : list N) : bool := match l with x :: _ => x =? c | [] => false end.

Inductive dbl := Fin (x : N) | Inf | NaN.

(** An optional exponent of a decimal numeral: its value (negative?, magnitude) and what follows it. *)
Definition exponent (l : list N) : bool * N * list N :=
  match l with
  | c :: r =>
      if (c =? 101) || (c =? 69) then
        let '(neg, r1) := if head_is 43 r then (false, tl r) else if head_is 45 r then (true, tl r) else (false, r) in
        match span_dig r1 with
        | ([], _) => (false, 0, l)
        | (w, r2) => (neg, decval w, r2)
        end
      else (false, 0, l)
  | [] => (false, 0, l)
  end.

(** A decimal numeral at the front of [l]: its value and what follows it. *)
Definition decimal (l : list N) : option (dbl * list N) :=
  let '(wi, r1) := span_dig l in
  let '(wf, r2) := if head_is 46 r1 then match wi, span_dig (tl r1) with
                                         | [], ([], _) => ([], r1)
                                         | _, p => p
                                         end
                   else ([], r1) in
  match wi ++ wf with
  | [] => None
  | w => let '(neg, e, r3) := exponent r2 in
         let p := 10 ^ e in
         Some (Fin (if neg : bool then rnd (decval w * one) (10 ^ len wf * p)
                    else rnd (decval w * p * one) (10 ^ len wf)), r3)
  end.

Section Lib.
  (** What strtod makes of a hexadecimal numeral, an infinity or a NaN (after white space and sign): not modelled,
      any answer is possible. *)
  Variable other : list N -> option (dbl * list N).

  (** strtod: sign, value, and what follows the numeral; [None] = no numeral, end = the beginning. *)
  Definition strtod (l : list N) : option (bool * dbl * list N) :=
    let l1 := skip_ws l in
    let '(neg, l2) := if head_is 43 l1 then (false, tl l1) else if head_is 45 l1 then (true, tl l1) else (false, l1) in
    let odd := (head_is 48 l2 && (head_is 120 (tl l2) || head_is 88 (tl l2))) ||
               head_is 105 l2 || head_is 73 l2 || head_is 110 l2 || head_is 78 l2 in
    match (if odd : bool then other l2 else decimal l2) with
    | Some (d, r) => Some (neg, d, r)
    | None => None
    end.

  (** The power of 1024 for the character after the numeral, human_readable.cc:152-188; 0 is the end of the string. *)
  Definition unit (c : N) : option N :=
    if (c =? 69) || (c =? 101) then Some 6
    else if (c =? 80) || (c =? 112) then Some 5
    else if (c =? 84) || (c =? 116) then Some 4
    else if (c =? 71) || (c =? 103) then Some 3
    else if (c =? 77) || (c =? 109) then Some 2
    else if (c =? 75) || (c =? 107) then Some 1
    else if (c =? 66) || (c =? 98) || (c =? 0) then Some 0
    else None.
  (** human_readable.cc:192-201 *)
  Definition tail_ok (l : list N) : bool :=
    match l with
    | [] => true
    | _ :: r =>
        let r := if head_is 105 r then tl r else r in
        let r := if head_is 66 r || head_is 98 r then tl r else r in
        match r with [] => true | _ => false end
    end.

  (** A C string: up to the first NUL. *)
  Fixpoint cstr (l : list N) : list N :=
    match l with c :: r => if c =? 0 then [] else c :: cstr r | [] => [] end.

  Inductive res := Bad | Ub | Ok (v : Z).

  (** human_readable.cc:203-210: the conversion to int64_t of a double that does not fit is undefined. *)
  Definition finish (neg dneg : bool) (d : dbl) (k : N) : res :=
    match d with
    | Fin x =>
        let y := rnd (x * 2 ^ (10 * k)) 1 in
        if dneg then
          if 2 ^ 63 <? y / one then Ub else if y =? 0 then Ok 0%Z else Bad
        else if 2 ^ 63 <=? y / one then Ub
        else let v := Z.of_N (rnd (y + half) 1 / one) in Ok (if neg then (- v)%Z else v)
    | Inf | NaN => Ub
    end.

  (** human_readable.cc:137-212. [s] is the string_view, [m] what lies behind it in memory. *)
  Definition parse (s m : list N) : res :=
    match s with
    | [] => Bad
    | _ =>
        let c := cstr (s ++ m) in
        let '(neg, c1) := if head_is 45 c then (true, tl c) else (false, c) in
        match strtod c1 with
        | None => Bad
        | Some (dneg, d, r) =>
            match unit (hd 0 r) with
            | None => Bad
            | Some k => if tail_ok r then finish neg dneg d k else Bad
            end
        end
    end.
End Lib.

(** printf of an integer *)
Fixpoint show_fuel (f : nat) (n : N) : list N :=
  match f with
  | O => []
  | S f => if n <? 10 then [48 + n] else show_fuel f (n / 10) ++ [48 + n mod 10]
  end.
Definition show (n : N) : list N := show_fuel (S (N.to_nat (N.log2 n))) n.

(** human_readable.cc:69-75: the number in [1024, 2^20), and how often it was divided. *)
Fixpoint shrink (f : nat) (n : N) (u : nat) : N * nat :=
  match f with
  | O => (n, u)
  | S f => if 1024 * 1024 <=? n then shrink f (n / 1024) (S u) else (n, u)
  end.
(** "KMGTPE" *)
Definition letter (u : nat) : N := nth u [75; 77; 71; 84; 80; 69] 0.

(** "%.1f" and "%.2f" of n / 1024.0 (an exact division): [p] = 10 or 100. *)
Definition fixed (n p : N) : list N :=
  let t := rne (n * p) 1024 in
  show (t / p) ++ [46] ++ (if p =? 10 then [48 + t mod 10] else [48 + t mod 100 / 10; 48 + t mod 10]).

(** human_readable.cc:50-82 *)
Definition print (b : Z) : list N :=
  if (b =? - 2 ^ 63)%Z then [45; 56; 69]
  else
    let sgn := if (b <? 0)%Z then [45] else [] in
    let n := Z.abs_N b in
    if n <? 1024 then sgn ++ show n ++ [66]
    else let '(m, u) := shrink 6 n 0 in
         sgn ++ fixed m (if (u =? 0)%nat then 10 else 100) ++ [letter u; 105; 66].

(** AbslParseFlag and AbslUnparseFlag, human_readable.cc:214-227; a flag's text is followed by NUL. *)
Definition parse_flag (other : list N -> option (dbl * list N)) (s : list N) : res :=
  match parse other s [] with Ok v => if (0 <=? v)%Z then Ok v else Bad | r => r end.
Definition unparse_flag (v : Z) : list N := print v.
