(** Model of strings/escaping.cc, util/http/encoding.cc and the query splitting of
    util/http/http_common.cc. Strings are lists of bytes (N < 256); [None] = undefined behaviour. *)
From Verif Require Import Util.
Open Scope N_scope.

(** absl::ascii_isalnum / isxdigit on unsigned char. *)
Definition between (a c b : N) : bool := (a <=? c) && (c <=? b).
Definition isalnum (c : N) : bool := between 48 c 57 || between 65 c 90 || between 97 c 122.
Definition isxdigit (c : N) : bool := between 48 c 57 || between 65 c 70 || between 97 c 102.

(** strings/escaping.cc:10-13: - _ . ! ~ * ( ) *)
Definition IsValidUrlChar (c : N) : bool :=
  isalnum c || existsb (N.eqb c) [45; 95; 46; 33; 126; 42; 40; 41].

(** strings/escaping.cc:16 (also encoding.cc:25): digits[i] of "0123456789ABCDEF". *)
Definition digit (i : N) : N := if i <? 10 then 48 + i else 55 + i.

(** The loop body of strings/escaping.cc:19-28 with the set of literal characters as parameter (the
    same loop is in util/http/encoding.cc:29-38). *)
Fixpoint encode_with (valid : N -> bool) (src : list N) : list N :=
  match src with
  | [] => []
  | ch :: t => (if valid ch then [ch]
                else [37; digit (N.land (N.shiftr ch 4) 15); digit (N.land ch 15)])
               ++ encode_with valid t
  end.

(** strings/escaping.cc:70-76. The buffer holds 3*|src|+1 new bytes; the encoder writes its output
    and a terminating zero (line 29) there. *)
Definition AppendUrlEncoded (src dest : list N) : option (list N) :=
  let out := encode_with IsValidUrlChar src in
  if len out + 1 <=? 3 * len src + 1 then Some (dest ++ out) else None.

(** strings/escaping.cc:34-42 *)
Definition hex_digit_to_int (c : N) : N := N.land (if 57 <? c then c + 9 else c) 15.

(** strings/escaping.cc:44-67: bytes stored to dest and whether the loop ran to the end. The
    recursion on the remaining input replaces the index [i] (see the bound in AppendUrlDecoded). *)
Fixpoint InternalUrlDecode (src : list N) : list N * bool :=
  match src with
  | [] => ([], true)
  | ch :: t =>
    if negb (ch =? 37) then let (o, b) := InternalUrlDecode t in (ch :: o, b)
    else match t with
         | a :: b :: t' =>
           if negb (isxdigit a) || negb (isxdigit b) then ([], false)
           else let (o, ok) := InternalUrlDecode t' in
                (N.lor (N.shiftl (hex_digit_to_int a) 4) (hex_digit_to_int b) mod 256 :: o, ok)
         | _ => ([], false)
         end
  end.

(** strings/escaping.cc:78-91. front() of an empty string is UB (line 81). The buffer has |src| new
    bytes plus the string's terminator. The 32-bit loop index of line 46 is only faithful to the
    list recursion when |src| + 3 fits in 32 bits; longer inputs are outside the model ([None]). *)
Definition AppendUrlDecoded (src dest : list N) : option (bool * list N) :=
  if two32 <=? len src + 3 then None
  else if (len dest + len src =? 0) then None
  else
    let (out, ok) := InternalUrlDecode src in
    if len out + (if ok then 1 else 0) <=? len src + 1
    then Some (if ok then (true, dest ++ out) else (false, dest))
    else None.

(** util/http/encoding.cc:13-16: - _ . ! ' ( ). std::isalnum of a negative char (byte >= 128) is
    formally UB; glibc's C locale answers false, which is what is modelled. *)
Definition IsValidUrlCharHttp (c : N) : bool :=
  isalnum c || existsb (N.eqb c) [45; 95; 46; 33; 39; 40; 41].
(** util/http/encoding.cc:22-41 *)
Definition UrlEncode (src : list N) : list N := encode_with IsValidUrlCharHttp src.

(** std::string_view::find / substr: the text before and, when [c] occurs, after its first
    occurrence. *)
Fixpoint cut (c : N) (s : list N) : list N * option (list N) :=
  match s with
  | [] => ([], None)
  | x :: t => if x =? c then ([], Some t) else let (a, b) := cut c t in (x :: a, b)
  end.
Definition or_empty (o : option (list N)) : list N := match o with Some l => l | None => [] end.

(** util/http/http_common.cc:23-31. Without a '?' the second view is a default one, whose data() is null
    ([None]); that differs from an empty query. *)
Definition ParseQuery (s : list N) : list N * option (list N) := cut 63 s.

(** absl::StrSplit(query, '&') of a view that is not null: always at least one piece. *)
Fixpoint StrSplit (c : N) (s : list N) : list (list N) :=
  match s with
  | [] => [[]]
  | x :: t => if x =? c then [] :: StrSplit c t
              else match StrSplit c t with
                   | p :: ps => (x :: p) :: ps
                   | [] => [[x]]
                   end
  end.
(** util/http/http_common.cc:33-42. absl::StrSplit gives no piece at all for a null view (a documented
    exception in SplitIterator's constructor). *)
Definition SplitQuery (q : option (list N)) : list (list N * list N) :=
  match q with
  | None => []
  | Some q => map (fun a => let (k, v) := cut 61 a in (k, or_empty v)) (StrSplit 38 q)
  end.
