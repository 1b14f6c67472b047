(** What Amazon S3 checks, after "Signature Calculations for the Authorization Header" (AWS Signature
    Version 4): which canonical form the service gives a request it received, and which Authorization
    header it expects. Strings are lists of bytes. [decodes] (percent-decoding), [pair_of] and [join] are
    those of UrlSpec.v. *)
From Coq Require Import String Ascii Sorting.Permutation Sorting.Sorted.
From Verif Require Import Util UrlSpec.
Local Open Scope N_scope.
Local Open Scope list_scope.

Definition text (s : string) : list N := map N_of_ascii (list_ascii_of_string s).
Arguments text : simpl never.

(** UriEncode: every byte except letters, digits, - . _ ~ becomes %XX; / stays in paths. *)
Definition unreserved (c : N) : bool :=
  ((48 <=? c) && (c <=? 57)) || ((65 <=? c) && (c <=? 90)) || ((97 <=? c) && (c <=? 122))
  || (c =? 45) || (c =? 46) || (c =? 95) || (c =? 126).
Definition upper_digit (i : N) : N := if i <? 10 then 48 + i else 55 + i.
Definition uri_encode (slash : bool) (s : list N) : list N :=
  flat_map (fun c => if unreserved c || (slash && (c =? 47)) then [c]
                     else [37; upper_digit (c / 16); upper_digit (c mod 16)]) s.

(** The path and the query of a target. *)
Definition target_parts (target path query : list N) : Prop :=
  ~ In 63 path /\ (target = path ++ 63 :: query \/ (target = path /\ query = [])).

(** Canonical path: encoded once from the path the target denotes. *)
Definition canon_path (wire out : list N) : Prop :=
  exists d, decodes wire d /\ out = match d with [] => [47] | _ => uri_encode true d end.

(** Byte-wise lexicographic order. *)
Inductive lex_lt : list N -> list N -> Prop :=
| lex_nil y b : lex_lt [] (y :: b)
| lex_head x a y b : x < y -> lex_lt (x :: a) (y :: b)
| lex_tail x a b : lex_lt a b -> lex_lt (x :: a) (x :: b).
(** By name, then by value. *)
Definition before (p q : list N * list N) : Prop :=
  p = q \/ lex_lt (fst p) (fst q) \/ (fst p = fst q /\ lex_lt (snd p) (snd q)).

(** Canonical query: every name and value encoded once from what it denotes, sorted, an = after each
    name. *)
Definition canon_query (wire out : list N) : Prop :=
  (wire = [] /\ out = []) \/
  wire <> [] /\ exists pieces raw params sorted,
    join 38 pieces = wire /\ Forall (fun p => ~ In 38 p) pieces /\ Forall2 pair_of pieces raw /\
    Forall2 (fun r d => decodes (fst r) (fst d) /\ decodes (snd r) (snd d)) raw params /\
    Permutation sorted (map (fun d => (uri_encode false (fst d), uri_encode false (snd d))) params) /\
    StronglySorted before sorted /\
    out = join 38 (map (fun p => fst p ++ 61 :: snd p) sorted).

(** Lower case. *)
Definition lower_case (s : list N) : list N :=
  map (fun c => if (65 <=? c) && (c <=? 90) then c + 32 else c) s.
(** White space at both ends dropped, runs of blanks replaced by one. *)
Definition white (b : N) : bool := ((9 <=? b) && (b <=? 13)) || (b =? 32).
Fixpoint drop_white (l : list N) : list N := match l with b :: l' => if white b then drop_white l' else l | [] => [] end.
Fixpoint squeeze (l : list N) : list N :=
  match l with
  | b :: (c :: _) as t => if (b =? 32) && (c =? 32) then squeeze t else b :: squeeze t
  | _ => l
  end.
Definition tidy (v : list N) : list N := squeeze (rev (drop_white (rev (drop_white v)))).

(** The headers that have to be signed: host and all x-amz-*. *)
Definition must_sign (name : list N) : Prop := name = text "host" \/ exists t, name = text "x-amz-" ++ t.
(** Their canonical list: by name, each once. *)
Definition canon_headers (hs cs : list (list N * list N)) : Prop :=
  StronglySorted (fun p q => lex_lt (fst p) (fst q)) cs /\
  forall n v, In (n, v) cs <-> must_sign n /\ exists h, In h hs /\ lower_case (fst h) = n /\ tidy (snd h) = v.

Definition lower_hex (s : list N) : list N :=
  flat_map (fun b => let d i := if i <? 10 then 48 + i else 87 + i in [d (b / 16); d (b mod 16)]) s.

Section Service.
Variable sha : list N -> list N.
Variable hmac : list N -> list N -> list N.

Definition expected (id secret region date_time cr names : list N) : list N :=
  let date := firstn 8 date_time in
  let scope := date ++ text "/" ++ region ++ text "/s3/aws4_request" in
  let to_sign := text "AWS4-HMAC-SHA256" ++ [10] ++ date_time ++ [10] ++ scope ++ [10] ++ lower_hex (sha cr) in
  let key := hmac (hmac (hmac (hmac (text "AWS4" ++ secret) date) region) (text "s3")) (text "aws4_request") in
  text "AWS4-HMAC-SHA256 Credential=" ++ id ++ text "/" ++ scope ++ text ", SignedHeaders=" ++ names
  ++ text ", Signature=" ++ lower_hex (hmac key to_sign).

(** The service takes a request with this method, target and headers for one by [id]. *)
Definition accepted (id secret region method target : list N) (hs : list (list N * list N)) : Prop :=
  exists path query uri q cs date_time hash host auth,
    target_parts target path query /\ canon_path path uri /\ canon_query query q /\ canon_headers hs cs /\
    In (text "x-amz-date", date_time) cs /\ In (text "x-amz-content-sha256", hash) cs /\
    In (text "host", host) cs /\
    (forall h, In h hs -> lower_case (fst h) = text "authorization" <-> h = (text "Authorization", auth)) /\
    In (text "Authorization", auth) hs /\
    auth = expected id secret region date_time
             (method ++ [10] ++ uri ++ [10] ++ q ++ [10] ++
              flat_map (fun h => fst h ++ [58] ++ snd h ++ [10]) cs ++ [10] ++
              join 59 (map fst cs) ++ [10] ++ hash)
             (join 59 (map fst cs)).
End Service.

(** A target that asks for the object [key] (virtual-hosted style). *)
Definition asks_for (target key : list N) : Prop :=
  exists path query, target_parts target path query /\ decodes path (47 :: key).

(** The requests for which the theorem of SignProps.v holds. *)
(** Lower-case names of the fields. *)
Definition names (hs : list (list N * list N)) : list (list N) := map (fun h => lower_case (fst h)) hs.
(** No two blanks in a row; no white space at all. *)
Definition single_blanks (v : list N) : Prop := forall a b, v <> a ++ 32 :: 32 :: b.
Definition no_white (v : list N) : Prop := forall c, In c v -> white c = false.
(** A query made of names and values, each encoded as S3 does; a value may be missing. *)
Definition param_value (v : option (list N)) : list N := match v with Some v => v | None => [] end.
Definition param_text (p : list N * option (list N)) : list N :=
  uri_encode false (fst p) ++ match snd p with None => [] | Some v => 61 :: uri_encode false v end.
Definition param_bytes (p : list N * option (list N)) : Prop := bytes (fst p) /\ bytes (param_value (snd p)).
Definition encoded_query (q : list N) : Prop :=
  exists ps, Forall param_bytes ps /\ q = join 38 (map param_text ps).
Record signable (token date_time target : list N) (hs : list (list N * list N)) : Prop := {
  sg_names : NoDup (names hs);
  sg_host : exists h, In h hs /\ lower_case (fst h) = text "host";
  sg_values : forall h, In h hs -> must_sign (lower_case (fst h)) -> single_blanks (snd h);
  sg_hash : forall h, In h hs -> lower_case (fst h) = text "x-amz-content-sha256" -> no_white (snd h);
  sg_time : no_white date_time;
  sg_token : no_white token;
  (* no % ! * ( ) in the path *)
  sg_path : forall path query, target_parts target path query -> bytes path /\
            forall x, In x path -> x <> 37 /\ x <> 33 /\ x <> 42 /\ x <> 40 /\ x <> 41;
  sg_query : forall path query, target_parts target path query -> encoded_query query }.
