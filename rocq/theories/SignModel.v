(** Model of the signature of S3 requests: AwsCredsProvider::Sign and the functions it uses
    (util/cloud/aws/aws_creds_provider.cc), and the path of an object (util/cloud/aws/s3_storage.cc).

    Strings are lists of bytes. SHA-256 and HMAC-SHA-256 are parameters: functions giving some bytes.
    A request is its method, its target and its header fields; boost::beast keeps fields under
    case-insensitive names, and set() drops the fields of that name before it adds one. The time is
    given as its text in the form %Y%m%dT%H%M%SZ. *)
From Coq Require Import String Ascii.
From Verif Require Import Util UrlModel.
Local Open Scope N_scope.
Local Open Scope list_scope.

Definition str (s : string) : list N := map N_of_ascii (list_ascii_of_string s).
Arguments str : simpl never.

(** absl::AsciiStrToLower. *)
Definition lower (c : N) : N := if between 65 c 90 then c + 32 else c.
Definition to_lower (s : list N) : list N := map lower s.
(** Equality, and operator< of std::string (bytes compared as unsigned). *)
Fixpoint str_eq (a b : list N) : bool :=
  match a, b with
  | [], [] => true
  | x :: a', y :: b' => (x =? y) && str_eq a' b'
  | _, _ => false
  end.
Fixpoint str_lt (a b : list N) : bool :=
  match a, b with
  | _, [] => false
  | [], _ :: _ => true
  | x :: a', y :: b' => if x <? y then true else if y <? x then false else str_lt a' b'
  end.
(** operator< of std::pair. *)
Definition pair_lt (a b : list N * list N) : bool :=
  if str_lt (fst a) (fst b) then true else if str_lt (fst b) (fst a) then false else str_lt (snd a) (snd b).
(** std::sort, by insertion: the order is total, so all ways of sorting give the same. *)
Fixpoint insert (x : list N * list N) (l : list (list N * list N)) : list (list N * list N) :=
  match l with
  | [] => [x]
  | y :: l' => if pair_lt y x then y :: insert x l' else x :: l
  end.
Definition sort (l : list (list N * list N)) : list (list N * list N) := fold_right insert [] l.
(** absl::StartsWith. *)
Fixpoint starts_with (s p : list N) : bool :=
  match p, s with
  | [], _ => true
  | x :: p', y :: s' => (x =? y) && starts_with s' p'
  | _ :: _, [] => false
  end.
(** absl::ascii_isspace, absl::StripAsciiWhitespace. *)
Definition is_space (b : N) : bool := ((9 <=? b) && (b <=? 13)) || (b =? 32).
Fixpoint lstrip (l : list N) : list N := match l with b :: l' => if is_space b then lstrip l' else l | [] => [] end.
Definition strip (l : list N) : list N := rev (lstrip (rev (lstrip l))).
(** Pieces with a separator between them. *)
Fixpoint with_sep (sep : N) (ps : list (list N)) : list N :=
  match ps with
  | [] => []
  | p :: [] => p
  | p :: ps' => p ++ sep :: with_sep sep ps'
  end.

(** ** Requests *)
Definition field : Type := list N * list N.
Record request := { rq_method : list N; rq_target : list N; rq_headers : list field }.
Definition same_name (a b : list N) : bool := str_eq (to_lower a) (to_lower b).
(** utils.h:57-64, SetHeader. *)
Definition set_header (n v : list N) (hs : list field) : list field :=
  filter (fun h => negb (same_name n (fst h))) hs ++ [(n, v)].
(** headers.find(n). *)
Fixpoint find_header (n : list N) (hs : list field) : option (list N) :=
  match hs with
  | [] => None
  | h :: hs' => if same_name n (fst h) then Some (snd h) else find_header n hs'
  end.

(** aws_creds_provider.cc:44-53, HexEncode. *)
Definition hex (i : N) : N := if i <? 10 then 48 + i else 87 + i.
Definition HexEncode (s : list N) : list N := flat_map (fun b => [hex (N.shiftr b 4); hex (N.land b 15)]) s.

(** aws_creds_provider.cc:70-83, CanonicalUri. *)
Definition canonical_uri (path : list N) : list N :=
  if str_eq path [] || str_eq path [47] then [47]
  else with_sep 47 (map (encode_with IsValidUrlChar) (StrSplit 47 path)).

(** aws_creds_provider.cc:88-102, CanonicalQueryString. *)
Definition canonical_query (query : list N) : list N :=
  match query with
  | [] => []
  | _ => with_sep 38 (map (fun a => fst a ++ 61 :: snd a) (sort (SplitQuery (Some query))))
  end.

Record creds := { c_id : list N; c_secret : list N; c_token : list N }.

(** aws_creds_provider.cc:39-40, SHA256 of nothing, in hex. *)
Definition kEmptyBodyHash : list N := str "e3b0c44298fc1c149afbf4c8996fb92427ae41e4649b934ca495991b7852b855".

(** aws_creds_provider.cc:600-605: the hash the caller has set, or that of nothing. *)
Definition payload_hash (hs : list field) : list N :=
  match find_header (str "x-amz-content-sha256") hs with Some v => v | None => kEmptyBodyHash end.
(** aws_creds_provider.cc:607-611: the fields added before signing. *)
Definition add_fields (c : creds) (datetime : list N) (hs : list field) : list field :=
  let h := payload_hash hs in
  let hs := set_header (str "x-amz-date") datetime hs in
  let hs := set_header (str "x-amz-content-sha256") h hs in
  match c_token c with [] => hs | t => set_header (str "x-amz-security-token") t hs end.

(** aws_creds_provider.cc:612-622: the fields that are signed. *)
Definition is_signed (name : list N) : bool :=
  str_eq name (str "host") || str_eq name (str "x-amz-date") || str_eq name (str "x-amz-security-token")
  || starts_with name (str "x-amz-").
Definition signed_fields (hs : list field) : list field :=
  sort (map (fun h => (to_lower (fst h), strip (snd h))) (filter (fun h => is_signed (to_lower (fst h))) hs)).

(** aws_creds_provider.cc:624-633. *)
Definition canonical_headers (sf : list field) : list N :=
  flat_map (fun h => fst h ++ 58 :: snd h ++ [10]) sf.
Definition signed_names (sf : list field) : list N := with_sep 59 (map fst sf).

(** aws_creds_provider.cc:635-646. *)
Definition canonical_request (method target : list N) (sf : list field) (hash : list N) : list N :=
  let (path, query) := ParseQuery target in
  method ++ 10 :: canonical_uri path ++ 10 :: canonical_query (or_empty query) ++ 10 :: canonical_headers sf
  ++ 10 :: signed_names sf ++ 10 :: hash.

Section Hash.
Variable sha : list N -> list N.              (* EVP_Digest with EVP_sha256 *)
Variable hmac : list N -> list N -> list N.   (* HMAC with EVP_sha256: key, message *)

(** aws_creds_provider.cc:588-670, Sign; [region] is region_, the date is the first 8 characters of the
    time. *)
Definition Sign (c : creds) (region datetime : list N) (r : request) : request :=
  let date := take 8 datetime in
  let hash := payload_hash (rq_headers r) in
  let hs := add_fields c datetime (rq_headers r) in
  let sf := signed_fields hs in
  let cr := canonical_request (rq_method r) (rq_target r) sf hash in
  let scope := date ++ 47 :: region ++ str "/s3/aws4_request" in
  let to_sign := str "AWS4-HMAC-SHA256" ++ 10 :: datetime ++ 10 :: scope ++ 10 :: HexEncode (sha cr) in
  let k_date := hmac (str "AWS4" ++ c_secret c) date in
  let k_region := hmac k_date region in
  let k_service := hmac k_region (str "s3") in
  let k_signing := hmac k_service (str "aws4_request") in
  let signature := HexEncode (hmac k_signing to_sign) in
  let auth := str "AWS4-HMAC-SHA256 Credential=" ++ c_id c ++ 47 :: scope ++ str ", SignedHeaders="
              ++ signed_names sf ++ str ", Signature=" ++ signature in
  {| rq_method := rq_method r; rq_target := rq_target r;
     rq_headers := set_header (str "Authorization") auth hs |}.
End Hash.

(** s3_storage.cc:75-80, BucketObjectPath: the target of the requests for an object. *)
Definition object_path (virtual_hosted : bool) (bucket key : list N) : list N :=
  if virtual_hosted then 47 :: key else 47 :: bucket ++ 47 :: key.
