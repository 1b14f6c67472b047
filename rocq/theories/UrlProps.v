(** C09 and C48 - URL escaping and query splitting. Specifications in UrlSpec.v. *)
From Verif Require Import Util UrlModel UrlSpec UrlProof.
Open Scope N_scope.

(** Decoding any byte string appends the decoded bytes when the text is well-formed
    percent-encoding, and otherwise returns false leaving [dest] as it was; no out-of-bounds access.
    (Both strings empty is the excluded case, see [url_decode_empty_refuted].) *)
Theorem url_decode_spec : forall src dest, bytes src -> len src + 3 < two32 -> len src + len dest <> 0 ->
  (exists d, decodes src d /\ AppendUrlDecoded src dest = Some (true, dest ++ d)) \/
  ((forall d, ~ decodes src d) /\ AppendUrlDecoded src dest = Some (false, dest)).
Proof. exact url_decode_spec_pf. Qed.
Print Assumptions url_decode_spec.

Theorem url_encode_spec : forall src dest, bytes src ->
  exists out, AppendUrlEncoded src dest = Some (dest ++ out) /\
    url_text [45; 95; 46; 33; 126; 42; 40; 41] out /\ len out <= 3 * len src /\ decodes out src.
Proof. exact url_encode_spec_pf. Qed.
Print Assumptions url_encode_spec.

Theorem url_roundtrip : forall src dest, bytes src -> 3 * len src + 3 < two32 ->
  exists e, AppendUrlEncoded src [] = Some e /\
    (len e + len dest <> 0 -> AppendUrlDecoded e dest = Some (true, dest ++ src)).
Proof. exact url_roundtrip_pf. Qed.
Print Assumptions url_roundtrip.

Theorem http_url_roundtrip : forall src dest, bytes src -> 3 * len src + 3 < two32 -> src <> [] ->
  AppendUrlDecoded (UrlEncode src) dest = Some (true, dest ++ src) /\
  url_text [45; 95; 46; 33; 39; 40; 41] (UrlEncode src) /\ len (UrlEncode src) <= 3 * len src.
Proof. exact http_url_roundtrip_pf. Qed.
Print Assumptions http_url_roundtrip.

(** Decoding "" into an empty string calls front() on an empty string: undefined behaviour. *)
Theorem url_decode_empty_refuted : exists src dest, decodes src [] /\ AppendUrlDecoded src dest = None.
Proof. exists [], []. split; [constructor|reflexivity]. Qed.
Print Assumptions url_decode_empty_refuted.

Example url_demo : AppendUrlEncoded [97; 32; 37; 255; 126] [] = Some [97; 37;50;48; 37;50;53; 37;70;70; 126] /\
  AppendUrlDecoded [37;102;70; 43] [1] = Some (true, [1; 255; 43]) /\
  AppendUrlDecoded [65; 37;102] [1] = Some (false, [1]).
Proof. vm_compute. auto. Qed.

(** ** C48 *)
Theorem parse_query_lossless : forall s, let (path, q) := ParseQuery s in
  ~ In 63 path /\ match q with Some r => s = path ++ 63 :: r | None => s = path end.
Proof. exact parse_query_pf. Qed.
Print Assumptions parse_query_lossless.

Theorem split_query_lossless : SplitQuery None = [] /\ forall q, exists pieces,
  pieces <> [] /\ join 38 pieces = q /\ Forall (fun p => ~ In 38 p) pieces /\
  Forall2 pair_of pieces (SplitQuery (Some q)).
Proof. exact split_query_pf. Qed.
Print Assumptions split_query_lossless.

Example query_demo : ParseQuery [47; 97; 63; 98; 61; 99] = ([47; 97], Some [98; 61; 99]) /\ ParseQuery [47; 97] = ([47; 97], None) /\
  SplitQuery (Some []) = [([], [])] /\ SplitQuery (Some [97; 61; 61; 98; 38; 38; 99]) = [([97], [61; 98]); ([], []); ([99], [])].
Proof. vm_compute. auto. Qed.
(** "a" and "a=" are not told apart by the returned pairs. *)
Example query_ambiguous : SplitQuery (Some [97]) = SplitQuery (Some [97; 61]).
Proof. reflexivity. Qed.
