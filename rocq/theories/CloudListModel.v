(** Model of the listing of objects and buckets: GCS (util/cloud/gcp/gcs.cc:340-508), S3 (util/cloud/aws/s3_storage.cc:82-87, 142-193,
    432-474) and Azure (util/cloud/azure/storage.cc:89-151, 429-507).

    Simplified: what the server answers, after sending with retries (C57, C58) and parsing of JSON or XML, is a record; an answer that
    cannot be got or parsed is [None]; max_results is given by its decimal digits; CHECKs on the fields of a single item are left out. *)
From Verif Require Import Util UrlModel.
From Coq Require Import String Ascii.
Local Open Scope N_scope.

Definition str (s : string) : list N := map N_of_ascii (list_ascii_of_string s).

(** ** The requests *)
Definition bind {A B} (o : option A) (f : A -> option B) : option B := match o with Some a => f a | None => None end.
(** "if (!x.empty()) { StrAppend (&url, key); AppendUrlEncoded (x, &url); }" *)
Definition opt_enc (key : string) (x url : list N) : option (list N) := match x with [] => Some url | _ => AppendUrlEncoded x (url ++ str key) end.
Definition opt_lit (b : bool) (lit : string) (url : list N) : list N := if b then url ++ str lit else url.
(** gcs.cc:411-420 *)
Definition gcs_url (bucket prefix : list N) (recursive : bool) (max token : list N) : option (list N) :=
  bind (AppendUrlEncoded prefix (str "/storage/v1/b/" ++ bucket ++ str "/o?maxResults=" ++ max ++ str "&prefix=")) (fun url =>
  opt_enc "&pageToken=" token (opt_lit (negb recursive) "&delimiter=%2f" url)).
(** s3_storage.cc:441-454 with 82-87; [virt]: virtual_hosted *)
Definition s3_url (virt : bool) (bucket prefix : list N) (recursive : bool) (max token : list N) : option (list N) :=
  bind (opt_enc "&prefix=" prefix (str "list-type=2&max-keys=" ++ max)) (fun query =>
  let query := opt_lit (negb recursive) "&delimiter=%2F" query in
  opt_enc "&continuation-token=" token (if virt then str "/?" ++ query else str "/" ++ bucket ++ str "?" ++ query)).
(** storage.cc:481-494; [pp]: GetPathPrefix *)
Definition az_url (pp container prefix : list N) (recursive : bool) (max token : list N) : option (list N) :=
  bind (opt_enc "&prefix=" prefix (pp ++ str "/" ++ container ++ str "?restype=container&comp=list" ++ str "&maxresults=" ++ max)) (fun url =>
  opt_enc "&marker=" token (opt_lit (negb recursive) "&delimiter=%2f" url)).
(** ListBuckets: gcs.cc:341-342, 386-390; [Some t] for the pages after the first *)
Definition buckets_url (project : list N) (token : option (list N)) : option (list N) :=
  let url := str "/storage/v1/b?project=" ++ project ++ str "&maxResults=50&fields=items/id,nextPageToken" in
  match token with Some t => AppendUrlEncoded t (url ++ str "&pageToken=") | None => Some url end.

(** ** The answers *)
Section A.
Variable item : Type.
(** GCS: the members of the JSON object, if they are there. *)
Record gpage := mkGP { g_items : option (list item); g_prefixes : option (list item); g_next : option (list N) }.
(** One request: what the callback was called with; the error or the new page_token. *)
Definition or_nil (o : option (list item)) : list item := match o with Some l => l | None => [] end.
(** gcs.cc:437-507 *)
Definition gcs_page (r : option gpage) : list item * option (list N) :=
  match r with
  | None => ([], None)
  | Some p => (or_nil (g_items p) ++ or_nil (g_prefixes p), Some (match g_next p with Some t => t | None => [] end))
  end.
(** S3: IsTruncated, NextContinuationToken (empty if absent). *)
Record spage := mkSP { s_items : list item; s_prefixes : list item; s_trunc : bool; s_next : list N }.
(** s3_storage.cc:159-192, 468-473 *)
Definition s3_page (r : option spage) : list item * option (list N) :=
  match r with
  | None => ([], None)
  | Some p => (s_items p ++ s_prefixes p, Some (if s_trunc p then s_next p else []))
  end.
(** Azure: NextMarker (empty if absent). storage.cc:112-150 *)
Record apage := mkAP { a_items : list item; a_prefixes : list item; a_next : list N }.
Definition az_page (r : option apage) : list item * option (list N) :=
  match r with
  | None => ([], None)
  | Some p => (a_items p ++ a_prefixes p, Some (a_next p))
  end.

(** ** The loops. The result: finished?, error?, what the callback was called with. *)
Inductive run := Ok (l : list item) | Err (l : list item) | Going (l : list item).
(** GCS::List without a token (gcs.cc:395-404), and the loop that the headers tell the callers of the others to write
    (s3_storage.h:45-52): [page t] is the request with token [t]. [acc]: the calls so far. *)
Fixpoint list_all (page : list N -> list item * option (list N)) (fuel : nat) (acc : list item) (t : list N) : run :=
  match fuel with
  | O => Going acc
  | S fuel =>
    let (l, o) := page t in
    match o with
    | None => Err (acc ++ l)
    | Some [] => Ok (acc ++ l)
    | Some t' => list_all page fuel (acc ++ l) t'
    end
  end.
(** GCS::ListBuckets (gcs.cc:340-393): [serve t] is the answer to the request with token [t], [] for none. *)
Fixpoint list_buckets (serve : list N -> option gpage) (fuel : nat) (acc : list item) (t : list N) : run :=
  match fuel with
  | O => Going acc
  | S fuel =>
    match serve t with
    | None => Err acc
    | Some p =>
      match g_items p with
      | None => Ok acc                                 (* lines 368-370 *)
      | Some l => match g_next p with
                  | None => Ok (acc ++ l)
                  | Some t' => list_buckets serve fuel (acc ++ l) t'
                  end
      end
    end
  end.
(** Storage::ListContainers (storage.cc:429-459): one request, NextMarker is not looked at. *)
Definition list_containers (r : option apage) : run := match r with None => Err [] | Some p => Ok (a_items p) end.
End A.
