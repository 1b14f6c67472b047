(** The properties of the HTTP listener (C85). *)
From Coq Require Import String.
From Verif Require Import Util UrlSpec UrlModel UrlProof SignModel HttpdSpec HttpdModel HttpdProof.
Import ListNotations.
Local Open Scope N_scope.

(** With a function for credentials set, it is asked exactly once about each request, with the path that is then looked up and the name and password of the Authorization field; nothing else happens to a request it refuses, and without such a function nothing is refused. *)
Theorem http_auth : forall e c fl r asked a fl' p q, HandleSingle e c fl r = (asked, a, fl') ->
  path_of (r_target r) p q ->
  match c_auth c with
  | None => asked = None /\ a <> AChallenge
  | Some f => exists u w, login e (r_auth r) u w /\ (forall u' w', login e (r_auth r) u' w' -> u' = u /\ w' = w) /\
      asked = Some (p, u, w) /\ (f p u w = false -> a = AChallenge /\ fl' = fl) /\ (f p u w = true -> a <> AChallenge)
  end.
Proof. exact http_auth_pf. Qed.
Print Assumptions http_auth.

(** A request that is let through gets the page of its path or the first callback registered for it, with all the arguments of its query. *)
Theorem http_dispatch : forall e c fl r asked a fl' p q args, HandleSingle e c fl r = (asked, a, fl') ->
  path_of (r_target r) p q -> args_of q args -> a <> AChallenge ->
  (r_target r = txt "/favicon.ico" -> a = AFavicon) /\
  (p = txt "/" -> a = match c_root c with [] => AStatus | _ => ARoot end) /\
  (p = txt "/metrics" -> c_metrics c = true -> a = AMetrics) /\
  (p = txt "/profilez" -> exists cpu en, a = AProfile cpu en /\ (cpu = true <-> no_arg args (txt "heap")) /\
     (en = true <-> exists l k z, args = l ++ (k, txt "on") :: z /\ (k = txt "profile" \/ k = txt "heap") /\
        no_arg z (txt "profile") /\ no_arg z (txt "heap"))) /\
  (~ own c p -> r_target r <> txt "/favicon.ico" ->
     (forall id, first_cb (c_cbs c) p id -> a = ACall id args) /\
     ((forall id, ~ In (p, id) (c_cbs c)) -> a = AUnknown)).
Proof. exact http_dispatch_pf. Qed.
Print Assumptions http_dispatch.

(** A registration succeeds exactly if it is the first for its path, and later ones change nothing. *)
Theorem http_register : forall cbs p id m ok, RegisterCb cbs p id = (m, ok) ->
  (ok = true <-> forall i, ~ In (p, i) cbs) /\
  (forall x i, first_cb m x i <-> first_cb cbs x i \/ (ok = true /\ x = p /\ i = id)).
Proof. exact http_register_pf. Qed.
Print Assumptions http_register.

(** REFUTED: a registration that succeeds gets the requests for its path. One for a page of the listener does not. *)
Theorem http_shadow_refuted : exists p id m, RegisterCb [] p id = (m, true) /\
  forall e c fl r, c_cbs c = m -> forall i args, snd (fst (HandleSingle e c fl r)) <> ACall i args.
Proof. exact http_shadow_refuted_pf. Qed.
Print Assumptions http_shadow_refuted.

(** A request changes at most the flag it names, to the value it gives, and only if the flag accepts it; one that names no flag gets the list of all flags if it has exactly one argument (an empty query is one, no query is none). *)
Theorem http_flagz : forall e c fl r asked a fl' p q args, HandleSingle e c fl r = (asked, a, fl') ->
  path_of (r_target r) p q -> args_of q args ->
  map fst fl' = map fst fl /\
  (fl' = fl \/ exists n v, p = txt "/flagz" /\ a = AFlag n /\ last_arg args (txt "flag") n /\
     (last_arg args (txt "value") v \/ (no_arg args (txt "value") /\ v = [])) /\ flag_ok e n v = true /\
     value_of fl' n = Some v /\ forall m, m <> n -> value_of fl' m = value_of fl m) /\
  (forall n v, a = AFlag n -> last_arg args (txt "value") v -> value_of fl n <> None -> flag_ok e n v = true ->
     value_of fl' n = Some v) /\
  (forall n, p = txt "/flagz" -> a <> AChallenge -> last_arg args (txt "flag") n -> n <> [] -> a = AFlag n) /\
  (p = txt "/flagz" -> a <> AChallenge -> no_arg args (txt "flag") -> a = match args with [_] => AAllFlags | _ => ANoFlags end).
Proof. exact http_flagz_pf. Qed.
Print Assumptions http_flagz.

(** REFUTED: looking at a flag leaves it alone. A request that gives no value sets the flag to the empty text. *)
Theorem http_flagz_refuted : exists e c fl r asked n fl', HandleSingle e c fl r = (asked, AFlag n, fl') /\
  path_of (r_target r) (txt "/flagz") (Some (txt "flag=x")) /\ args_of (Some (txt "flag=x")) [(txt "flag", n)] /\
  value_of fl n = Some (txt "7") /\ value_of fl' n = Some [].
Proof. exact http_flagz_refuted_pf. Qed.
Print Assumptions http_flagz_refuted.

(** A file is served only if its name resolves, when it is checked, to a path strictly below /tmp/profile. *)
Theorem http_filez : forall e c fl r asked n fl' p q args, HandleSingle e c fl r = (asked, AFile n, fl') ->
  path_of (r_target r) p q -> args_of q args -> resolves e ->
  p = txt "/filez" /\ last_arg args (txt "file") n /\ opens e n = OFine /\
  exists cf, canon e (to_path n) = Some cf /\ below cf.
Proof. exact http_filez_pf. Qed.
Print Assumptions http_filez.

(** A file whose name resolves to a path below /tmp/profile is served. *)
Theorem http_filez_all : forall e c fl r asked a fl' q args n cf z, HandleSingle e c fl r = (asked, a, fl') ->
  path_of (r_target r) (txt "/filez") q -> args_of q args -> a <> AChallenge -> settled e ->
  canon e (to_path (txt "/tmp/profile/")) = Some (Path true (txt "tmp" :: txt "profile" :: z)) -> z = [] \/ z = [[]] ->
  last_arg args (txt "file") n -> n <> [] -> canon e (to_path n) = Some cf -> below cf ->
  a = match opens e n with OFine => AFile n | _ => AFileMissing end.
Proof. exact http_filez_all_pf. Qed.
Print Assumptions http_filez_all.

(** Only a request for a file can end in an exception, and only if the file system reports an error. *)
Theorem http_throw : forall e c fl r asked fl' p q, HandleSingle e c fl r = (asked, AThrow, fl') ->
  path_of (r_target r) p q -> p = txt "/filez" /\ exists x, canon e x = None.
Proof. exact http_throw_pf. Qed.
Print Assumptions http_throw.

(** REFUTED: every complete request is answered. A name that cannot be resolved ends the connection, with the requests after it. *)
Theorem http_throw_refuted : exists e c parse sock r1 r2, parser parse /\ stream parse sock [r1; r2] [] /\
  fst (act e c [] r2) = AStatus /\ k_done (HandleRequests e c parse sock fresh) = [AThrow].
Proof. exact http_throw_refuted_pf. Qed.
Print Assumptions http_throw_refuted.

(** Every stream has a sequence of complete requests. *)
Theorem http_split : forall parse, parser parse -> forall b, exists rs z, stream parse b rs z.
Proof. exact http_split_pf. Qed.
Print Assumptions http_split.

(** ParseFromBuffer serves the complete requests at hand in order and keeps the rest, or says that it cannot. *)
Theorem http_parse : forall e c parse b k o k2 rs z, parser parse -> k_open k = true ->
  ParseFromBuffer e c parse b k = (o, k2) -> stream parse b rs z ->
  let '(l, f, op) := answers (act e c) (k_flags k) rs in
  k_done k2 = k_done k ++ l /\ k_flags k2 = f /\ k_open k2 = op /\
  match o with
  | None => op = true /\ k_buf k2 = k_buf k ++ z /\ (z = [] \/ parse z = PMore) /\ (List.length z <= 4096)%nat
  | Some x => k_buf k2 = k_buf k /\ match x with
     | TooLarge => op = true /\ parse z = PMore /\ (4096 < List.length z)%nat
     | Bad n => op = true /\ parse z = PErr n
     | Throws => op = false \/ (parse z = PMore /\ (4096 < List.length (k_buf k) + List.length z)%nat)
     end
  end.
Proof. exact http_parse_pf. Qed.
Print Assumptions http_parse.

(** Wherever the bytes handed to ParseFromBuffer end, the connection serves exactly the requests of the whole stream, in order. *)
Theorem http_stream : forall e c parse b sock k k1 rs z, parser parse -> k_open k = true -> k_buf k = [] ->
  ParseFromBuffer e c parse b k = (None, k1) -> stream parse (b ++ sock) rs z ->
  let k2 := HandleRequests e c parse sock k1 in
  let '(l, f, o) := answers (act e c) (k_flags k) rs in
  k_done k2 = k_done k ++ l /\ k_flags k2 = f /\ k_open k2 = o /\ (o = true -> k_buf k2 = z).
Proof. exact http_stream_pf. Qed.
Print Assumptions http_stream.

(** REFUTED: the same for several calls of ParseFromBuffer. The second one ignores what the first has kept, and serves a request nobody sent. *)
Theorem http_again_refuted : exists e c parse b1 b2 k1 k2 r, parser parse /\
  ParseFromBuffer e c parse b1 fresh = (None, k1) /\ ParseFromBuffer e c parse b2 k1 = (None, k2) /\
  stream parse (b1 ++ b2) [r] [] /\ k_done (HandleRequests e c parse [] k2) <> [fst (act e c [] r)].
Proof. exact http_again_refuted_pf. Qed.
Print Assumptions http_again_refuted.

(** * Cases *)
(** A listener with credentials, a root page, metrics and two callbacks for the same path. *)
Definition guarded : config :=
  Config (Some (fun _ u p => str_eq u (txt "me") && str_eq p (txt "pw:1"))) (txt "hi") true [(txt "/cb", 4%nat); (txt "/cb", 5%nat)].
Definition me : bytes := txt "Basic me:pw:1".
Example http_auth_met :
  HandleSingle plain guarded [] (Req (txt "/flagz?flag=x&value=3") me) = (Some (txt "/flagz", txt "me", txt "pw:1"), AFlag (txt "x"), []) /\
  HandleSingle plain guarded [(txt "x", txt "1")] (Req (txt "/flagz?flag=x&value=3") (txt "basic me:pw:1")) =
    (Some (txt "/flagz", [], []), AChallenge, [(txt "x", txt "1")]) /\
  login plain me (txt "me") (txt "pw:1").
Proof.
  split; [vm_compute; reflexivity|]. split; [vm_compute; reflexivity|]. left. exists (txt "me:pw:1").
  split; [reflexivity|]. split; [reflexivity|]. vm_compute. intuition discriminate.
Qed.
Example http_dispatch_met :
  snd (fst (HandleSingle plain guarded [] (Req (txt "/cb?a=1&b") me))) = ACall 4 [(txt "a", txt "1"); (txt "b", [])] /\
  snd (fst (HandleSingle plain guarded [] (Req (txt "/none") me))) = AUnknown /\
  snd (fst (HandleSingle plain guarded [] (Req (txt "/") me))) = ARoot /\
  snd (fst (HandleSingle plain guarded [] (Req (txt "/metrics?x") me))) = AMetrics /\
  snd (fst (HandleSingle plain guarded [] (Req (txt "/favicon.ico") me))) = AFavicon /\
  snd (fst (HandleSingle plain guarded [] (Req (txt "/favicon.ico?") me))) = AUnknown /\
  snd (fst (HandleSingle plain guarded [] (Req (txt "/profilez?profile=on&heap=off") me))) = AProfile false false.
Proof. vm_compute. repeat split. Qed.
Example http_register_met : RegisterCb [(txt "/a", 1%nat)] (txt "/b") 2%nat = ([(txt "/a", 1%nat); (txt "/b", 2%nat)], true) /\
  RegisterCb [(txt "/a", 1%nat)] (txt "/a") 2%nat = ([(txt "/a", 1%nat)], false).
Proof. vm_compute. auto. Qed.
(** The page with all flags needs a query, an empty one for example. *)
Example http_flagz_list : snd (fst (HandleSingle plain bare [] (Req (txt "/flagz") []))) = ANoFlags /\
  snd (fst (HandleSingle plain bare [] (Req (txt "/flagz?") []))) = AAllFlags.
Proof. vm_compute. auto. Qed.
Example http_flagz_met :
  HandleSingle plain bare [(txt "x", txt "1"); (txt "y", txt "2")] (Req (txt "/flagz?flag=y&value=3&value=4") []) =
    (None, AFlag (txt "y"), [(txt "x", txt "1"); (txt "y", txt "4")]).
Proof. vm_compute. reflexivity. Qed.
Example http_filez_met : resolves plain /\ settled plain /\
  canon plain (to_path (txt "/tmp/profile/")) = Some (Path true [txt "tmp"; txt "profile"; []]) /\
  below (to_path (txt "/tmp/profile//a/b.svg")) /\
  snd (fst (HandleSingle plain bare [] (Req (txt "/filez?file=/tmp/profile//a/b.svg") []))) = AFile (txt "/tmp/profile//a/b.svg") /\
  snd (fst (HandleSingle plain bare [] (Req (txt "/filez?file=/tmp/profiles/a") []))) = AFileRefused /\
  snd (fst (HandleSingle plain bare [] (Req (txt "/filez?file=/etc/passwd") []))) = AFileRefused /\
  snd (fst (HandleSingle plain bare [] (Req (txt "/filez?file=/tmp/profile/../x") []))) = AThrow.
Proof.
  split; [apply plain_resolves|]. split; [apply plain_settled|]. split; [reflexivity|]. split.
  - split; [reflexivity|]. exists (txt "a"), [txt "b.svg"]. split; [discriminate|reflexivity].
  - vm_compute. repeat split.
Qed.
Example http_stream_met : parser toy /\ stream toy ([1; 2] ++ [1; 1]) [Req (txt "/") []; Req (txt "/two") []; Req (txt "/") []] [] /\
  exists k1, ParseFromBuffer plain bare toy [1; 2] fresh = (None, k1) /\ k_buf k1 = [2] /\
  k_done (HandleRequests plain bare toy [1; 1] k1) = [AStatus; AUnknown; AStatus].
Proof.
  split; [apply toy_parser|]. split.
  - apply (stream_more toy [1; 2; 1; 1] _ 1%nat _ []); [reflexivity|]. apply (stream_more toy [2; 1; 1] _ 2%nat _ []); [reflexivity|].
    apply (stream_more toy [1] _ 1%nat _ []); [reflexivity|]. apply stream_end. discriminate.
  - eexists. split; [vm_compute; reflexivity|]. vm_compute. auto.
Qed.
