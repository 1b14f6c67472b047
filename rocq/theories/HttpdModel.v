(** HttpListenerBase and HttpConnection (util/http/http_handler.cc, util/http/http_handler.h), and the
    part of ProfilezHandler that reads its arguments (util/http/profilez_handler.cc).

    Not modelled: the bodies and header fields of the answers, what the callbacks do, the
    profiler, HandleVModule, and the write errors that Invoke ignores. Boost.Beast's parser is an argument;
    h2::read (ReadHttpRequest, http_handler.cc:226-242) is taken to deliver what that parser finds in the bytes of
    req_buffer_ followed by those of the socket. *)
From Coq Require Import String.
From Verif Require Import Util UrlModel SignModel HttpdSpec.
Import ListNotations.
Local Open Scope N_scope.

(** std::filesystem::path from a string: components between slashes, an empty last one for a trailing slash. *)
Definition nonempty (b : bytes) : bool := match b with [] => false | _ => true end.
Definition to_path (s : bytes) : path :=
  let ps := StrSplit 47 s in
  let cs := filter nonempty ps in
  Path (match s with 47 :: _ => true | _ => false end)
       (cs ++ match cs with [] => [] | _ => if nonempty (last ps []) then [] else [[]] end).

(** path::lexically_relative for two paths; the result is relative, [None] is the empty path. *)
Definition dots (n : nat) : list bytes := repeat (txt "..") n.
Fixpoint mismatch (a b : list bytes) : list bytes * list bytes :=
  match a, b with
  | x :: a', y :: b' => if str_eq x y then mismatch a' b' else (a, b)
  | _, _ => (a, b)
  end.
Definition up (l : list bytes) : Z :=
  fold_left (fun n c => if str_eq c (txt "..") then (n - 1)%Z else if str_eq c [] || str_eq c (txt ".") then n else (n + 1)%Z) l 0%Z.
Definition lex_relative (p base : path) : option (list bytes) :=
  if negb (Bool.eqb (p_abs p) (p_abs base)) then None
  else
    let (a, b) := mismatch (p_comps p) (p_comps base) in
    match a, b with
    | [], [] => Some [txt "."]
    | _, _ =>
      let n := up b in
      if (n <? 0)%Z then None
      else if (n =? 0)%Z && (match a with [] => true | c :: _ => negb (nonempty c) end) then Some [txt "."]
      else Some (dots (Z.to_nat n) ++ a)
    end.

(** const char kProfilesFolder[] (profilez_handler.cc:34). *)
Definition folder : path := to_path (txt "/tmp/profile/").
(** fs::relative(p, base): both are resolved first. *)
Definition relative (e : env) (p base : path) : option (option (list bytes)) :=
  match canon e p, canon e base with
  | Some p', Some b' => Some (lex_relative p' b')
  | _, _ => None
  end.
(** operator/ of a path and a relative path. *)
Definition slash (p : path) (r : list bytes) : path :=
  Path (p_abs p) ((if nonempty (last (p_comps p) [1]) then p_comps p else removelast (p_comps p)) ++ r).
Fixpoint comps_eq (a b : list bytes) : bool :=
  match a, b with
  | [], [] => true
  | x :: a', y :: b' => str_eq x y && comps_eq a' b'
  | _, _ => false
  end.
Definition path_eq (a b : path) : bool := Bool.eqb (p_abs a) (p_abs b) && comps_eq (p_comps a) (p_comps b).

(** The value of the last argument with key [k]; empty if there is none (the loops of http_handler.cc:82-88,
    134-138). *)
Definition last_of (args : list (bytes * bytes)) (k : bytes) : bytes :=
  fold_left (fun d kv => if str_eq (fst kv) k then snd kv else d) args [].

(** FilezHandler (http_handler.cc:132-164) with LoadFileResponse (http_handler.cc:34-61). *)
Definition FilezHandler (e : env) (args : list (bytes * bytes)) : action :=
  let file_name := last_of args (txt "file") in
  match canon e (to_path file_name) with
  | None => AThrow
  | Some cf =>
    match relative e cf folder with
    | None => AThrow
    | Some rel =>
      match rel with
      | None => AFileRefused
      | Some r =>
        if negb (path_eq (slash folder r) cf) then AFileRefused
        else if negb (nonempty file_name) then AFileRefused
        else match opens e file_name with
             | OFine => AFile file_name
             | _ => AFileMissing
             end
      end
    end
  end.

(** absl::FindCommandLineFlag and CommandLineFlag::ParseFrom. *)
Fixpoint find_flag (fl : flags) (n : bytes) : option bytes :=
  match fl with
  | [] => None
  | (m, v) :: fl' => if str_eq m n then Some v else find_flag fl' n
  end.
Fixpoint set_flag (fl : flags) (n v : bytes) : flags :=
  match fl with
  | [] => []
  | (m, w) :: fl' => if str_eq m n then (m, v) :: fl' else (m, w) :: set_flag fl' n v
  end.

(** ParseFlagz (http_handler.cc:77-121). *)
Definition ParseFlagz (e : env) (fl : flags) (args : list (bytes * bytes)) : action * flags :=
  let flag_name := last_of args (txt "flag") in
  let value := last_of args (txt "value") in
  if nonempty flag_name then
    match find_flag fl flag_name with
    | None => (AFlag flag_name, fl)
    | Some _ => (AFlag flag_name, if flag_ok e flag_name value then set_flag fl flag_name value else fl)
    end
  else if Nat.eqb (List.length args) 1 then (AAllFlags, fl) else (ANoFlags, fl).

(** ProfilezHandler (profilez_handler.cc:109-119): [heap] and [enable]. *)
Definition ProfilezHandler (args : list (bytes * bytes)) : action :=
  let he := fold_left (fun (s : bool * bool) kv =>
      if str_eq (fst kv) (txt "profile") then (fst s, str_eq (snd kv) (txt "on"))
      else if str_eq (fst kv) (txt "heap") then (true, str_eq (snd kv) (txt "on"))
      else s) args (false, false) in
  AProfile (negb (fst he)) (snd he).

(** HttpListenerBase::HandleRoot (http_handler.cc:253-301); [None] is false. *)
Definition HandleRoot (e : env) (c : config) (fl : flags) (r : req) : option (action * flags) :=
  if str_eq (r_target r) (txt "/favicon.ico") then Some (AFavicon, fl)
  else
    let (path, query) := ParseQuery (r_target r) in
    let args := SplitQuery query in
    if str_eq path (txt "/") then Some (if nonempty (c_root c) then ARoot else AStatus, fl)
    else if str_eq path (txt "/flagz") then Some (ParseFlagz e fl args)
    else if str_eq path (txt "/filez") then Some (FilezHandler e args, fl)
    else if str_eq path (txt "/profilez") then Some (ProfilezHandler args, fl)
    else if c_metrics c && str_eq path (txt "/metrics") then Some (AMetrics, fl)
    else None.

(** HttpListenerBase::RegisterCb (http_handler.cc:303-311): emplace does not replace. The map's keys are
    views of the caller's strings, which must live as long as the listener. *)
Definition find_cb (cbs : list (bytes * nat)) (p : bytes) : option nat :=
  match find (fun x => str_eq (fst x) p) cbs with Some x => Some (snd x) | None => None end.
Definition RegisterCb (cbs : list (bytes * nat)) (p : bytes) (id : nat) : list (bytes * nat) * bool :=
  match find_cb cbs p with
  | Some _ => (cbs, false)
  | None => (cbs ++ [(p, id)], true)
  end.

(** HttpConnection::CheckRequestAuthorization (http_handler.cc:386-420): what the function is asked, and
    whether to go on. Base64Unescape leaves an empty string when it fails. *)
Definition CheckAuth (e : env) (c : config) (r : req) (path : bytes) : option (bytes * bytes * bytes) * bool :=
  match c_auth c with
  | None => (None, true)
  | Some f =>
    let (user, pass) :=
      if nonempty (r_auth r) && starts_with (r_auth r) (txt "Basic ") then
        let decoded := match unb64 e (skipn 6 (r_auth r)) with Some d => d | None => [] end in
        match cut 58 decoded with
        | (u, Some p) => (u, p)
        | (_, None) => ([], [])
        end
      else ([], []) in
    (Some (path, user, pass), f path user pass)
  end.

(** HttpConnection::HandleSingleRequest (http_handler.cc:422-448). *)
Definition HandleSingle (e : env) (c : config) (fl : flags) (r : req) : option (bytes * bytes * bytes) * action * flags :=
  let (path, query) := ParseQuery (r_target r) in
  let (asked, go) := CheckAuth e c r path in
  if negb go then (asked, AChallenge, fl)
  else match HandleRoot e c fl r with
       | Some (a, fl') => (asked, a, fl')
       | None => match find_cb (c_cbs c) path with
                 | None => (asked, AUnknown, fl)
                 | Some id => (asked, ACall id (SplitQuery query), fl)
                 end
       end.

(** What HandleSingleRequest (http_handler.cc:422-448) does, without what the functor was asked. *)
Definition act (e : env) (c : config) (fl : flags) (r : req) : action * flags :=
  let '(_, a, fl') := HandleSingle e c fl r in (a, fl').

(** A connection: req_buffer_ and what was done so far; [k_open] is false once an exception has left
    HandleSingleRequest. *)
Record conn := Conn { k_buf : bytes; k_done : list action; k_flags : flags; k_open : bool }.
Definition serve (e : env) (c : config) (k : conn) (r : req) : conn :=
  let '(_, a, fl) := HandleSingle e c (k_flags k) r in
  Conn (k_buf k) (k_done k ++ [a]) fl (match a with AThrow => false | _ => k_open k end).

(** req_buffer_(4096) (http_handler.cc:313-315). *)
Definition max_size : nat := 4096.

(** HttpConnection::ParseFromBuffer (http_handler.cc:317-361). The loop ends because the parser consumes
    something: [fuel] is the length of the input. [Some e] is the error that is returned. *)
Inductive perr := TooLarge | Bad (e : N) | Throws.
Fixpoint pfb (fuel : nat) (e : env) (c : config) (parse : bytes -> parsed) (b : bytes) (k : conn) : option perr * conn :=
  match fuel with
  | O => (None, k)
  | S fuel' =>
    match b with
    | [] => (None, k)
    | _ =>
      match parse b with
      | PErr x => (Some (Bad x), k)
      | PMore =>
        if Nat.ltb max_size (List.length b) then (Some TooLarge, k)
        else if Nat.ltb max_size (List.length (k_buf k) + List.length b) then (Some Throws, k)
        else (None, Conn (k_buf k ++ b) (k_done k) (k_flags k) (k_open k))
      | PDone r n =>
        let k := serve e c k r in
        if k_open k then pfb fuel' e c parse (skipn n b) k else (Some Throws, k)
      end
    end
  end.
Definition ParseFromBuffer (e : env) (c : config) (parse : bytes -> parsed) (b : bytes) (k : conn) : option perr * conn :=
  pfb (S (List.length b)) e c parse b k.

(** HttpConnection::HandleRequests (http_handler.cc:363-384) with RunSingleConnection's handler of
    exceptions (util/fibers/listener_interface.cc:252-258): [sock] is all that the client sends. *)
Fixpoint requests (fuel : nat) (e : env) (c : config) (parse : bytes -> parsed) (b : bytes) (k : conn) : conn :=
  match fuel with
  | O => k
  | S fuel' =>
    match parse b with
    | PDone r n =>
      let k := serve e c k r in
      if k_open k then requests fuel' e c parse (skipn n b) k else k
    | _ => Conn b (k_done k) (k_flags k) (k_open k)
    end
  end.
Definition HandleRequests (e : env) (c : config) (parse : bytes -> parsed) (sock : bytes) (k : conn) : conn :=
  let b := k_buf k ++ sock in
  requests (S (List.length b)) e c parse b (Conn [] (k_done k) (k_flags k) (k_open k)).
