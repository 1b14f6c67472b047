(** The HTTP listener of helio as its users see it. *)
From Coq Require Import String Ascii.
From Verif Require Import Util UrlSpec.
Import ListNotations.
Local Open Scope N_scope.

Definition bytes := list N.
Definition txt (s : string) : bytes := map N_of_ascii (list_ascii_of_string s).

(** A path of the file system: absolute or not, and its components ([txt ".."] among them). *)
Record path := Path { p_abs : bool; p_comps : list bytes }.

(** What the listener's surroundings do: decode base64, resolve a path (all links followed; [None]:
    the file system reports an error), open a file, and accept a value for a flag. *)
Inductive opened := OFine | OMissing | OFailed.
Record env := Env {
  unb64 : bytes -> option bytes;
  canon : path -> option path;
  opens : bytes -> opened;
  flag_ok : bytes -> bytes -> bool }.

(** What the user sets up: the function that checks credentials, the page for "/", whether metrics are
    served, and the callbacks, in the order of registration. *)
Record config := Config {
  c_auth : option (bytes -> bytes -> bytes -> bool);
  c_root : bytes;
  c_metrics : bool;
  c_cbs : list (bytes * nat) }.

(** A request: its target and the value of its Authorization field (empty if there is none). *)
Record req := Req { r_target : bytes; r_auth : bytes }.
Definition flags := list (bytes * bytes).

(** What is done about a request: at most one answer or callback. *)
Inductive action :=
| AChallenge                       (* 401, asks for credentials *)
| AFavicon | AStatus | ARoot | AMetrics
| AFlag (name : bytes)             (* the page about one flag *)
| AAllFlags | ANoFlags
| AFile (name : bytes)             (* the contents of the file *)
| AFileRefused | AFileMissing
| AProfile (cpu enable : bool)
| ACall (id : nat) (args : list (bytes * bytes))
| AUnknown                         (* 401, no such page *)
| AThrow.                          (* an exception leaves the handler: the connection is closed *)

(** The user name and password of an Authorization field. *)
Definition says (e : env) (h user pass : bytes) : Prop :=
  exists b, h = txt "Basic " ++ b /\ unb64 e b = Some (user ++ 58 :: pass) /\ ~ In 58 user.
Definition login (e : env) (h user pass : bytes) : Prop :=
  says e h user pass \/ ((forall u p, ~ says e h u p) /\ user = [] /\ pass = []).

(** [path_of t p q]: the target [t] is the path [p], alone or with a query. *)
Definition path_of (t p : bytes) (q : option bytes) : Prop :=
  ~ In 63 p /\ match q with Some x => t = p ++ 63 :: x | None => t = p end.

(** Pages the listener has itself. *)
Definition own (c : config) (p : bytes) : Prop :=
  p = txt "/" \/ p = txt "/flagz" \/ p = txt "/filez" \/ p = txt "/profilez" \/ (c_metrics c = true /\ p = txt "/metrics").

(** The first callback registered for [p]. *)
Definition first_cb (cbs : list (bytes * nat)) (p : bytes) (id : nat) : Prop :=
  exists a b, cbs = a ++ (p, id) :: b /\ forall x i, In (x, i) a -> x <> p.

(** The value of a flag. *)
Fixpoint value_of (f : flags) (n : bytes) : option bytes :=
  match f with
  | [] => None
  | (m, v) :: f' => if list_eq_dec N.eq_dec m n then Some v else value_of f' n
  end.
(** The value given last for [k] in a query, if any. *)
Definition last_arg (args : list (bytes * bytes)) (k v : bytes) : Prop :=
  exists a b, args = a ++ (k, v) :: b /\ forall w, ~ In (k, w) b.
Definition no_arg (args : list (bytes * bytes)) (k : bytes) : Prop := forall w, ~ In (k, w) args.

(** A request parser: what it makes of the bytes at hand. *)
Inductive parsed := PDone (r : req) (n : nat) | PMore | PErr (e : N).
(** It consumes something, and decides on a request as soon as it is complete. *)
Definition parser (parse : bytes -> parsed) : Prop :=
  forall b r n, parse b = PDone r n -> (0 < n <= length b)%nat /\ forall x, parse (b ++ x) = PDone r n.
(** The requests at the beginning of a stream, and what remains when no further one is complete. *)
Inductive stream (parse : bytes -> parsed) : bytes -> list req -> bytes -> Prop :=
| stream_end b : (forall r n, parse b <> PDone r n) -> stream parse b [] b
| stream_more b r n rs z : parse b = PDone r n -> stream parse (skipn n b) rs z -> stream parse b (r :: rs) z.

(** The arguments of a query: pieces between ampersands, each a key alone or a key, "=" and a value. *)
Definition args_of (q : option bytes) (args : list (bytes * bytes)) : Prop :=
  match q with
  | None => args = []
  | Some x => exists ps, ps <> [] /\ UrlSpec.join 38 ps = x /\ Forall (fun p => ~ In 38 p) ps /\ Forall2 UrlSpec.pair_of ps args
  end.

(** The file system resolves paths into ones without "." and "..", and leaves a resolved path alone. *)
Definition resolves (e : env) : Prop := forall p q, canon e p = Some q ->
  ~ In (txt ".") (p_comps q) /\ ~ In (txt "..") (p_comps q).
Definition settled (e : env) : Prop := forall p q, canon e p = Some q -> canon e q = Some q.
(** A path strictly below /tmp/profile. *)
Definition below (p : path) : Prop := p_abs p = true /\
  exists c r, c <> [] /\ p_comps p = txt "tmp" :: txt "profile" :: c :: r.

(** Requests served one after the other by [h], until an exception ends it. *)
Fixpoint answers (h : flags -> req -> action * flags) (fl : flags) (rs : list req) : list action * flags * bool :=
  match rs with
  | [] => ([], fl, true)
  | r :: rs' =>
    match h fl r with
    | (AThrow, fl') => ([AThrow], fl', false)
    | (a, fl') => let '(l, f, o) := answers h fl' rs' in (a :: l, f, o)
    end
  end.
