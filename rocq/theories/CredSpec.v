(** What a user of the AWS credentials provider sees, and what they may rely on.

    A history lists, newest first, the calls and returns of RefreshToken and RefreshIfExpiring, the
    requests for new credentials that leave the process and what comes back, and the credentials
    that requests are signed with. *)
From Verif Require Import Util.

(** One set of credentials: key id, secret, session token, and when it expires (0: never). *)
Record creds := Creds { k_id : list N; k_secret : list N; k_token : list N; k_expiry : Z }.
(** Where credentials come from. *)
Inductive src := NoSrc | EnvSrc | ProfSrc | WebSrc | ContSrc | ImdsSrc.
Definition static (s : src) : Prop := s = EnvSrc \/ s = ProfSrc.
Definition dynamic (s : src) : Prop := s = WebSrc \/ s = ContSrc \/ s = ImdsSrc.

Inductive err := TimedOut | Denied | Other (n : N).
Inductive call := CTok | CExp.             (* RefreshToken, RefreshIfExpiring *)
Inductive res := ROk | RBool (b : bool) | RErr (e : err).
Inductive ev :=
| ECall (t : nat) (k : call) (ms : N)                  (* the call, and the steady clock in milliseconds *)
| ERet (t : nat) (k : call) (r : res) (ms : N) (w : Z) (* the return, the steady and the wall clock (seconds) *)
| EAsk (t : nat) (s : src)                             (* credentials are asked for at [s] *)
| EGot (t : nat) (a : creds + err)                     (* what comes back *)
| ESign (t : nat) (c : creds).                         (* a request is signed *)

(** Credentials that expire within half a minute. *)
Definition expiring (c : creds) (w : Z) : Prop := (0 < k_expiry c /\ k_expiry c <= w + 30)%Z.

(** The credentials received so far, newest first, on top of the first ones [c0]. *)
Fixpoint received (c0 : creds) (h : list ev) : list creds :=
  match h with
  | [] => [c0]
  | EGot _ (inl c) :: h' => c :: received c0 h'
  | _ :: h' => received c0 h'
  end.
(** The newest answer, and who got it. *)
Fixpoint newest (h : list ev) : option (nat * (creds + err)) :=
  match h with
  | [] => None
  | EGot t a :: _ => Some (t, a)
  | _ :: h' => newest h'
  end.
(** What has happened since the last call of [t]. *)
Fixpoint since (t : nat) (h : list ev) : list ev :=
  match h with
  | [] => []
  | ECall t' k ms :: h' => if Nat.eqb t' t then [] else ECall t' k ms :: since t h'
  | e :: h' => e :: since t h'
  end.
(** The call [t] is in: which, and since when. *)
Fixpoint called (t : nat) (h : list ev) : option (call * N) :=
  match h with
  | [] => None
  | ECall t' k ms :: h' => if Nat.eqb t' t then Some (k, ms) else called t h'
  | ERet t' _ _ _ _ :: h' => if Nat.eqb t' t then None else called t h'
  | _ :: h' => called t h'
  end.
(** Somebody has received new credentials and the call in which it did has not returned. *)
Definition arriving (h : list ev) : Prop :=
  exists t c, newest h = Some (t, inl c) /\ called t h <> None /\ newest (since t h) = Some (t, inl c).
(** The credentials in force: the newest, or while these arrive perhaps still the ones before. *)
Definition in_force (c0 : creds) (h : list ev) (c : creds) : Prop :=
  nth_error (received c0 h) 0 = Some c \/ (arriving h /\ nth_error (received c0 h) 1 = Some c).

(** Requests for credentials never overlap: who is asking, if anybody. *)
Inductive asking : list ev -> option nat -> Prop :=
| ask_nil : asking [] None
| ask_start h t s : asking h None -> asking (EAsk t s :: h) (Some t)
| ask_end h t a : asking h (Some t) -> asking (EGot t a :: h) None
| ask_call h t k ms o : asking h o -> asking (ECall t k ms :: h) o
| ask_ret h t k r ms w o : asking h o -> o <> Some t -> asking (ERet t k r ms w :: h) o
| ask_sign h t c o : asking h o -> asking (ESign t c :: h) o.

(** [e] happened when the history was [h]. *)
Definition happened (e : ev) (h : list ev) (whole : list ev) : Prop := exists later, whole = later ++ e :: h.

(** What a return may say. *)
Definition told (c0 : creds) (s0 : src) (h : list ev) (t : nat) (k : call) (r : res) (ms : N) (w : Z) : Prop :=
  match k, r with
  (* new credentials were received in this very call, the last ones anybody received;
     or they need no refresh; or somebody else's call ended meanwhile *)
  | CTok, ROk =>
      (exists c, newest (since t h) = Some (t, inl c)) \/ static s0
      \/ exists t' k' r' ms' w', t' <> t /\ List.In (ERet t' k' r' ms' w') (since t h)
  (* no need: those in force are not expiring *)
  | CExp, RBool false => exists c, in_force c0 h c /\ ~ expiring c w
  (* new credentials were received in this call, the last ones anybody received *)
  | CExp, RBool true => exists c, newest (since t h) = Some (t, inl c)
  (* the answer in this call, or half a minute of waiting, or there are none *)
  | _, RErr e =>
      newest (since t h) = Some (t, inr e)
      \/ (e = TimedOut /\ exists ms0, called t h = Some (k, ms0) /\ (ms0 + 30000 <= ms)%N)
      \/ (e = Denied /\ s0 = NoSrc)
  | _, _ => False
  end.

(** Before the first call: credentials that cannot be refreshed do not expire. *)
Definition begun (c0 : creds) (s0 : src) : Prop := dynamic s0 \/ k_expiry c0 = 0%Z.

(** [t] has just come to an end, or to waiting for the answer to its own request. *)
Definition settled (t : nat) (h : list ev) : Prop :=
  match h with ERet u _ _ _ _ :: _ => u = t | EAsk u _ :: _ => u = t | _ => False end.
