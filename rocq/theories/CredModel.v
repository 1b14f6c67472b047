(** Model of the refresh of AWS credentials (util/cloud/aws/aws_creds_provider.{h,cc}), with any
    number of fibers and threads.

    State: the credentials and their source (both under lock_), the flag is_refreshing_, two clocks
    (steady, in milliseconds; wall, in seconds, which may be set to anything), where every fiber is,
    and the history. One step does one access to the shared state; a section under lock_ is one step
    (RWSpinLock excludes writers, C72). The functions that fetch credentials (TryWebIdentity,
    TryContainerCreds, TryIMDS) are: ask, get an answer or an error, install under the lock; their
    several requests count as one. Init is over before the first step (C83). *)
From Verif Require Import Util Conc CredSpec.
Local Open Scope N_scope.

(** Where a fiber is; [k] says which function called RefreshTokenImpl. *)
Inductive pc :=
| Idle
| TokCas                               (* cc:533 *)
| TokWait (dl : N) | TokSleep (dl : N) (* cc:541, 545 *)
| ExpCheck (dl : N)                    (* cc:676-679 *)
| ExpCas (dl : N)                      (* cc:682 *)
| ExpTime (dl : N) | ExpSleep (dl : N) (* cc:690, 693 *)
| ImplRead (k : call)                  (* cc:553-556 *)
| Fetching (k : call) (s : src)        (* cc:562-567: the request is out *)
| Installing (k : call) (s : src) (c : creds)   (* cc:435-439, 479-483, 522-526 *)
| Clearing (k : call) (e : option err).         (* cc:535, 684 *)

Record state := St { s_creds : creds; s_source : src; s_flag : bool; s_ms : N; s_wall : Z;
  s_pc : nat -> pc; s_log : list ev }.
Inductive label :=
| LCall (t : nat) (k : call)           (* [t] calls RefreshToken or RefreshIfExpiring *)
| LSign (t : nat)                      (* [t] calls Sign *)
| LStep (t : nat)
| LAns (t : nat) (a : creds + err)     (* the answer to [t]'s request *)
| LTick (d : N) | LWall (w : Z).       (* time passes; the wall clock shows [w] *)

(** aws_creds_provider.h:26-28, IsExpiring. *)
Definition IsExpiring (c : creds) (w : Z) : bool := ((0 <? k_expiry c) && (k_expiry c <=? w + 30))%Z.
(** cc:41, kRefreshWaitTimeout. *)
Definition wait_ms : N := 30000.

Definition upd (f : nat -> pc) (t : nat) (p : pc) : nat -> pc := fun u => if Nat.eqb u t then p else f u.
Definition goto (s : state) (t : nat) (p : pc) : state :=
  St (s_creds s) (s_source s) (s_flag s) (s_ms s) (s_wall s) (upd (s_pc s) t p) (s_log s).
Definition note (s : state) (e : ev) : state :=
  St (s_creds s) (s_source s) (s_flag s) (s_ms s) (s_wall s) (s_pc s) (e :: s_log s).
Definition put_flag (s : state) (b : bool) : state :=
  St (s_creds s) (s_source s) b (s_ms s) (s_wall s) (s_pc s) (s_log s).
Definition put_creds (s : state) (c : creds) (x : src) : state :=
  St c x (s_flag s) (s_ms s) (s_wall s) (s_pc s) (s_log s).
(** Return from a call. *)
Definition ret (s : state) (t : nat) (k : call) (r : res) : state :=
  note (goto s t Idle) (ERet t k r (s_ms s) (s_wall s)).

(** cc:531-549, RefreshToken; cc:672-695, RefreshIfExpiring; cc:551-572, RefreshTokenImpl. *)
Definition fiber_step (s : state) (t : nat) : outcome state :=
  match s_pc s t with
  | Idle => Stuck
  | TokCas =>
      if s_flag s then Next (goto s t (TokWait (s_ms s + wait_ms)))
      else Next (put_flag (goto s t (ImplRead CTok)) true)
  | TokWait dl =>
      if s_flag s then
        if dl <=? s_ms s then Next (ret s t CTok (RErr TimedOut)) else Next (goto s t (TokSleep dl))
      else Next (ret s t CTok ROk)
  | TokSleep dl => Next (goto s t (TokWait dl))
  | ExpCheck dl =>
      if IsExpiring (s_creds s) (s_wall s) then Next (goto s t (ExpCas dl)) else Next (ret s t CExp (RBool false))
  | ExpCas dl =>
      if s_flag s then Next (goto s t (ExpTime dl)) else Next (put_flag (goto s t (ImplRead CExp)) true)
  | ExpTime dl =>
      if dl <=? s_ms s then Next (ret s t CExp (RErr TimedOut)) else Next (goto s t (ExpSleep dl))
  | ExpSleep dl => Next (goto s t (ExpCheck dl))
  | ImplRead k =>
      match s_source s with
      | EnvSrc | ProfSrc => Next (goto s t (Clearing k None))
      | NoSrc => Next (goto s t (Clearing k (Some Denied)))
      | x => Next (note (goto s t (Fetching k x)) (EAsk t x))
      end
  | Fetching _ _ => Stuck
  | Installing k x c => Next (put_creds (goto s t (Clearing k None)) c x)
  | Clearing k e =>
      let r := match e, k with Some e, _ => RErr e | None, CTok => ROk | None, CExp => RBool true end in
      Next (ret (put_flag s false) t k r)
  end.
Definition step (s : state) (l : label) : outcome state :=
  match l with
  | LCall t k =>
      match s_pc s t with
      | Idle =>
          let s := note s (ECall t k (s_ms s)) in
          Next (goto s t (match k with CTok => TokCas | CExp => ExpCheck (s_ms s + wait_ms) end))
      | _ => Stuck
      end
  (* cc:588-593: the credentials are copied under the lock *)
  | LSign t => match s_pc s t with Idle => Next (note s (ESign t (s_creds s))) | _ => Stuck end
  | LStep t => fiber_step s t
  | LAns t a =>
      match s_pc s t with
      | Fetching k x =>
          Next (note (goto s t (match a with inl c => Installing k x c | inr e => Clearing k (Some e) end)) (EGot t a))
      | _ => Stuck
      end
  | LTick d => Next (St (s_creds s) (s_source s) (s_flag s) (s_ms s + d) (s_wall s) (s_pc s) (s_log s))
  | LWall w => Next (St (s_creds s) (s_source s) (s_flag s) (s_ms s) w (s_pc s) (s_log s))
  end.
(** After Init. *)
Definition start (c0 : creds) (s0 : src) (ms : N) (w : Z) : state := St c0 s0 false ms w (fun _ => Idle) [].
