(** What a user of multishot receives relies on. *)
From Verif Require Import Util Conc BufRingModel.
Open Scope N_scope.

(** The bytes that the kernel received for socket [k], and those that its hook was given. *)
Definition received (k : nat) (l : list (nat * list N)) : list N := concat (map snd (filter (fun x => Nat.eqb (fst x) k) l)).
Definition given (k : nat) (h : list ev) : list N :=
  concat (map (fun e => match e with Got j bs => if Nat.eqb j k then bs else [] | _ => [] end) h).
(** A hook is called after ResetOnRecvHook has returned. *)
Fixpoint called (k : nat) (after : bool) (h : list ev) : Prop :=
  match h with
  | [] => False
  | WasReset j :: t => called k (after || Nat.eqb j k) t
  | Got j _ :: t | Closed j :: t | Error j _ :: t => (after = true /\ j = k) \/ called k after t
  | Fatal :: t => called k after t
  end.
(** A buffer ring that RegisterBufferRing accepts, with at most 4GB. *)
Definition ring_ok (n es : N) : Prop := (exists e, n = 2 ^ e /\ e <= 14) /\ 0 < es /\ n * es <= two32.
