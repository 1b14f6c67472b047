(** What a stream of commands says. *)
From Verif Require Import Util RespModel.

(** The words of a line: split at bytes up to 32, without the empty ones. *)
Definition word (w : bytes) : list bytes := match w with [] => [] | _ => [w] end.
Fixpoint split (cur : bytes) (l : bytes) : list bytes :=
  match l with [] => word cur | c :: l => if (32 <? c)%N then split (cur ++ [c]) l else word cur ++ split [] l end.
Definition words (l : bytes) : list bytes := split [] l.

(** A command: a line, or an array of strings, where lengths are written with any digits that denote them. *)
Inductive cmd := Line (l : bytes) | Arr (ds : bytes) (args : list (bytes * bytes)).
Definition crlf : bytes := [13; 10]%N.
Definition head (c : N) (ds : bytes) : bytes := [c] ++ ds ++ crlf.
Definition item (a : bytes * bytes) : bytes := head 36 (fst a) ++ snd a ++ crlf.
Definition items (l : list (bytes * bytes)) : bytes := concat (map item l).
Definition wire (c : cmd) : bytes := match c with Line l => l ++ [10%N] | Arr ds args => head 42 ds ++ items args end.
Definition value (c : cmd) : list bytes := match c with Line l => words l | Arr _ args => map snd args end.
Definition denotes (ds : bytes) (n : nat) : Prop :=
  ds <> [] /\ length ds <= 18 /\ Forall (fun c => is_digit c = true) ds /\ number ds = N.of_nat n.
Definition valid (c : cmd) : Prop :=
  match c with
  | Line l => ~ In 10%N l /\ match l with c :: _ => ~ In c [36; 58; 42]%N | [] => True end
  | Arr ds args => args <> [] /\ denotes ds (length args) /\ length args <= 1024 /\
      Forall (fun a => denotes (fst a) (length (snd a)) /\ (N.of_nat (length (snd a)) <= 67108864)%N) args
  end.
Definition wires (cs : list cmd) : bytes := concat (map wire cs).

(** Where the stream may be cut: anywhere in a line; in an array, inside a length (and not inside an argument). *)
Definition within (a b : bytes) : Prop := exists c, c <> [] /\ a ++ c = b.
Definition calm (c : cmd) (part : bytes) : Prop :=
  match c with
  | Line l => within part (l ++ [10%N])
  | Arr ds args => within part (head 42 ds) \/
      exists done a rest h, args = done ++ a :: rest /\ within h (head 36 (fst a)) /\ part = head 42 ds ++ items done ++ h
  end.
Definition cut (cs : list cmd) (seen : bytes) : Prop :=
  seen = wires cs \/ exists done c rest part, cs = done ++ c :: rest /\ calm c part /\ seen = wires done ++ part.
