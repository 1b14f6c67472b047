(** The grammar of an ini file and what it means. *)
From Verif Require Import Util IniModel.
Open Scope N_scope.

Definition space (b : N) : Prop := 9 <= b <= 13 \/ b = 32.
(** [t] is [s] without the blanks around it. *)
Definition trims (s t : list N) : Prop :=
  exists a b, s = a ++ t ++ b /\ Forall space a /\ Forall space b /\
    (forall x y, t = x :: y -> ~ space x) /\ (forall x y, t = y ++ [x] -> ~ space x).
(** [t] is what precedes the comment of the line. *)
Definition comment (c : list N) : Prop := exists b o, c = b :: o /\ (b = SEMI \/ b = HASH).
Definition before_comment (l t : list N) : Prop :=
  exists c, l = t ++ c /\ ~ In SEMI t /\ ~ In HASH t /\ (c = [] \/ comment c).
Definition bracketed (u x : list N) : Prop := u = LBR :: x ++ [RBR].

(** The meaning of a line. *)
Inductive item := INone | ISec (name : list N) | IEnt (k v : list N).
Inductive means (l : list N) : item -> Prop :=
| m_blank t : before_comment l t -> trims t [] -> means l INone
| m_section t u x name : before_comment l t -> trims t u -> bracketed u x -> trims x name -> means l (ISec name)
| m_entry t u a b k v : before_comment l t -> trims t u -> (forall x, ~ bracketed u x) ->
    u = a ++ EQS :: b -> ~ In EQS a -> trims a k -> trims b v -> means l (IEnt k v)
| m_other t u : before_comment l t -> trims t u -> u <> [] -> (forall x, ~ bracketed u x) -> ~ In EQS u -> means l INone.

(** A section header followed by blanks and then a comment. *)
Definition header_blank_comment (l : list N) : Prop :=
  exists p x q c, l = p ++ LBR :: x ++ RBR :: q ++ c /\ ~ In SEMI x /\ ~ In HASH x /\
    Forall space p /\ Forall space q /\ q <> [] /\ comment c.

(** The meaning of a sequence of items, the latest first: which section is current, which value a key has. *)
Fixpoint current (h : list item) : list N :=
  match h with ISec n :: _ => n | _ :: h' => current h' | [] => [] end.
Fixpoint value (h : list item) (sec key : list N) : option (list N) :=
  match h with
  | [] => None
  | IEnt k v :: h' => if seqb key k && seqb sec (current h') then Some v else value h' sec key
  | _ :: h' => value h' sec key
  end.
Definition exists_section (its : list item) (sec : list N) : Prop :=
  In (ISec sec) its \/ exists pre k v post, its = pre ++ IEnt k v :: post /\ current (rev pre) = sec.
