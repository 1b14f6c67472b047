(** What C88 says: which variables are listed, what their text means, what an average counts. *)
From Verif Require Import Util Conc VarzModel.

(** The live variables, newest first. *)
Fixpoint live (l : list (nat * option (list N))) (os : list vop) : list (nat * option (list N)) :=
  match os with
  | [] => l
  | New a name :: r => live ((a, name) :: l) r
  | Del a :: r => live (filter (fun p => negb (fst p =? a)) l) r
  end.
(** Their names; those without a name are not listed. *)
Definition names (l : list (nat * option (list N))) : list (list N) :=
  flat_map (fun p => match snd p with Some n => [n] | None => [] end) l.

(** A reader of JSON without arrays and escapes. Numbers are kept as text. *)
Inductive json := JStr (s : list N) | JNum (t : list N) | JObj (l : list (list N * json)).
Definition blank (c : N) : bool := (c =? 32)%N.
Fixpoint skip (t : list N) : list N := match t with c :: r => if blank c then skip r else t | [] => [] end.
(** Up to the closing quote. A backslash or a control character is not accepted. *)
Fixpoint quoted (t : list N) : option (list N * list N) :=
  match t with
  | [] => None
  | c :: r =>
      if (c =? 34)%N then Some ([], r)
      else if (c =? 92)%N || (c <? 32)%N then None
      else match quoted r with Some (s, r') => Some (c :: s, r') | None => None end
  end.
(** 0-9 + - . e E *)
Definition numeric (c : N) : bool :=
  ((48 <=? c) && (c <=? 57) || (c =? 43) || (c =? 45) || (c =? 46) || (c =? 101) || (c =? 69))%N.
Fixpoint number (t : list N) : list N * list N :=
  match t with
  | c :: r => if numeric c then let (a, b) := number r in (c :: a, b) else ([], t)
  | [] => ([], [])
  end.
Fixpoint value (fuel : nat) (t : list N) : option (json * list N) :=
  match fuel with
  | O => None
  | S k =>
      match skip t with
      | 34%N :: r => match quoted r with Some (s, r') => Some (JStr s, r') | None => None end
      | 123%N :: r =>
          match skip r with
          | 125%N :: r' => Some (JObj [], r')
          | r' => match members k r' with Some (l, r'') => Some (JObj l, r'') | None => None end
          end
      | r => match number r with ([], _) => None | (a, r') => Some (JNum a, r') end
      end
  end
with members (fuel : nat) (t : list N) : option (list (list N * json) * list N) :=
  match fuel with
  | O => None
  | S k =>
      match skip t with
      | 34%N :: r =>
          match quoted r with
          | None => None
          | Some (key, r1) =>
              match skip r1 with
              | 58%N :: r2 =>
                  match value k r2 with
                  | None => None
                  | Some (v, r3) =>
                      match skip r3 with
                      | 125%N :: r4 => Some ([(key, v)], r4)
                      | 44%N :: r4 => match members k r4 with Some (l, r5) => Some ((key, v) :: l, r5) | None => None end
                      | _ => None
                      end
                  end
              | _ => None
              end
          end
      | _ => None
      end
  end.
(** The number a decimal text denotes. *)
Definition digits_val (t : list N) : Z := fold_left (fun a c => (10 * a + (Z.of_N c - 48))%Z) t 0%Z.
Definition int_val (t : list N) : Z := match t with 45%N :: r => (- digits_val r)%Z | _ => digits_val t end.

(** The text means the value. *)
Inductive means : val -> json -> Prop :=
| m_str s : means (VStr s) (JStr s)
| m_num z t : int_val t = z -> means (VNum z) (JNum t)
| m_time z t : int_val t = z -> means (VTime z) (JNum t)
| m_dbl t : means (VDbl t) (JNum t)
| m_map l j : Forall2 (fun a b => fst a = fst b /\ means (snd a) (snd b)) l j -> means (VMap l) (JObj j).

(** No quotes, backslashes or control characters; a double that is a number. *)
Definition tame_text (s : list N) : Prop := Forall (fun c => c <> 34 /\ c <> 92 /\ 32 <= c)%N s.
Inductive tame : val -> Prop :=
| t_str s : tame_text s -> tame (VStr s)
| t_num z : tame (VNum z)
| t_time z : tame (VTime z)
| t_dbl t : t <> [] -> Forall (fun c => numeric c = true) t -> tame (VDbl t)
| t_map l : Forall (fun p => tame_text (fst p) /\ tame (snd p)) l -> tame (VMap l).

(** Increments of a key in one thread, and in all. *)
Definition incs_on (t k : nat) (ls : list alab) : nat :=
  length (filter (fun l => match l with Inc u j _ => (u =? t) && (j =? k) | _ => false end) ls).
Fixpoint delta_on (t k : nat) (ls : list alab) : Z :=
  match ls with
  | [] => 0%Z
  | Inc u j d :: r => Z.add (if (u =? t) && (j =? k) then d else 0%Z) (delta_on t k r)
  | _ :: r => delta_on t k r
  end.
(** What was reported for a thread. *)
Definition from (t : nat) (r : list (nat * entry)) : list entry := map snd (filter (fun p => fst p =? t) r).
(** The entry holds key, sum and count of thread [t] after the calls [h]. *)
Definition counts (t : nat) (h : list alab) (e : entry) : Prop := e = (fst e, (delta_on t (fst e) h, incs_on t (fst e) h)).
