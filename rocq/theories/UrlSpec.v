(** Specification of percent-encoding and of query splitting (C09, C48). *)
From Verif Require Import Util.
Open Scope N_scope.

(** Value of a hexadecimal digit. *)
Definition hexval (c : N) : option N :=
  if (48 <=? c) && (c <=? 57) then Some (c - 48)
  else if (65 <=? c) && (c <=? 70) then Some (c - 55)
  else if (97 <=? c) && (c <=? 102) then Some (c - 87)
  else None.

(** [decodes s d]: the text [s] is well-formed percent-encoding of [d]. *)
Inductive decodes : list N -> list N -> Prop :=
| dec_nil : decodes [] []
| dec_char c s d : c <> 37 -> decodes s d -> decodes (c :: s) (c :: d)
| dec_pct h l a b s d : hexval h = Some a -> hexval l = Some b -> decodes s d ->
    decodes (37 :: h :: l :: s) (16 * a + b :: d).

(** Letters, digits and the punctuation in [p]. *)
Definition literal (p : list N) (c : N) : Prop :=
  48 <= c <= 57 \/ 65 <= c <= 90 \/ 97 <= c <= 122 \/ In c p.
(** Upper-case hexadecimal digits. *)
Definition upper_hex (c : N) : Prop := 48 <= c <= 57 \/ 65 <= c <= 70.
(** Text made of literal characters and %XX triplets only. *)
Inductive url_text (p : list N) : list N -> Prop :=
| ut_nil : url_text p []
| ut_lit c s : literal p c -> url_text p s -> url_text p (c :: s)
| ut_pct a b s : upper_hex a -> upper_hex b -> url_text p s -> url_text p (37 :: a :: b :: s).

Definition bytes (s : list N) : Prop := Forall (fun c => c < 256) s.

(** Joining pieces with a separator. *)
Fixpoint join (sep : N) (ps : list (list N)) : list N :=
  match ps with
  | [] => []
  | [p] => p
  | p :: ps' => p ++ sep :: join sep ps'
  end.
(** The key/value pair [(k, v)] comes from the piece [p]. *)
Definition pair_of (p : list N) (kv : list N * list N) : Prop :=
  ~ In 61 (fst kv) /\ (p = fst kv ++ 61 :: snd kv \/ (p = fst kv /\ snd kv = [])).
