(** What listing means. *)
From Verif Require Import Util UrlSpec.
From Verif Require Import CloudListModel. (* for [str], the bytes of a literal, only *)
From Coq Require Import String.
Local Open Scope N_scope.

(** The server finds the parameters [ps] in the request target [url]: path?k=v&k=v..., with percent-encoded values. *)
Definition param (r p : list N * list N) : Prop :=
  fst r = fst p /\ decodes (snd r) (snd p) /\ ~ In 38 (fst r) /\ ~ In 61 (fst r) /\ ~ In 38 (snd r).
Definition sees (url : list N) (path : list N) (ps : list (list N * list N)) : Prop :=
  ~ In 63 path /\ exists raw, raw <> [] /\ Forall2 param raw ps /\ url = path ++ 63 :: join 38 (map (fun kv => fst kv ++ 61 :: snd kv) raw).
(** Decimal digits. *)
Definition digits (l : list N) : Prop := Forall (fun c => 48 <= c <= 57) l.
(** The parameter is sent if it is not empty. *)
Definition opt (k : string) (x : list N) : list (list N * list N) := match x with [] => [] | _ => [(str k, x)] end.
(** Without recursion, the delimiter is sent. *)
Definition delim (recursive : bool) : list (list N * list N) := if recursive then [] else [(str "delimiter", [47])].

(** The server's answers, from token [t] on ([] is the start): each has items and the token of the next one, [] for the last. *)
Section L.
Variable item : Type.
Variable serve : list N -> option (list item * list N).
(** All the pages together are [l]. *)
Inductive listing : list N -> list item -> Prop :=
| l_last t l : serve t = Some (l, []) -> listing t l
| l_more t l t' l' : serve t = Some (l, t') -> t' <> [] -> listing t' l' -> listing t (l ++ l').
(** The pages before the first failing request are [l]. *)
Inductive broken : list N -> list item -> Prop :=
| b_fail t : serve t = None -> broken t []
| b_more t l t' l' : serve t = Some (l, t') -> t' <> [] -> broken t' l' -> broken t (l ++ l').
End L.
