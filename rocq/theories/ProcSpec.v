(** What ReadProcFile should report. *)
From Verif Require Import Util ProcModel IniSpec.
Open Scope N_scope.

(** The lines of a text: [text] = the lines, each followed by LF, and a tail without LF. *)
Definition unlines (ls : list (list N)) : list N := concat (map (fun l => l ++ [10]) ls).
Definition lines_of (text : list N) (ls : list (list N)) (tail : list N) : Prop :=
  text = unlines ls ++ tail /\ Forall (fun l => ~ In 10 l) ls /\ ~ In 10 tail.
(** A line as key and value. *)
Definition entry (c : N) (l : list N) (kv : list N * list N) : Prop :=
  exists sp, l = fst kv ++ [c] ++ sp ++ snd kv /\ ~ In c (fst kv) /\ Forall space sp /\
    (forall x y, snd kv = x :: y -> ~ space x).
(** Reads that deliver. *)
Definition reads (rs : list rans) : Prop := Forall (fun r => exists k, r = RdMax k /\ 0 < k) rs.
