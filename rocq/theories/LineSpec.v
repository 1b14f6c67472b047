(** What a reader of lines means. *)
From Verif Require Import Util IoStreamModel LineModel.
Open Scope N_scope.

(** The lines of a text: terminated by LF, with one CR before the LF dropped; bytes after the last LF, if
    any, are a last line. [acc] is the reversed beginning of the current line. *)
Definition drop_cr (rev_line : list N) : list N :=
  match rev_line with b :: l => if b =? CR then l else rev_line | [] => [] end.
Fixpoint lines_from (acc : list N) (text : list N) : list (list N) :=
  match text with
  | [] => match acc with [] => [] | _ => [rev acc] end
  | b :: t => if b =? LF then rev (drop_cr acc) :: lines_from [] t else lines_from (b :: acc) t
  end.
Definition lines (text : list N) : list (list N) := lines_from [] text.

(** A source that delivers these chunks and then the end of the stream. *)
Definition source (chunks : list (list N)) : list rresp := map RData chunks.
Definition proper (page : N) (chunks : list (list N)) : Prop := Forall (fun c => 0 < len c <= page) chunks.
(** Every chunk but the last fills the space offered. *)
Definition full_reads (page : N) (chunks : list (list N)) : Prop :=
  forall c cs cs', chunks = cs ++ c :: cs' -> cs' <> [] -> len c = page.
(** No CR LF pair is split between two chunks. *)
Definition no_split_crlf (chunks : list (list N)) : Prop :=
  forall c c' cs cs', chunks = cs ++ c :: c' :: cs' -> ~ (exists x, c = x ++ [CR]) \/ ~ (exists y, c' = LF :: y).
(** No stretch of the text without an LF is as long as the limit. *)
Definition short_lines (limit : N) (text : list N) : Prop :=
  forall x y z, text = x ++ y ++ z -> ~ In LF y -> len y < limit.

(** Chunks joined as long as they fill the space. *)
Fixpoint runs (page : N) (chunks : list (list N)) : list (list N) :=
  match chunks with
  | [] => []
  | c :: cs => if len c =? page then match runs page cs with [] => [c] | r :: o => (c ++ r) :: o end
               else c :: runs page cs
  end.
(** The answers one wants from successive calls of Next(). *)
Definition answer (ls : list (list N)) (i : nat) : lres := match nth_error ls i with Some l => NLine l | None => NEnd end.
