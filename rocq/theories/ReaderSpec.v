(** What is expected of a file that is read sequentially. *)
From Verif Require Import Util.
Open Scope N_scope.

Fixpoint total (lens : list N) : N := match lens with [] => 0 | n :: r => n + total r end.

(** The bytes that the calls yield, if none fails: each gets as much as it asks for, until the end. *)
Fixpoint expected (obj : list N) (calls : list (list N)) : list (list N) :=
  match calls with
  | [] => []
  | lens :: r => take (total lens) obj :: expected (drop (total lens) obj) r
  end.

(** With failures: every successful call yields what follows position [p], where a failed one may have
    advanced the position by at most what it asked for. *)
Inductive slices (obj : list N) : N -> list (list N) -> list (option (list N)) -> Prop :=
| sl_nil p calls : slices obj p calls []
| sl_ok p lens calls outs :
    slices obj (p + N.min (total lens) (len obj - p)) calls outs ->
    slices obj p (lens :: calls) (Some (take (total lens) (drop p obj)) :: outs)
| sl_err p p' lens calls outs :
    p <= p' <= p + total lens -> slices obj p' calls outs ->
    slices obj p (lens :: calls) (None :: outs).

(** A stream of one response: as [expected], until a call fails; after that every call fails that asks
    for something. *)
Definition dead (lens : list N) (o : option (list N)) : Prop := o = None \/ lens = [] /\ o = Some [].
Inductive streamed : list N -> list (list N) -> list (option (list N)) -> Prop :=
| st_nil rest calls : streamed rest calls []
| st_ok rest lens calls outs :
    streamed (drop (total lens) rest) calls outs ->
    streamed rest (lens :: calls) (Some (take (total lens) rest) :: outs)
| st_err rest lens calls outs :
    (forall i o, nth_error outs i = Some o ->
       exists l, nth_error calls i = Some l /\ dead l o) ->
    streamed rest (lens :: calls) (None :: outs).

(** Before the response starts, failed calls have no effect. *)
Definition opened (obj : list N) (calls : list (list N)) (outs : list (option (list N))) : Prop :=
  exists k outs', outs = repeat None k ++ outs' /\ streamed obj (skipn k calls) outs'.

(** The bytes of the successful calls. *)
Fixpoint bytes_of (outs : list (option (list N))) : list N :=
  match outs with
  | [] => []
  | Some b :: r => b ++ bytes_of r
  | None :: r => bytes_of r
  end.

Definition all_ok {A} (outs : list (option A)) : Prop := Forall (fun o => o <> None) outs.
