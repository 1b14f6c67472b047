(** Vocabulary for C26. *)
From Verif Require Import Util FileModel.
Open Scope N_scope.

(** The answers other than EINTR. *)
Fixpoint effective (rs : list pans) : N :=
  match rs with [] => 0 | PIntr :: rs' => effective rs' | _ :: rs' => 1 + effective rs' end.
(** No answer cut short directly after another one (EINTR aside). *)
Fixpoint spaced (after_short : bool) (rs : list pans) : Prop :=
  match rs with
  | [] => True
  | PIntr :: rs' => spaced after_short rs'
  | PShort _ :: rs' => after_short = false /\ spaced true rs'
  | _ :: rs' => spaced false rs'
  end.
(** The part of a file that a read at [off] into buffers of these sizes should return. *)
Definition range (file : list N) (off : N) (v : list N) : list N := take (sum v) (drop off file).
(** A client that reads into these arrays of buffers one after the other: what it got each time, and where
    the source stands. *)
Fixpoint source_run (fsize : N) (file : list N) (rs : list pans) (off : N) (vs : list (list N)) : option (list (list N) * N) :=
  match vs with
  | [] => Some ([], off)
  | v :: vs' => match SourceRead fsize file rs off v with
                | (FOk _ bs, rs', off') => match source_run fsize file rs' off' vs' with
                                           | Some (o, e) => Some (bs :: o, e)
                                           | None => None
                                           end
                | _ => None
                end
  end.
