(** What a user of a cloud file expects of the object, from what the calls returned. *)
From Verif Require Import Util.
Open Scope N_scope.

(** [kept l rs o]: [o] is made of the data of the writes [l], in order: all bytes of a write that
    returned success (and the number of these bytes was returned), and the first bytes, possibly
    none or all, of a write that returned an error. *)
Inductive kept : list (list (list N)) -> list (option N) -> list N -> Prop :=
| kept_nil : kept [] [] []
| kept_ok vs l n rs o :
    n = len (concat vs) -> kept l rs o -> kept (vs :: l) (Some n :: rs) (concat vs ++ o)
| kept_fail vs l rs p q o :
    concat vs = p ++ q -> kept l rs o -> kept (vs :: l) (None :: rs) (p ++ o).

(** All writes succeeded. *)
Definition no_error (rs : list (option N)) : Prop := forall r, In r rs -> r <> None.

(** The data of all writes. *)
Definition written (l : list (list (list N))) : list N := concat (map (@concat N) l).

(** The buffers passed to one write are all the same. This holds if every write passes at most one
    buffer, as Write(Bytes) and Write(string_view) do. *)
Definition alike (l : list (list (list N))) : Prop :=
  forall vs a b, In vs l -> In a vs -> In b vs -> a = b.

(** Sizes of the numbered parts that the service received: none is empty or larger than the part
    size, and only the one with the highest number may be smaller (S3 requires this). *)
Definition sized (part : N) (parts : list (nat * list N)) : Prop :=
  forall i d, In (i, d) parts ->
    (0 < len d <= part) /\ (forall j e, In (j, e) parts -> (i < j)%nat -> len d = part).
