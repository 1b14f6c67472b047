(** PODArray is to be a vector: what the operations do to a sequence. *)
From Verif Require Import Util Conc PodModel.

Section T.
  Variable sz al : nat.
  (** The elements of the array. *)
  Definition elems (a : arr) : list (list cell) := map (at_ sz a) (seq 0 (size sz a)).
  Definition zero : list cell := repeat (Some 0%N) sz.
  (** New elements of resize have any value. *)
  Definition act (o : op) (v w : list (list cell)) : Prop :=
    match o with
    | Clear => w = []
    | Reserve _ => w = v
    | Resize n => length w = n /\ forall i, i < n -> i < length v -> nth_error w i = nth_error v i
    | ResizeFill n => w = firstn n v ++ repeat zero (n - length v)
    | ResizeFillV n x => w = firstn n v ++ repeat x (n - length v)
    | Push x => w = v ++ [x]
    | PushOwn i => exists x, nth_error v i = Some x /\ w = v ++ [x]
    | Pop => exists x, v = w ++ [x]
    | Insert xs => w = v ++ xs
    | InsertAt k xs => w = firstn k v ++ xs ++ skipn k v
    | AssignN n x => w = repeat x n
    | Assign xs => w = xs
    end.
  Definition made (c : ctor) (w : list (list cell)) : Prop :=
    match c with
    | CEmpty _ => w = []
    | CSized n _ => length w = n
    | CFill n x _ => w = repeat x n
    | CRange xs _ => w = xs
    end.
  (** What a step does to the arrays' elements. *)
  Definition acts (s : list arr) (l : lab) (s' : list arr) : Prop :=
    length s' = length s /\
    match l with
    | On i o => exists a b, nth_error s i = Some a /\ nth_error s' i = Some b /\ act o (elems a) (elems b) /\
                 forall k, k <> i -> nth_error s' k = nth_error s k
    | Move i j => exists a b a' b', nth_error s i = Some a /\ nth_error s j = Some b /\ nth_error s' i = Some a' /\ nth_error s' j = Some b' /\
                 elems b' = elems a /\ elems a' = elems b /\ forall k, k <> i -> k <> j -> nth_error s' k = nth_error s k
    | Renew j c => exists b, nth_error s' j = Some b /\ made c (elems b) /\ forall k, k <> j -> nth_error s' k = nth_error s k
    | MoveNew i j => exists a a' b', nth_error s i = Some a /\ nth_error s' i = Some a' /\ nth_error s' j = Some b' /\
                 elems b' = elems a /\ elems a' = [] /\ forall k, k <> i -> k <> j -> nth_error s' k = nth_error s k
    end.
  (** C31: a vector, and nothing outside its block is touched. *)
  Definition is_vector : Prop := forall n, safe (step sz al) (init n) /\
    forall s l s', reachable (step sz al) (init n) s -> step sz al s l = Next s' -> acts s l s'.

  (** What has to be avoided: zero-filling when T is more than a byte, push_back of an element of the array itself when it is
      full, moving between resources, constructing from zero elements when T is larger than the alignment. *)
  Definition calm_op (o : op) (a : arr) : bool :=
    match o with
    | ResizeFill n => (sz =? 1) || (n <=? size sz a)
    | PushOwn i => negb (fin a =? stored a)
    | _ => true
    end.
  Definition calm (s : list arr) (l : lab) : bool :=
    match l with
    | On i o => match nth_error s i with Some a => calm_op o a | None => true end
    | Move i j => match nth_error s i, nth_error s j with Some a, Some b => mr a =? mr b | _, _ => true end
    | Renew _ (CEmpty _) => true
    | Renew _ (CSized n _) | Renew _ (CFill n _ _) => (sz <=? al) || negb (n =? 0)
    | Renew _ (CRange xs _) => (sz <=? al) || negb (length xs =? 0)
    | MoveNew i j => match nth_error s i with Some a => mr a =? 0 | None => true end
    end.
  Definition cstep (s : list arr) (l : lab) : outcome (list arr) := if calm s l then step sz al s l else Stuck.
End T.
