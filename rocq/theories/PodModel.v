(** base::PODArray: base/pmr/pod_array.h.

    Storage is a list of bytes; a byte is [None] while it has not been written. Memory resources are numbers, 0 the default
    one; a block must be given back to the resource it came from, and accesses outside the block or to a block given back are
    undefined. Simplifications: sizes do not overflow size_t, allocation does not fail, memcpy of no bytes does not look at its
    arguments, and a range that is inserted or assigned is not part of the array (a comment at :291 asks for that). *)
From Verif Require Import Util Conc.

Definition cell := option N.
(** pod_array.h:35-38. [bytes] from c_start_ to c_end_of_storage_, or c_start_ == nullptr; [fin] c_end_ - c_start_;
    [blk] the resource the block came from (ghost). *)
Record arr := mk { bytes : option (list cell); fin : nat; blk : nat; mr : nat }.

(** absl::bit_ceil: the smallest power of two not less than [n] *)
Definition bit_ceil (n : nat) : nat := 2 ^ Nat.log2_up n.
(** allocated_size, :83-85 *)
Definition stored (a : arr) : nat := match bytes a with None => 0 | Some m => length m end.
Definition content (a : arr) : list cell := match bytes a with None => [] | Some m => m end.

Section T.
  (** sizeof(T), ALIGNMENT *)
  Variable sz al : nat.

  (** :117-122 *)
  Definition capacity (a : arr) : nat := stored a / sz.
  Definition size (a : arr) : nat := fin a / sz.
  (** operator[], :237-242 *)
  Definition at_ (a : arr) (i : nat) : list cell := firstn sz (skipn (i * sz) (content a)).

  (** :43-47 *)
  Definition alloc (n : nat) (a : arr) : arr := mk (Some (repeat None (bit_ceil n))) 0 (mr a) (mr a).
  (** :49-53 *)
  Definition dealloc (a : arr) : outcome unit :=
    match bytes a with None => Next tt | Some _ => if blk a =? mr a then Next tt else Ub end.
  (** :62-64 *)
  Definition min_mem (n : nat) : nat := Nat.max al (n * sz).
  (** :70-81 *)
  Definition realloc (n : nat) (a : arr) : outcome arr :=
    match bytes a with
    | None => Next (alloc n a)
    | Some m =>
        let n := bit_ceil n in
        if (fin a <=? n) && (fin a <=? length m)
        then match dealloc a with
             | Next _ => Next (mk (Some (firstn (fin a) m ++ repeat None (n - fin a))) (fin a) (mr a) (mr a))
             | Ub => Ub | Stuck => Stuck
             end
        else Ub
    end.
  (** :90-94 *)
  Definition reserve (n : nat) (a : arr) : outcome arr := if capacity a <? n then realloc (min_mem n) a else Next a.
  (** PODArray::reserve(), :171-176 *)
  Definition reserve1 (a : arr) : outcome arr :=
    match bytes a with
    | None => Next (alloc (Nat.max al (min_mem 1)) a)
    | Some _ => realloc (min_mem (capacity a * 2)) a
    end.

  (** Writes at an offset. *)
  Definition write (off : nat) (x : list cell) (a : arr) : outcome arr :=
    if off + length x <=? stored a
    then Next (mk (match bytes a with None => None | Some m => Some (firstn off m ++ x ++ skipn (off + length x) m) end) (fin a) (blk a) (mr a))
    else Ub.
  (** c_end_ = c_start_ + n *)
  Definition set_fin (n : nat) (a : arr) : arr := mk (bytes a) n (blk a) (mr a).
  Definition bind {A B} (x : outcome A) (f : A -> outcome B) : outcome B := match x with Next a => f a | Ub => Ub | Stuck => Stuck end.

  (** T: [sz] bytes *)
  Inductive op :=
    | Clear | Reserve (n : nat) | Resize (n : nat) | ResizeFill (n : nat) | ResizeFillV (n : nat) (x : list cell)
    | Push (x : list cell)      (* push_back, emplace_back of something outside the array *)
    | PushOwn (i : nat)         (* push_back(a[i]) *)
    | Pop | Insert (xs : list (list cell)) | InsertAt (k : nat) (xs : list (list cell))
    | AssignN (n : nat) (x : list cell) | Assign (xs : list (list cell)).

  (** :283-289 *)
  Definition push (x : list cell) (a : arr) : outcome arr :=
    bind (if fin a =? stored a then reserve1 a else Next a) (fun a =>
    bind (write (fin a) x a) (fun a => Next (set_fin (fin a + sz) a))).
  (** The same; the reference is read after reserve(). *)
  Definition push_own (i : nat) (a : arr) : outcome arr :=
    if fin a =? stored a then Ub else push (at_ a i) a.
  (** :324-328 *)
  Definition insert_assume_reserved (xs : list (list cell)) (a : arr) : outcome arr :=
    bind (write (fin a) (concat xs) a) (fun a => Next (set_fin (fin a + length (concat xs)) a)).
  (** :293-300 *)
  Definition insert (xs : list (list cell)) (a : arr) : outcome arr :=
    let required := size a + length xs in
    bind (if capacity a <? required then reserve (bit_ceil required) a else Next a) (insert_assume_reserved xs).
  (** :302-322 *)
  Definition insert_at (k : nat) (xs : list (list cell)) (a : arr) : outcome arr :=
    let required := size a + length xs in
    let to_copy := length xs * sz in
    let to_move := (size a - k) * sz in
    bind (if capacity a <? required then reserve (bit_ceil required) a else Next a) (fun a =>
    bind (if to_move =? 0 then Next a else write (fin a + to_copy - to_move) (firstn to_move (skipn (fin a - to_move) (content a))) a) (fun a =>
    bind (write (fin a - to_move) (concat xs) a) (fun a => Next (set_fin (fin a + to_copy) a)))).
  (** :96-99 *)
  Definition resize (n : nat) (a : arr) : outcome arr := bind (reserve n a) (fun a => Next (set_fin (n * sz) a)).
  (** :106-113 *)
  Definition resize_fill (n : nat) (a : arr) : outcome arr :=
    bind (if size a <? n then bind (reserve n a) (fun b => write (fin b) (repeat (Some 0%N) (n - size a)) b) else Next a)
         (fun a => Next (set_fin (n * sz) a)).
  (** :274-281 *)
  Definition resize_fill_v (n : nat) (x : list cell) (a : arr) : outcome arr :=
    bind (if size a <? n then bind (reserve n a) (fun b => write (fin b) (concat (repeat x (n - size a))) b) else Next a)
         (fun a => Next (set_fin (n * sz) a)).
  (** :330-333 *)
  Definition assign_n (n : nat) (x : list cell) (a : arr) : outcome arr :=
    bind (resize n a) (fun a => write 0 (concat (repeat x n)) a).
  (** :335-343 *)
  Definition assign (xs : list (list cell)) (a : arr) : outcome arr :=
    let required := length xs in
    bind (if capacity a <? required then reserve (bit_ceil required) a else Next a) (fun a =>
    bind (write 0 (concat xs) a) (fun a => Next (set_fin (required * sz) a))).

  Definition elem (x : list cell) : bool := length x =? sz.
  (** What the caller has to provide: objects of type T, indices in range. *)
  Definition pre (o : op) (a : arr) : bool :=
    match o with
    | Clear | Reserve _ | Resize _ | ResizeFill _ => true
    | ResizeFillV _ x | Push x | AssignN _ x => elem x
    | PushOwn i => i <? size a
    | Pop => 0 <? size a
    | Insert xs | Assign xs => forallb elem xs
    | InsertAt k xs => (k <=? size a) && forallb elem xs
    end.
  Definition run (o : op) (a : arr) : outcome arr :=
    if pre o a
    then match o with
         | Clear => Next (set_fin 0 a)                    (* :87-89 *)
         | Reserve n => reserve n a
         | Resize n => resize n a
         | ResizeFill n => resize_fill n a
         | ResizeFillV n x => resize_fill_v n x a
         | Push x => push x a
         | PushOwn i => push_own i a
         | Pop => Next (set_fin (fin a - sz) a)           (* :300-302 *)
         | Insert xs => insert xs a
         | InsertAt k xs => insert_at k xs a
         | AssignN n x => assign_n n x a
         | Assign xs => assign xs a
         end
    else Stuck.

  (** ** Several arrays *)
  (** Constructors, :195-217, :223-225 *)
  Inductive ctor := CEmpty (r : nat) | CSized (n r : nat) | CFill (n : nat) (x : list cell) (r : nat) | CRange (xs : list (list cell)) (r : nat).
  Definition empty (r : nat) : arr := mk None 0 0 r.
  Definition construct (c : ctor) : outcome arr :=
    match c with
    | CEmpty r => Next (empty r)
    | CSized n r => Next (set_fin (n * sz) (alloc (min_mem n) (empty r)))
    | CFill n x r => if elem x then assign_n n x (alloc (min_mem n) (empty r)) else Stuck
    | CRange xs r => if forallb elem xs then insert xs (alloc (min_mem (length xs)) (empty r)) else Stuck
    end.
  (** swap: pointers only, :124-129 *)
  Definition swap_in (a b : arr) : arr := mk (bytes b) (fin b) (blk b) (mr a).

  Inductive lab :=
    | On (i : nat) (o : op)
    | Move (i j : nat)          (* arr[j] = std::move(arr[i]) (:227-230), swap *)
    | Renew (j : nat) (c : ctor)  (* arr[j] is destroyed, and constructed anew *)
    | MoveNew (i j : nat).      (* ... from std::move(arr[i]) *)
  Definition step (s : list arr) (l : lab) : outcome (list arr) :=
    match l with
    | On i o => match nth_error s i with Some a => bind (run o a) (fun b => Next (set i b s)) | None => Stuck end
    | Move i j =>
        match nth_error s i, nth_error s j with
        | Some a, Some b => if i =? j then Next s else Next (set i (swap_in a b) (set j (swap_in b a) s))
        | _, _ => Stuck
        end
    | Renew j c =>
        match nth_error s j with
        | Some b => bind (dealloc b) (fun _ => bind (construct c) (fun b => Next (set j b s)))
        | None => Stuck
        end
    | MoveNew i j =>
        match nth_error s i, nth_error s j with
        | Some a, Some b =>
            if i =? j then Stuck
            else bind (dealloc b) (fun _ => let b := empty 0 in Next (set i (swap_in a b) (set j (swap_in b a) s)))
        | _, _ => Stuck
        end
    end.
  (** [n] arrays that use the default resource. *)
  Definition init (n : nat) : list arr := repeat (empty 0) n.
End T.
