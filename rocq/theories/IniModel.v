(** Model of io::ini::Parse (/repo/io/line_reader.cc:143-182).

    The two nested unordered_maps are association lists without order of their own. The lines come from
    LineModel.v's [calls]; [for (line : lr)] stops at the first answer that is not a line. *)
From Verif Require Import Util IoStreamModel LineModel.
Open Scope N_scope.

(** absl::ascii_isspace: 9..13 and 32 *)
Definition isspace (b : N) : bool := ((9 <=? b) && (b <=? 13)) || (b =? 32).
(** absl::StripLeadingAsciiWhitespace *)
Fixpoint ltrim (l : list N) : list N :=
  match l with b :: l' => if isspace b then ltrim l' else l | [] => [] end.
(** absl::StripAsciiWhitespace *)
Definition strip (l : list N) : list N := rev (ltrim (rev (ltrim l))).
Definition SEMI : N := 59.
Definition HASH : N := 35.
Definition LBR : N := 91.
Definition RBR : N := 93.
Definition EQS : N := 61.
(** line.substr(0, line.find_first_of(";#")), line_reader.cc:150-151 *)
Fixpoint uncomment (l : list N) : list N :=
  match l with b :: l' => if (b =? SEMI) || (b =? HASH) then [] else b :: uncomment l' | [] => [] end.
(** line.find('=') and the two substr, line_reader.cc:162-168 *)
Fixpoint split_eq (l : list N) : option (list N * list N) :=
  match l with
  | [] => None
  | b :: l' => if b =? EQS then Some ([], l')
               else match split_eq l' with Some (x, y) => Some (b :: x, y) | None => None end
  end.

Definition seqb (a b : list N) : bool := if list_eq_dec N.eq_dec a b then true else false.
(** unordered_map: operator[] with assignment, operator[] creating an empty value. *)
Definition amap (V : Type) := list (list N * V).
Fixpoint aget {V} (m : amap V) (k : list N) : option V :=
  match m with [] => None | (k', v) :: m' => if seqb k k' then Some v else aget m' k end.
Fixpoint aset {V} (m : amap V) (k : list N) (v : V) : amap V :=
  match m with [] => [(k, v)] | (k', v') :: m' => if seqb k k' then (k', v) :: m' else (k', v') :: aset m' k v end.
Definition contents := amap (amap (list N)).
(** &result[name] *)
Definition touch (r : contents) (name : list N) : contents :=
  match aget r name with Some _ => r | None => aset r name [] end.
Definition assign (r : contents) (name k v : list N) : contents :=
  aset r name (aset (match aget r name with Some m => m | None => [] end) k v).

(** front() == '[' && back() == ']' of a nonempty view and the inside (remove_prefix(1), remove_suffix(1)),
    line_reader.cc:155-158. For a view of one byte the two tests contradict each other. *)
Definition inside (l : list N) : option (list N) :=
  match l with
  | b :: l' => if b =? LBR then match rev l' with e :: m => if e =? RBR then Some (rev m) else None | [] => None end else None
  | [] => None
  end.

(** The loop body, line_reader.cc:148-176; [cur] is *map*, nullptr before the first section or entry. *)
Definition ini_line (st : contents * option (list N)) (l : list N) : contents * option (list N) :=
  let (r, cur) := st in
  let l := uncomment (strip l) in
  match l with
  | [] => st
  | _ =>
    match inside l with
    | Some x => let name := strip x in (touch r name, Some name)
    | None =>
      match split_eq l with
      | None => st
      | Some (k, v) =>
        let '(r, name) := match cur with Some n => (r, n) | None => (touch r [], []) end in
        (assign r name (strip k) (strip v), Some name)
      end
    end
  end.
Inductive ini_res := IniOk (c : contents) | IniErr (e : N) | IniMore.
(** Parse over the answers of the line reader; [IniMore] when they were not enough to finish. *)
Fixpoint ini_loop (st : contents * option (list N)) (xs : list lres) : ini_res :=
  match xs with
  | NLine l :: xs' => ini_loop (ini_line st l) xs'
  | NEnd :: _ => IniOk (fst st)
  | NErr e :: _ => IniErr e
  | NBad :: _ | [] => IniMore
  end.
(** DEFAULT_BUF_LOG = 17 (line_reader.h:18); line_len_limit_ = -1. *)
Definition ini_page : N := 131071.
Definition ini_limit : N := two64 - 1.
Definition Parse (n : nat) (rs : list rresp) : ini_res := ini_loop ([], None) (calls ini_page ini_limit n (lr_init rs)).

(** Contents seen by the caller. *)
Definition get (c : contents) (sec key : list N) : option (list N) :=
  match aget c sec with Some m => aget m key | None => None end.
Definition has (c : contents) (sec : list N) : bool := match aget c sec with Some _ => true | None => false end.
