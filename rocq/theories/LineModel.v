(** Model of io::LineReader (/repo/io/line_reader.h:16-92, /repo/io/line_reader.cc:42-146).

    The buffer is the list of its unread bytes, [next_, end_). The source is the list of the answers it
    gives (as in IoStreamModel.v); after the last one it answers end of stream. Not modelled: the NUL
    that is written over the end of the line, line_num(), the caller's choice of the scratch string. *)
From Verif Require Import Util IoStreamModel.
Open Scope N_scope.

Definition LF : N := 10.
Definition CR : N := 13.
Definition EMSGSIZE : N := 90.

(** line_reader.h:77-85: next_..end_; is end_ the last place of the page (eof_page)?; status_ *)
Record lreader := mk_lr { rest : list N; full : bool; answers : list rresp }.
Inductive lres := NLine (l : list N) | NEnd | NErr (e : N) | NBad.

(** rawmemchr / memchr, line_reader.cc:49-53: the bytes before the first LF and those after it. *)
Fixpoint cut (l : list N) : option (list N * list N) :=
  match l with
  | [] => None
  | b :: l' => if b =? LF then Some ([], l')
               else match cut l' with Some (x, y) => Some (b :: x, y) | None => None end
  end.
(** line_reader.cc:57-61 *)
Fixpoint strip_cr (l : list N) : list N :=
  match l with
  | [] => []
  | [b] => if b =? CR then [] else [b]
  | b :: l' => b :: strip_cr l'
  end.

Section LR.
  Variable page : N.    (* page_size_ - 1, the space offered to ReadSome: line_reader.cc:104-105 *)
  Variable limit : N.   (* line_len_limit_ *)

  (** LineReader::Next, line_reader.cc:42-146; [scr] is *scratch, [None] when not touched. *)
  Definition scr_list (scr : option (list N)) : list N := match scr with Some s => s | None => [] end.
  Definition break_ (scr : option (list N)) : lres :=          (* :126-134 *)
    match scr with Some s => NLine s | None => NEnd end.
  Fixpoint next (r : list N) (f : bool) (scr : option (list N)) (rs : list rresp) {struct rs} : lres * lreader :=
    match cut r with
    | Some (line, r') => (NLine (scr_list scr ++ strip_cr line), mk_lr r' f rs)      (* :54-73 *)
    | None =>
      let read scr :=                                                                (* :104-124 *)
        match rs with
        | [] => (break_ scr, mk_lr [] f [])
        | RErr e :: rs' => (NErr e, mk_lr [] f rs')
        | RData bs :: rs' =>
          if len bs =? 0 then (break_ scr, mk_lr [] f rs')
          else if page <? len bs then (NBad, mk_lr [] f rs')
          else next bs (len bs =? page) scr rs'
        end in
      match r with
      | [] => read scr
      | _ =>                                                                         (* :75-102 *)
        if limit <=? len r + len (scr_list scr) then (NErr EMSGSIZE, mk_lr r f rs)
        else let s := scr_list scr ++ r in
             if f then read (Some s) else (NLine s, mk_lr [] f rs)
      end
    end.
  Definition Next (s : lreader) : lres * lreader := next (rest s) (full s) None (answers s).
  (** Init, line_reader.cc:27-34 *)
  Definition lr_init (rs : list rresp) : lreader := mk_lr [] false rs.
  (** The results of [n] calls. *)
  Fixpoint calls (n : nat) (s : lreader) : list lres :=
    match n with O => [] | S m => let (x, s') := Next s in x :: calls m s' end.
End LR.
