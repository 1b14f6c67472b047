(** Model of ReadProcFile (/repo/io/proc_reader.cc:27-82), over the model of base::IoBuf.

    The file is its remaining bytes. Each call of read(2) is answered by one element of a list: at most so
    many bytes (never none while bytes and room are left), or an error. *)
From Verif Require Import Util IoBufModel LineModel IniModel.
Open Scope N_scope.

Inductive rans := RdMax (k : N) | RdErr (e : N).
Inductive pres := PDone (cbs : list (list N * list N)) | PErr (e : N) (cbs : list (list N * list N)) | PUb | PMore.

(** The bytes of the input; reading an indeterminate one is UB. *)
Fixpoint cells (l : list cell) : option (list N) :=
  match l with
  | [] => Some []
  | None :: _ => None
  | Some b :: l' => match cells l' with Some x => Some (b :: x) | None => None end
  end.
(** line.find(c) and the two parts, proc_reader.cc:66-70 *)
Fixpoint find_sep (c : N) (l : list N) : option (list N * list N) :=
  match l with
  | [] => None
  | b :: l' => if b =? c then Some ([], l')
               else match find_sep c l' with Some (x, y) => Some (b :: x, y) | None => None end
  end.

Section Proc.
  Variable c : N.      (* the separator *)

  (** The inner loop, proc_reader.cc:47-77; [fuel] bounds the number of lines. [hs] is header_skipped. *)
  Fixpoint inner (fuel : nat) (b : iobuf) (hs : bool) (out : list (list N * list N))
      : option (iobuf * bool * list (list N * list N)) :=
    match fuel with
    | O => None
    | S fuel =>
      match cells (InputBuffer b) with
      | None => None
      | Some input =>
        match cut input with
        | None =>                                                          (* :50-56 *)
          if AppendLen b =? 0 then
            match EnsureCapacity (wrap (cap b * 2)) b with Some b' => Some (b', hs, out) | None => None end
          else Some (b, hs, out)
        | Some (line, _) =>
          if negb hs then                                                  (* :60-64 *)
            match ConsumeInput (len line + 1) b with Some b' => inner fuel b' true out | None => None end
          else match find_sep c line with                                  (* :66-76 *)
               | None => Some (b, hs, out)
               | Some (k, v) =>
                 match ConsumeInput (len line + 1) b with
                 | Some b' => inner fuel b' hs (out ++ [(k, ltrim v)])
                 | None => None
                 end
               end
        end
      end
    end.
  (** The outer loop, proc_reader.cc:35-79 *)
  Fixpoint outer (rs : list rans) (file : list N) (b : iobuf) (hs : bool) (out : list (list N * list N)) : pres :=
    match rs with
    | [] => PMore
    | RdErr e :: _ => PErr e out
    | RdMax k :: rs' =>
      let bs := take (N.min k (AppendLen b)) file in
      if len bs =? 0 then PDone out
      else match FillAndCommit bs b with
           | None => PUb
           | Some b1 => match inner (S (length (InputBuffer b1))) b1 hs out with
                        | None => PUb
                        | Some (b2, hs', out') => outer rs' (drop (len bs) file) b2 hs' out'
                        end
           end
    end.
  Definition ReadProcFile (skip_header : bool) (rs : list rans) (file : list N) : pres :=
    match NewIoBuf 512 with Some b => outer rs file b (negb skip_header) [] | None => PUb end.
End Proc.
