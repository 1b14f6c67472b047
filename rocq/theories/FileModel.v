(** Model of reading files (/repo/io/file.cc:29-57, 135-149, 285-339 and /repo/io/file_util.cc:94-127).

    The file is its bytes, which do not change. Each pread(2)/preadv(2) is answered by one element of a list:
    everything that was asked for and is there, at most so many bytes (at least one when there is one), EINTR,
    or another error. The buffers of an iovec array are given by their sizes; bytes are delivered to them in
    order, so one list of delivered bytes stands for all of them. A store beyond a buffer is UB. *)
From Verif Require Import Util.
Open Scope N_scope.

Inductive pans := PFull | PShort (k : N) | PIntr | PFail (e : N).
Inductive fres := FOk (n : N) (bytes : list N) | FErr (e : N) | FUb | FMore.

Definition sum (v : list N) : N := fold_right N.add 0 v.
(** What pread delivers when [asked] bytes are asked for at [off]. *)
Definition got (a : pans) (file : list N) (off asked : N) : list N :=
  match a with
  | PFull => take asked (drop off file)
  | PShort k => take (N.min (N.max 1 k) asked) (drop off file)
  | _ => []
  end.
(** The loop at file.cc:314-318: pass the entries that are complete; the bytes in the next one. *)
Fixpoint pass (v : list N) (read : N) : list N * N :=
  match v with
  | [] => ([], read)
  | l :: v' => if l <=? read then pass v' (read - l) else (v, read)
  end.

(** io::ReadAllPosix (file.cc:293-339) with io::ReadAll (file.cc:29-57) inlined: [m = None] is the call of
    preadv at :299; [m = Some (count, rd)] is the call of pread at :34 for the rest ([count] bytes) of the
    first entry of [v], of which [rd] = ReadAll's read_total are read. ReadAll does not decrement its [len]
    (= count). [tot] is ReadAllPosix's read_total, [acc] the delivered bytes. *)
Fixpoint posix (file : list N) (off : N) (rs : list pans) (m : option (N * N)) (v : list N) (tot : N) (acc : list N) : fres * list pans :=
  match rs with
  | [] => (FMore, [])
  | a :: rs' =>
    match a with
    | PIntr => posix file off rs' m v tot acc
    | PFail e => (FErr e, rs')
    | _ =>
      match m with
      | None =>
        let bs := got a file (off + tot) (sum v) in
        if len bs =? 0 then (FOk tot acc, rs')                               (* :302-303 *)
        else
          let tot' := tot + len bs in
          let (v', read) := pass v (len bs) in
          if 0 <? read then
            match v' with
            | l :: _ => posix file off rs' (Some (l - read, 0)) v' tot' (acc ++ bs)
            | [] => (FUb, rs')
            end
          else match v' with
               | [] => (FOk tot' (acc ++ bs), rs')
               | _ => posix file off rs' None v' tot' (acc ++ bs)
               end
      | Some (count, rd) =>
        let bs := got a file (off + tot + rd) count in
        if count <? rd + len bs then (FUb, rs')
        else if len bs =? 0 then (FOk (tot + rd) acc, rs')                   (* :37-38; :328-330: rd < count *)
        else
          let rd' := rd + len bs in
          if rd' =? count then
            match v with                                                    (* :332-334 *)
            | [] => (FUb, rs')
            | _ :: v' => match v' with
                         | [] => (FOk (tot + rd') (acc ++ bs), rs')
                         | _ => posix file off rs' None v' (tot + rd') (acc ++ bs)
                         end
            end
          else posix file off rs' (Some (count, rd')) v tot (acc ++ bs)
      end
    end
  end.

Definition EDOM : N := 33.
(** PosixReadFile::Read, file.cc:135-149; [fsize] is st_size at the time of opening. *)
Definition FileRead (fsize : N) (file : list N) (rs : list pans) (off : N) (v : list N) : fres * list pans :=
  match v with
  | [] => (FOk 0 [], rs)
  | _ => if fsize <? off then (FErr EDOM, rs) else posix file off rs None v 0 []
  end.
(** FileSource::ReadSome, file.cc:285-291: result, new offset *)
Definition SourceRead (fsize : N) (file : list N) (rs : list pans) (off : N) (v : list N) : fres * list pans * N :=
  let (r, rs') := FileRead fsize file rs off v in
  (r, rs', match r with FOk n _ => off + n | _ => off end).

(** ReadFileToString, file_util.cc:101-125: [val] is value up to offset, [sz] is value.size(). [fuel] bounds the
    number of rounds. *)
Fixpoint rfts (fuel : nat) (fsize : N) (file : list N) (rs : list pans) (val : list N) (sz : N) : fres :=
  match fuel with
  | O => FMore
  | S fuel =>
    let want := sz - len val in
    match FileRead fsize file rs (len val) [want] with
    | (FOk n bs, rs') => if n <? want then FOk (len val + n) (val ++ bs)
                         else rfts fuel fsize file rs' (val ++ bs) (sz * 2)
    | (r, _) => r
    end
  end.
Definition ReadFileToString (fsize : N) (file : list N) (rs : list pans) : fres := rfts (S (length rs)) fsize file rs [] 4096.
