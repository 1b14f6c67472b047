(** io::ZStdSource: io/zstd_sinksource.cc.

    The decoder (ZSTD_decompressStream) is any function: from its state, the input and the room in the output it makes a new
    state, the number of bytes it took and the bytes it made; [None] is an error. The upstream source answers from a list. *)
From Verif Require Import Util.

Section Z.
  Variable D : Type.
  Variable dec : D -> list N -> nat -> option (D * nat * list N).

  (** An answer of upstream's Read: an error, or bytes; no bytes is the end. The end of the list is also the end. *)
  Inductive answer := Fail | Bytes (l : list N).
  (** zstd_sinksource.h:19-23. [buf]: buf_[offs_ .. buf_len_) *)
  Record zst := Z { st : D; buf : list N; up : list answer }.
  Inductive result := Got (l : list N) | Error | CheckFailed | Fuel.

  (** ReadSome, zstd_sinksource.cc:31-64, for an iovec of [k] bytes. [acc]: what is in the output. *)
  Fixpoint loop (fuel : nat) (z : zst) (k : nat) (acc : list N) : zst * result :=
    match fuel with
    | O => (z, Fuel)
    | S f =>
        let refill := match buf z with
                      | [] => match up z with
                              | [] => inl (z, Got acc)
                              | Fail :: r => inl (Z (st z) [] r, Error)
                              | Bytes [] :: r => inl (Z (st z) [] r, Got acc)
                              | Bytes l :: r => inr (Z (st z) l r)
                              end
                      | _ => inr z
                      end in
        match refill with
        | inl res => res
        | inr z =>
            match dec (st z) (buf z) (k - length acc) with
            | None => (z, Error)
            | Some (d, c, o) =>
                let z := Z d (skipn c (buf z)) (up z) in
                let out := acc ++ o in
                if negb (length (buf z) =? 0) && negb (length out =? k) then (z, CheckFailed)   (* :58-60 *)
                else if length out <? k then loop f z k out else (z, Got out)
            end
        end
    end.
  Definition read_some (z : zst) (k : nat) : zst * result := loop (2 + length (up z)) z k [].

  (** Calls with the given sizes: what each returns. *)
  Fixpoint reads (z : zst) (ks : list nat) : zst * list result :=
    match ks with
    | [] => (z, [])
    | k :: ks => let '(z, r) := read_some z k in let '(z, rs) := reads z ks in (z, r :: rs)
    end.
End Z.
Arguments Z {D}. Arguments st {D}. Arguments buf {D}. Arguments up {D}.
