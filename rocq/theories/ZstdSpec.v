(** The zstd streaming contract and what the source is to deliver. *)
From Verif Require Import Util ZstdModel.

Section Z.
  Variable D : Type.
  Variable dec : D -> list N -> nat -> option (D * nat * list N).
  Definition prefix (a b : list N) : Prop := exists c, b = a ++ c.
  (** What zstd.h says of ZSTD_decompressStream. [F x] are all the bytes that can be decoded from the input [x]. There is a
      relation R between the decoder's state, the input taken and the output made so far. A call takes a part of the input, and
      makes no more than there is room for; what was made is a prefix of what can be made; and if there is room left, all the
      input was taken and everything that can be decoded was made ("if output.pos < output.size, decoder has flushed
      everything it could"). *)
  Definition contract (F : list N -> list N) (d0 : D) : Prop := exists R : D -> list N -> list N -> Prop,
    R d0 [] [] /\
    (forall d x y, R d x y -> prefix y (F x)) /\
    forall d x y i k d' c o, R d x y -> dec d i k = Some (d', c, o) ->
      c <= length i /\ length o <= k /\ R d' (x ++ firstn c i) (y ++ o) /\
      (length o < k -> c = length i /\ y ++ o = F (x ++ i)).
  (** All the input there is, if there are no errors. *)
  Fixpoint content (a : list answer) : list N := match a with Bytes (b :: l) :: r => (b :: l) ++ content r | _ => [] end.
  Fixpoint honest (a : list answer) : bool := match a with [] => true | Bytes [] :: r => match r with [] => true | _ => false end | Bytes _ :: r => honest r | Fail :: _ => false end.
  Fixpoint delivered (rs : list result) : list N := match rs with Got l :: r => l ++ delivered r | _ :: r => delivered r | [] => [] end.
  Definition fine (r : result) : bool := match r with Got _ => true | _ => false end.

  (** C45: reading until ReadSome returns 0 yields everything. *)
  Definition entire (F : list N -> list N) (d0 : D) : Prop := forall a ks k z rs,
    honest a = true -> reads D dec (Z d0 [] a) (ks ++ [k]) = (z, rs ++ [Got []]) -> 0 < k -> Forall (fun k => 0 < k) ks -> forallb fine rs = true -> delivered rs = F (content a).
End Z.
