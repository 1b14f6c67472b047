(** C45: ZStdSource. All decoders that keep the contract, upstream sources without errors, and read sizes. *)
From Verif Require Import Util ZstdModel ZstdSpec ZstdProof.

Section Z.
  Variable D : Type.
  Variable dec : D -> list N -> nat -> option (D * nat * list N).
  Variable F : list N -> list N.
  Variable d0 : D.
  Hypothesis C : contract D dec F d0.
  (** More input can only add output. *)
  Hypothesis M : forall x y, prefix x y -> prefix (F x) (F y).

  (** What was delivered is a prefix of what can be decoded. *)
  Theorem zstd_sound a ks z rs : honest a = true -> reads D dec (Z d0 [] a) ks = (z, rs) -> forallb fine rs = true -> prefix (delivered rs) (F (content a)).
  Proof. destruct C as (R & R0 & RF & Rd). exact (zstd_sound_pf0 D dec F d0 R R0 RF Rd M a ks z rs). Qed.
  (** Partial: all of it was delivered once ReadSome returned less than was asked for, but something. *)
  Theorem zstd_entire_partial a ks k z rs o : honest a = true -> reads D dec (Z d0 [] a) (ks ++ [k]) = (z, rs ++ [Got o]) -> forallb fine rs = true -> 0 < length o < k ->
    delivered (rs ++ [Got o]) = F (content a).
  Proof. destruct C as (R & R0 & RF & Rd). exact (zstd_short_pf0 D dec F d0 R R0 RF Rd M a ks k z rs o). Qed.
  (** Calls come to an end, and the CHECK does not fail; up to the first error of the decoder. *)
  Theorem zstd_defined a ks z rs : honest a = true -> reads D dec (Z d0 [] a) ks = (z, rs) ->
    forall i, forallb fine (firstn i rs) = true -> nth_error rs i <> Some CheckFailed /\ nth_error rs i <> Some Fuel.
  Proof. destruct C as (R & R0 & RF & Rd). exact (zstd_defined_pf0 D dec F d0 R R0 RF Rd a ks z rs). Qed.
End Z.
Print Assumptions zstd_sound.
Print Assumptions zstd_entire_partial.
Print Assumptions zstd_defined.
(** The contract is met by a decoder that makes two bytes of each and holds one back if there is no room. *)
Theorem zstd_decoder : contract (option N) double twice None /\ forall x y, prefix x y -> prefix (twice x) (twice y).
Proof. exact (conj double_contract twice_mono). Qed.
(** Refuted: what the decoder holds back when all the input is taken is never asked for. *)
Theorem zstd_entire_refuted : ~ entire (option N) double twice None.
Proof. exact zstd_refuted_pf. Qed.
Print Assumptions zstd_decoder.
Print Assumptions zstd_entire_refuted.

Example zstd_met : reads (option N) double (Z None [] [Bytes [5%N; 6%N]; Bytes [7%N]]) ([3] ++ [5]) = (Z None [] [], [Got [5%N; 5%N; 6%N]] ++ [Got [6%N; 7%N; 7%N]]).
Proof. reflexivity. Qed.
