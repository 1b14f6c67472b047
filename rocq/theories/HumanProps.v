(** C44: ParseHumanReadableBytes. C53: printing a size and parsing it again. Every string of digits with or
    without a fraction, every suffix; every size. [other] is strtod on hexadecimal numerals, infinities and NaNs. *)
From Verif Require Import Util HumanModel HumanSpec HumanProof.
From Coq Require Import ZArith.
Local Open Scope N_scope.

Section Props.
  Variable other : list N -> option (dbl * list N).

  (** Exact for every whole number of units up to 2^53 units whose value fits in an int64_t, except odd values between 2^52 and 2^53. Full
      property: every number that fits; it is false, see below. *)
  Theorem human_exact_partial neg w r k : w <> [] -> digits w -> suffix r k ->
    dec w <= 2 ^ 53 -> dec w * 1024 ^ k < 2 ^ 63 ->
    (dec w * 1024 ^ k < 2 ^ 52 \/ dec w * 1024 ^ k mod 2 = 0) ->
    parse other (sign neg ++ w ++ r) [] = Ok (signed neg (dec w * 1024 ^ k)).
  Proof. exact (human_exact_pf other neg w r k). Qed.
  (** Whole numbers written with a fraction of zeros. *)
  Theorem human_exact_frac_partial neg w f wf r k n : w <> [] -> digits w -> fraction f wf -> suffix r k ->
    dec (w ++ wf) = n * 10 ^ len wf -> n <= 2 ^ 53 -> n * 1024 ^ k < 2 ^ 63 ->
    (n * 1024 ^ k < 2 ^ 52 \/ n * 1024 ^ k mod 2 = 0) ->
    parse other (sign neg ++ w ++ f ++ r) [] = Ok (signed neg (n * 1024 ^ k)).
  Proof. exact (human_exact_frac_pf other neg w f wf r k n). Qed.
  (** Every decimal number, with any number of digits, up to 2^63 - 2^11 bytes: the value num/den comes out with an error
      of at most 1/2 + 2^-50 (1 + num/den). *)
  Theorem human_close neg w f wf r k : w <> [] -> digits w -> fraction f wf -> suffix r k ->
    let num := dec (w ++ wf) * 1024 ^ k in let den := 10 ^ len wf in
    num <= (2 ^ 63 - 2 ^ 11) * den ->
    exists v, parse other (sign neg ++ w ++ f ++ r) [] = Ok (signed neg v) /\
      (2 ^ 50 * Z.abs (Z.of_N (v * den) - Z.of_N num) <= 2 ^ 49 * Z.of_N den + Z.of_N num + Z.of_N den)%Z.
  Proof. exact (human_close_pf other neg w f wf r k). Qed.
  (** After a decimal number, the suffixes accepted are the documented ones, and BB, Bi, BiB. *)
  Theorem human_accepts neg w f wf r : w <> [] -> digits w -> fraction f wf -> stops r ->
    parse other (sign neg ++ w ++ f ++ r) [] <> Bad <-> (exists k, suffix r k) \/ loose r.
  Proof. exact (human_accepts_pf other neg w f wf r). Qed.
  (** Finding: no number that does not fit is rejected; all of them are converted to int64_t, which is undefined. *)
  Theorem human_overflow_refuted neg w f wf r k : w <> [] -> digits w -> fraction f wf -> suffix r k ->
    2 ^ 63 * 10 ^ len wf <= dec (w ++ wf) * 1024 ^ k -> parse other (sign neg ++ w ++ f ++ r) [] = Ub.
  Proof. exact (human_over_pf other neg w f wf r k). Qed.
  (** Finding: 4503599627370497 = 2^52 + 1 is read as 2^52 + 2. *)
  Theorem human_exact_refuted : parse other [52; 53; 48; 51; 53; 57; 57; 54; 50; 55; 51; 55; 48; 52; 57; 55] [] = Ok (2 ^ 52 + 2)%Z /\
    dec [52; 53; 48; 51; 53; 57; 57; 54; 50; 55; 51; 55; 48; 52; 57; 55] = 2 ^ 52 + 1.
  Proof. split; vm_compute; reflexivity. Qed.
  (** Finding: what follows the string_view in memory is read too: "1" followed by "0K" is 10240. *)
  Theorem human_view_refuted : parse other [49] [48; 75] = Ok 10240%Z /\ parse other [49] [] = Ok 1%Z.
  Proof. split; vm_compute; reflexivity. Qed.
  (** Finding: " 1", "+1", "-+1", "1e3" and "1BiB" are accepted. *)
  Theorem human_accepts_refuted : parse other [32; 49] [] = Ok 1%Z /\ parse other [43; 49] [] = Ok 1%Z /\ parse other [45; 43; 49] [] = Ok (-1)%Z /\
    parse other [49; 101; 51] [] = Ok 1000%Z /\ parse other [49; 66; 105; 66] [] = Ok 1%Z.
  Proof. repeat split; vm_compute; reflexivity. Qed.

  (** C53. A size of at most 7.875 EiB that was printed parses to a size that differs by at most one part in 16. *)
  Theorem human_roundtrip_partial b : (Z.abs b <= 2 ^ 63 - 2 ^ 57)%Z ->
    exists b', parse other (print b) [] = Ok b' /\ (16 * Z.abs (b' - b) <= Z.abs b)%Z.
  Proof. exact (human_roundtrip_pf other b). Qed.
  (** Less than 1024 bytes, or less than 1024 of some unit and nothing over: the same size. *)
  Theorem human_roundtrip_small b : Z.abs_N b < 1024 -> parse other (print b) [] = Ok b.
  Proof. exact (human_small_pf other b). Qed.
  Theorem human_roundtrip_unit neg n k : 0 < n < 1024 -> n * 1024 ^ k < 2 ^ 63 ->
    parse other (print (signed neg (n * 1024 ^ k))) [] = Ok (signed neg (n * 1024 ^ k)).
  Proof. exact (human_print_exact_pf other neg n k). Qed.
  (** The same for flags. *)
  Theorem human_flag_partial v : (0 <= v <= 2 ^ 63 - 2 ^ 57)%Z ->
    exists v', parse_flag other (unparse_flag v) = Ok v' /\ (16 * Z.abs (v' - v) <= v)%Z.
  Proof.
    intros H. destruct (human_roundtrip_pf other v) as (v' & E & D); [rewrite Z.abs_eq by lia; lia|].
    exists v'. rewrite (Z.abs_eq v) in D by lia. split; auto. unfold parse_flag, unparse_flag. rewrite E.
    rewrite (proj2 (Z.leb_le 0 v')) by lia. reflexivity.
  Qed.
  (** Finding: a flag set to 1537 bytes comes back as 1536; one set to 2^63 - 1, and the smallest number, do not come back in a defined way. *)
  Theorem human_flag_refuted : parse_flag other (unparse_flag 1537) = Ok 1536%Z /\
    parse_flag other (unparse_flag (2 ^ 63 - 1)) = Ub /\ parse other (print (- 2 ^ 63)) [] = Ub.
  Proof. repeat split; vm_compute; reflexivity. Qed.
End Props.
Print Assumptions human_exact_partial.
Print Assumptions human_exact_frac_partial.
Print Assumptions human_close.
Print Assumptions human_accepts.
Print Assumptions human_overflow_refuted.
Print Assumptions human_exact_refuted.
Print Assumptions human_view_refuted.
Print Assumptions human_accepts_refuted.
Print Assumptions human_roundtrip_partial.
Print Assumptions human_roundtrip_small.
Print Assumptions human_roundtrip_unit.
Print Assumptions human_flag_partial.
Print Assumptions human_flag_refuted.

(** The hypotheses are met: "-12.5KiB" and "7E". *)
Example human_met : digits [49; 50] /\ fraction [46; 53] [53] /\ suffix [75; 105; 66] 1 /\ stops [75; 105; 66] /\
  suffix [69] 6 /\ dec [55] * 1024 ^ 6 < 2 ^ 63 /\ dec [55] * 1024 ^ 6 mod 2 = 0 /\
  parse (fun _ => None) [45; 49; 50; 46; 53; 75; 105; 66] [] = Ok (-12800)%Z /\ parse (fun _ => None) [55; 69] [] = Ok (7 * 2 ^ 60)%Z.
Proof.
  split; [repeat constructor; lia|]. split; [right; split; auto; repeat constructor; lia|].
  assert (S : suffix [75; 105; 66] 1) by (apply SUnitIB; [left; reflexivity|left; reflexivity]).
  split; [exact S|]. split; [exact (suffix_stops _ _ S)|]. split; [apply SUnit; cbn; tauto|].
  split; [vm_compute; reflexivity|]. split; [vm_compute; reflexivity|]. split; vm_compute; reflexivity.
Qed.
