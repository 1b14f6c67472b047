(** C25 - ini::Parse. Grammar in IniSpec.v. *)
From Verif Require Import Util IoStreamModel LineModel LineSpec LineProof IniModel IniSpec IniProof.
Open Scope N_scope.

(** Every line has exactly one meaning. *)
Theorem ini_grammar_total : forall l, exists i, means l i /\ forall j, means l j -> j = i.
Proof. exact ini_means_pf. Qed.
Print Assumptions ini_grammar_total.

(** For every text: the result has, for every section and key, the value of the last entry for that key in
    that section, and exactly the sections that the text names (and the nameless one, if entries precede
    the first header). Excluded: a section header that is followed by blanks and a comment, and the
    patterns of reads for which the line reader itself fails (C24). *)
Theorem ini_parse_partial : forall chunks n its,
  proper ini_page chunks -> full_reads ini_page chunks -> no_split_crlf chunks ->
  short_lines ini_limit (concat chunks) -> Forall2 means (lines (concat chunks)) its ->
  Forall (fun l => ~ header_blank_comment l) (lines (concat chunks)) -> (length (lines (concat chunks)) < n)%nat ->
  exists c, Parse n (source chunks) = IniOk c /\
    (forall sec key, get c sec key = value (rev its) sec key) /\
    (forall sec, has c sec = true <-> exists_section its sec).
Proof. exact ini_parse_pf. Qed.
Print Assumptions ini_parse_partial.

(** The exclusion is needed: of "[a]" LF "[b] ;x" LF "k=1" the second header is ignored, and the entry is
    filed under a. *)
Theorem ini_header_comment_refuted : exists text its c,
  Forall2 means (lines text) its /\ Parse 9 (source [text]) = IniOk c /\
  value (rev its) [98] [107] = Some [49] /\ get c [98] [107] = None /\ get c [97] [107] = Some [49].
Proof. exact ini_header_comment_refuted_pf. Qed.
Print Assumptions ini_header_comment_refuted.

(** Non-vacuity: " z = 0 ;c" LF LF "[ s ]" CR LF "k= v 1 " LF "k=2#" LF "junk" LF "[s]" LF "m==". *)
Example ini_demo : let text := [32;122;32;61;32;48;32;59;99;10; 10; 91;32;115;32;93;13;10; 107;61;32;118;32;49;32;10;
    107;61;50;35;10; 106;117;110;107;10; 91;115;93;10; 109;61;61] in
  exists its c, proper ini_page [text] /\ full_reads ini_page [text] /\ no_split_crlf [text] /\
    short_lines ini_limit (concat [text]) /\ Forall2 means (lines text) its /\
    Forall (fun l => ~ header_blank_comment l) (lines text) /\ Parse 10 (source [text]) = IniOk c /\
    its = [IEnt [122] [48]; INone; ISec [115]; IEnt [107] [118;32;49]; IEnt [107] [50]; INone; ISec [115]; IEnt [109] [61]] /\
    get c [] [122] = Some [48] /\ get c [115] [107] = Some [50] /\ get c [115] [109] = Some [61] /\ get c [115] [122] = None.
Proof. exact ini_demo_pf. Qed.

(** A failed read is reported. *)
Theorem ini_error : forall c e rs n, 0 < len c < ini_page -> ~ In LF c -> Parse (S (S n)) (RData c :: RErr e :: rs) = IniErr e.
Proof. exact ini_error_pf. Qed.
Print Assumptions ini_error.
