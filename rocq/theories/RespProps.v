(** C42: the RESP parser writes only inside its buffers and parses independently of chunking. Property 42 of properties.jsonl.

    [exec feed start chunks]: a connection that reads the chunks one after the other and parses until more input is needed; [Ub] if
    the parser writes outside a block or reads a string the caller dropped. [wires cs] is what a client sends for the commands [cs]. *)
From Verif Require Import Util Conc RespModel RespSpec RespProof.

(** Any commands, cut anywhere except inside an argument of an array: the commands are parsed, nothing is undefined. The last
    command may be late: if its last byte comes alone. *)
Theorem resp_partial cs chunks : Forall valid cs -> concat chunks = wires cs -> (forall k, cut cs (concat (firstn k chunks))) ->
  exists s late, exec feed start chunks = Next s /\ got s ++ late = map (fun c => map Some (value c)) cs /\ (late = [] \/ length late = 1 /\ buf s = [10%N]).
Proof. exact (resp_partial_pf cs chunks). Qed.
Print Assumptions resp_partial.

(** Cut inside an argument: 40 bytes of an argument of 100 are kept in a block of 100 bytes, which CacheState() replaces with one of
    40 bytes; the other 60 are written behind it. *)
Definition big : cmd := Arr [49]%N [([49; 48; 48]%N, repeat 97%N 100)].
Theorem resp_overflow_refuted : exists cs chunks, Forall valid cs /\ concat chunks = wires cs /\ exec feed start chunks = Ub.
Proof.
  exists [big], [firstn 50 (wire big); skipn 50 (wire big)]. split; [|split].
  - constructor; [|constructor]. cbn [valid big]. split; [easy|]. split. { split; [easy|]. split; [cbn; lia|]. split; [repeat constructor|reflexivity]. }
    split; [cbn; lia|]. constructor; [|constructor]. split; [|discriminate]. split; [easy|]. split; [cbn; lia|]. split; [repeat constructor|reflexivity].
  - reflexivity.
  - vm_compute. reflexivity.
Qed.
Print Assumptions resp_overflow_refuted.
(** Cut between the length and the argument, and then before the next one: the argument is not copied, and the command the caller
    gets has a view into a string that the caller was told it may drop. *)
Definition two : cmd := Arr [50]%N [([51]%N, [97; 98; 99]%N); ([51]%N, [120; 121; 122]%N)].
Theorem resp_dangling_refuted : exists cs chunks s, Forall valid cs /\ concat chunks = wires cs /\ exec feed start chunks = Next s /\
  map value cs = [[[97; 98; 99]; [120; 121; 122]]]%N /\ got s = [[None; Some [120; 121; 122]]]%N.
Proof.
  exists [two], [firstn 8 (wire two); firstn 6 (skipn 8 (wire two)); skipn 14 (wire two)]. eexists. split; [|split; [|split; [|split]]].
  - constructor; [|constructor]. cbn [valid two]. split; [easy|]. split. { split; [easy|]. split; [cbn; lia|]. split; [repeat constructor|reflexivity]. }
    split; [cbn; lia|]. repeat constructor; try easy; cbn; lia.
  - reflexivity.
  - vm_compute. reflexivity.
  - reflexivity.
  - reflexivity.
Qed.
Print Assumptions resp_dangling_refuted.
(** The late command: PING\r and then \n. The client has sent a whole command and gets no answer. *)
Theorem resp_late_refuted : exists l chunks s, valid (Line l) /\ concat chunks = wire (Line l) /\ exec feed start chunks = Next s /\ got s = [].
Proof.
  exists [80; 73; 78; 71; 13]%N, [[80; 73; 78; 71; 13]; [10]]%N. eexists. split; [|split; [|split]].
  - split; cbn; lia.
  - reflexivity.
  - vm_compute. reflexivity.
  - reflexivity.
Qed.
Print Assumptions resp_late_refuted.

(** Non-vacuity: a line cut in a word, and an array cut in two lengths. *)
Example resp_met_cmds : list cmd := [Line [71; 69; 84; 32; 107; 13]%N; two].
Example resp_met_chunks : list bytes := [[71; 69]; [84; 32; 107; 13; 10; 42; 50]; [13; 10; 36; 51; 13; 10; 97; 98; 99; 13; 10; 36]; [51; 13; 10; 120; 121; 122; 13; 10]]%N.
Example resp_met : Forall valid resp_met_cmds /\ concat resp_met_chunks = wires resp_met_cmds /\ (forall k, cut resp_met_cmds (concat (firstn k resp_met_chunks))) /\
  exists s, exec feed start resp_met_chunks = Next s /\ got s = [[Some [71; 69; 84]; Some [107]]; [Some [97; 98; 99]; Some [120; 121; 122]]]%N.
Proof.
  split; [|split; [reflexivity|split]].
  - constructor; [|constructor; [|constructor]].
    + split; cbn; lia.
    + cbn [valid two]. split; [easy|]. split. { split; [easy|]. split; [cbn; lia|]. split; [repeat constructor|reflexivity]. }
      split; [cbn; lia|]. repeat constructor; try easy; cbn; lia.
  - intros [|[|[|[|k]]]].
    + right. exists [], (Line [71; 69; 84; 32; 107; 13]%N), [two], []. split; [reflexivity|]. split; [|reflexivity]. now exists [71; 69; 84; 32; 107; 13; 10]%N.
    + right. exists [], (Line [71; 69; 84; 32; 107; 13]%N), [two], [71; 69]%N. split; [reflexivity|]. split; [|reflexivity]. now exists [84; 32; 107; 13; 10]%N.
    + right. exists [Line [71; 69; 84; 32; 107; 13]%N], two, [], [42; 50]%N. split; [reflexivity|]. split; [|reflexivity]. left. now exists [13; 10]%N.
    + right. exists [Line [71; 69; 84; 32; 107; 13]%N], two, [], (head 42 [50] ++ item ([51], [97; 98; 99]) ++ [36])%N. split; [reflexivity|]. split; [|reflexivity]. right.
      exists [([51], [97; 98; 99])]%N, ([51], [120; 121; 122])%N, [], [36]%N. split; [reflexivity|]. split; [|reflexivity]. now exists [51; 13; 10]%N.
    + left. destruct k; reflexivity.
  - eexists. split; [vm_compute; reflexivity|reflexivity].
Qed.
