(** C88: variables that report themselves. *)
From Verif Require Import Util Conc VarzModel VarzSpec VarzProof.
From Coq Require Import Lia.

(** Constructing and destroying variables in any order, at addresses that may be used again, never touches a dead one ... *)
Theorem varz_list_safe : forall ops, exec vstep empty ops <> Ub.
Proof. exact varz_list_safe_pf. Qed.
Print Assumptions varz_list_safe.
(** ... and Iterate reports exactly the live ones that have a name, newest first, and ends. *)
Theorem varz_list : forall ops h fuel, exec vstep empty ops = Next h -> length (live [] ops) <= fuel ->
  Iterate fuel h = Some (names (live [] ops)).
Proof. exact varz_list_pf. Qed.
Print Assumptions varz_list.
(** The newest is destroyed first, then one in the middle, and an address is used again. *)
Definition life : list vop :=
  [New 0 (Some [97%N]); New 1 (Some [98%N]); New 2 None; New 3 (Some [99%N]); Del 3; Del 1; New 3 (Some [100%N]); New 1 (Some [101%N]); Del 2].
Example varz_list_met : live [] life = [(1, Some [101%N]); (3, Some [100%N]); (0, Some [97%N])] /\
  obs (Iterate 3) (exec vstep empty life) = Some (Some [[101]; [100]; [97]]%N).
Proof. split; vm_compute; reflexivity. Qed.

(** The text of a value is JSON that means this value, however deep, if its strings need no escaping. *)
Theorem varz_format : forall v fuel, tame v -> length (Format v) <= fuel -> exists j, value fuel (Format v) = Some (j, []) /\ means v j.
Proof. exact varz_format_pf. Qed.
Print Assumptions varz_format.
Example varz_format_met :
  let v := VMap [([97], VMap [([98], VNum (-305)); ([99], VDbl [50; 46; 53])]); ([100], VMap []); ([101], VStr [120; 32])]%N in
  tame v /\ value 100 (Format v) =
    Some (JObj [([97], JObj [([98], JNum [45; 51; 48; 53]); ([99], JNum [50; 46; 53])]); ([100], JObj []); ([101], JStr [120; 32])], [])%N.
Proof.
  split; [|vm_compute; reflexivity].
  assert (H1 : forall c, (97 <= c /\ c <= 101)%N -> tame_text [c]). { intros c Hc. constructor; [repeat split; lia|constructor]. }
  constructor. apply Forall_cons; [|apply Forall_cons; [|apply Forall_cons; [|constructor]]]; cbn [fst snd]; split; try (apply H1; lia).
  - constructor. apply Forall_cons; [|apply Forall_cons; [|constructor]]; cbn [fst snd]; split; try (apply H1; lia); constructor; [discriminate|].
    repeat (apply Forall_cons; [reflexivity|]). constructor.
  - constructor. constructor.
  - constructor. apply Forall_cons; [repeat split; lia|]. apply Forall_cons; [repeat split; lia|constructor].
Qed.
(** A quote in a string is not escaped: two values, one text. A backslash makes the text unreadable. *)
Theorem varz_quote_refuted : exists v w, v <> w /\ Format v = Format w.
Proof. exact varz_quote_refuted_pf. Qed.
Print Assumptions varz_quote_refuted.
Theorem varz_backslash_refuted : exists s, ~ In 34%N s /\ forall fuel, value fuel (Format (VStr s)) = None.
Proof. exact varz_backslash_refuted_pf. Qed.
Print Assumptions varz_backslash_refuted.

(** VarzMapAverage: whatever runs at the same time, each thread reports every key it had when GetData started, once, and with
    each the sum and the count that it had at one moment of the call. *)
Theorem varz_avg : forall h1 h2 s t, exec astep avg0 (h1 ++ Get :: h2) = Next s -> ~ In Get h2 -> at_ s t = Fin ->
  NoDup (map fst (from t (res s))) /\ (forall k, In k (map fst (from t (res s))) <-> 0 < incs_on t k h1) /\
  forall e, In e (from t (res s)) -> exists p q, h2 = p ++ q /\ counts t (h1 ++ p) e.
Proof. exact varz_avg_pf. Qed.
Print Assumptions varz_avg.
Example varz_avg_met :
  obs (fun s => (at_ s 0, at_ s 1, from 0 (res s), from 1 (res s)))
    (exec astep avg0 ([Inc 0 7 3; Inc 0 8 (-1); Inc 1 7 5] ++
       Get :: [Read 0; Read 1; Inc 0 7 4; Put 1; Read 1; Put 0; Inc 0 8 2; Read 0; Inc 1 9 1; Put 0; Read 0])) =
  Some (Fin, Fin, [(7, (3%Z, 1)); (8, (1%Z, 2))], [(7, (5%Z, 1))]).
Proof. vm_compute. reflexivity. Qed.
(** Nothing undefined happens if, from some point on, no key is new to its thread. *)
Theorem varz_avg_safe : forall h1 h2, exec astep avg0 h1 <> Ub ->
  (forall p t k d q, h2 = p ++ Inc t k d :: q -> 0 < incs_on t k (h1 ++ p)) -> exec astep avg0 (h1 ++ h2) <> Ub.
Proof. exact varz_avg_safe_pf. Qed.
Print Assumptions varz_avg_safe.
(** A key used in two threads appears twice in the result. *)
Theorem varz_avg_twice_refuted : exists h s, exec astep avg0 h = Next s /\ at_ s 0 = Fin /\ at_ s 1 = Fin /\
  ~ NoDup (map (fun p => fst (snd p)) (res s)).
Proof. exact varz_avg_twice_refuted_pf. Qed.
Print Assumptions varz_avg_twice_refuted.
(** A new key while GetData waits for its mutex invalidates the iterator of the loop. *)
Theorem varz_avg_rehash_refuted : exec astep avg0 [Inc 0 7 3; Get; Read 0; Inc 0 8 1] = Ub.
Proof. exact varz_avg_rehash_refuted_pf. Qed.
Print Assumptions varz_avg_rehash_refuted.
