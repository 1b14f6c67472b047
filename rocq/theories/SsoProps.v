(** C43: string_view_sso. All strings, memories, and changes to memory. *)
From Verif Require Import Util SsoModel SsoSpec SsoProof.
Open Scope N_scope.

(** A view reads back as the string it was built from, later on as well: a string of up to 15 bytes whatever happens to the
    memory it was in, a longer one as long as it stays where it is. *)
Theorem sso_make m p t : holds m p t -> exists v, make m p (length t) = Some v /\ forall m', (length t <= 15)%nat \/ kept p t m' -> is m' v t.
Proof. exact (sso_make_pf m p t). Qed.
Theorem sso_cstr fuel m p t : holds m p (t ++ [0]) -> Forall (fun b => b <> 0) t -> (length t < fuel)%nat ->
  exists v, make_c fuel m p = Some v /\ forall m', (length t <= 15)%nat \/ kept p t m' -> is m' v t.
Proof. exact (sso_cstr_pf fuel m p t). Qed.
Theorem sso_null m : is m null [].
Proof. split; reflexivity. Qed.
Print Assumptions sso_make.
Print Assumptions sso_cstr.
Print Assumptions sso_null.

(** Element access, never outside the string *)
Theorem sso_access m v t i : built v -> is m v t -> size v = length t /\ ((i < length t)%nat -> nth_byte m v i = nth_error t i) /\
  at_ m v i = match nth_error t i with Some b => Done b | None => Throw end /\
  (t <> [] -> front m v = hd_error t /\ back m v = nth_error t (length t - 1)).
Proof. exact (sso_access_pf m v t i). Qed.
Theorem sso_copy m v t n pos : built v -> is m v t -> copy m v n pos = if (length t <? pos)%nat then Throw else Done (firstn n (skipn pos t)).
Proof. exact (sso_copy_pf m v t n pos). Qed.
(** substr is a view on its own: as above, up to 15 bytes without need of the memory or of the view it is from. *)
Theorem sso_substr m v t pos n : built v -> is m v t -> if (length t <? pos)%nat then substr m v pos n = Throw
  else exists w, substr m v pos n = Done w /\ forall m', (Nat.min n (length t - pos) <= 15)%nat \/ is m' v t -> is m' w (firstn n (skipn pos t)).
Proof. exact (sso_substr_pf m v t pos n). Qed.
Theorem sso_swap m v w a b : is m v a -> is m w b -> is m (fst (swap v w)) b /\ is m (snd (swap v w)) a.
Proof. intros H K. split; assumption. Qed.
Print Assumptions sso_access.
Print Assumptions sso_copy.
Print Assumptions sso_substr.
Print Assumptions sso_swap.

(** Comparison is that of the strings. *)
Theorem sso_compare m v w a b : is m v a -> is m w b -> exists c, compare m v w = Some c /\ order a b c.
Proof. exact (sso_compare_pf m v w a b). Qed.
Theorem sso_compare_sub m v w a b p1 n1 p2 n2 : built v -> built w -> is m v a -> is m w b -> (p1 <= length a)%nat -> (p2 <= length b)%nat ->
  exists c, compare_sub m v p1 n1 w p2 n2 = Done c /\ order (firstn n1 (skipn p1 a)) (firstn n2 (skipn p2 b)) c.
Proof. exact (sso_compare_sub_pf m v w a b p1 n1 p2 n2). Qed.
Theorem sso_operators m v w a b : is m v a -> is m w b ->
  (exists r, eqb m v w = Some r /\ (r = true <-> a = b)) /\ (exists r, neqb m v w = Some r /\ (r = true <-> a <> b)) /\
  (exists r, ltb m v w = Some r /\ (r = true <-> lt a b)) /\ (exists r, gtb m v w = Some r /\ (r = true <-> lt b a)) /\
  (exists r, leb m v w = Some r /\ (r = true <-> lt a b \/ a = b)) /\ (exists r, geb m v w = Some r /\ (r = true <-> lt b a \/ a = b)).
Proof. exact (sso_operators_pf m v w a b). Qed.
Print Assumptions sso_compare.
Print Assumptions sso_compare_sub.
Print Assumptions sso_operators.

(** A short and a long string in memory; the short one's view outlives it. *)
Definition mem0 : memory := fun p => if (100 <=? p) && (p <? 120) then Some (p - 50) else None.
Example sso_met : exists v w, make mem0 100 15 = Some v /\ make mem0 100 20 = Some w /\ is (fun _ => None) v (map N.of_nat (seq 50 15)) /\ is mem0 w (map N.of_nat (seq 50 20)) /\
  ltb mem0 v w = Some true.
Proof. eexists _, _. split; [vm_compute; reflexivity|]. split; [vm_compute; reflexivity|]. repeat split; vm_compute; reflexivity. Qed.
