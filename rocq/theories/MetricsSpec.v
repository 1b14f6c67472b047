(** What the calls that have ended add up to. *)
From Verif Require Import Util MetricsModel.
From Coq Require Import ZArith.

Definition leqb (a b : labels) : bool := if list_eq_dec (list_eq_dec N.eq_dec) a b then true else false.

(** The value that thread [t] has given to the labels [L]: increments add up, Set replaces. *)
Definition given (t : nat) (L : labels) (cs : list (nat * labels * op)) : Z :=
  fold_left (fun x c => let '(t', L', o) := c in
                        if ((t' =? t)%nat && leqb L' L)%bool
                        then match o with Add v => x + v | Put v => v end else x)%Z cs 0%Z.

(** The sum over the threads of a pool of [n]. *)
Definition total (n : nat) (L : labels) (cs : list (nat * labels * op)) : Z :=
  fold_right Z.add 0%Z (map (fun t => given t L cs) (seq 0 n)).

(** The sum of the increments made for exactly these labels. *)
Definition increments (L : labels) (cs : list (nat * labels * op)) : Z :=
  fold_right Z.add 0%Z (map (fun c => match c with (_, L', Add v) => if leqb L' L then v else 0 | _ => 0 end)%Z cs).

(** The calls started in a history. *)
Definition calls (ls : list lab) : list (nat * labels * op) :=
  flat_map (fun l => match l with Call t L o => [(t, L, o)] | Finish _ => [] end) ls.

(** The hash tells the label sets in [U] apart. *)
Definition apart (hash : list N -> N) (U : labels -> Prop) : Prop :=
  forall L L', U L -> U L' -> hash (concat L) = hash (concat L') -> L = L'.

(** The next step does not make a thread meet labels whose dense id lies below one that the thread has
    already met. *)
Definition calm (hash : list N -> N) (s : st) (l : lab) : bool :=
  match l with
  | Call _ _ _ => true
  | Finish i =>
      match nth_error (pend s) i with
      | None => true
      | Some (t, L, _) =>
          match nth_error (thr s) t with
          | None => true
          | Some th =>
              match find (tmap th) (hash_of hash L), find (gmap s) (hash_of hash L) with
              | None, Some id => (length (tvec th) <=? S id)%nat
              | _, _ => true
              end
          end
      end
  end.
Definition cstep (hash : list N -> N) (s : st) (l : lab) :=
  if calm hash s l then step hash s l else Conc.Stuck.
