(** Model of the error callback of UringSocket (util/fibers/uring_socket.cc:392-453, uring_socket.h:91-119): the
    reference-counted wrapper, the poll request, and its removal. One socket, whose proactor has other requests as well.

    A request is named by the slot in centries_ that holds its callback; the slot is free again once the completion has been
    handled, and may then be taken by any other request. The kernel executes submissions in order
    and does not refuse a poll. The callback is the last thing the completion does, so what it calls (CancelOnErrorCb is allowed to
    be called there) is a label that follows. [Ub]: a
    wrapper is used after it was deleted, or a CHECK fails. *)
From Verif Require Import Util Conc.

(** ErrorCbRefWrapper (uring_socket.h:93-116): error_cb_id ([None]: kInvalidErrorCbId), ref_count, whether cb is set. *)
Record wrap := mkW { w_id : option nat; w_refs : nat; w_cb : bool }.
Inductive slot := Free | ForErr (w : nat) | Other.
(** Submissions. The wrapper in [Rem] is for the statements only. *)
Inductive sqe := Add (i : nat) | Rem (i w : nat).
(** [Called]: the callback of registration [w] runs; [Cancelled]: CancelOnErrorCb was called; [Hit w o]: the removal that
    belongs to registration [w] removed a request of [o]. *)
Inductive ev := Called (w : nat) | Cancelled (w : nat) | Hit (w : nat) (o : slot) | Dfatal.

Record st := mkS {
  ws : nat -> option wrap; nextw : nat;
  sock : option nat;                  (* error_cb_wrapper_ *)
  slots : nat -> slot;                (* centries_ *)
  sq : list sqe;
  kreq : nat -> option slot;          (* requests in the kernel: the slot's contents when it was submitted *)
  cq : list (nat * bool);             (* completions; [false]: cancelled *)
  hist : list ev }.
Definition init : st := mkS (fun _ => None) 0 None (fun _ => Free) [] (fun _ => None) [] [].

Inductive lab :=
| LReg (i : nat)      (* RegisterOnErrorCb; its poll gets slot [i] *)
| LCancel             (* CancelOnErrorCb *)
| LClose              (* Close *)
| LOther (i : nat)    (* another request gets slot [i] *)
| LDispatch           (* the proactor handles the first completion *)
| KSubmit             (* the kernel executes the first submission *)
| KFire (i : nat).    (* an event completes a request *)

(** Destroy (uring_socket.h:108-112). [None]: the wrapper is deleted already. *)
Definition destroy (w : nat) (s : st) : option st :=
  match ws s w with
  | Some r =>
    let r' := match w_refs r with S (S n) => Some (mkW (w_id r) (S n) false) | _ => None end in
    Some (mkS (upd (ws s) w r') (nextw s) (sock s) (slots s) (sq s) (kreq s) (cq s) (hist s))
  | None => None
  end.
Definition drop_ref (w : nat) (e : list ev) (q : list sqe) (s : st) : outcome st :=
  match destroy w s with
  | Some s => Next (mkS (ws s) (nextw s) None (slots s) (sq s ++ q) (kreq s) (cq s) (hist s ++ e))
  | None => Ub
  end.

Definition step (s : st) (l : lab) : outcome st :=
  match l with
  (* uring_socket.cc:392-423 *)
  | LReg i =>
    match slots s i, sock s with
    | Free, None =>
      Next (mkS (upd (ws s) (nextw s) (Some (mkW (Some i) 2 true))) (S (nextw s)) (Some (nextw s)) (upd (slots s) i (ForErr (nextw s)))
                (sq s ++ [Add i]) (kreq s) (cq s) (hist s))
    | _, Some _ => Ub
    | _, None => Stuck
    end
  (* uring_socket.cc:425-453. The fiber then waits for the removal; it touches nothing afterwards. *)
  | LCancel =>
    match sock s with
    | None => Next s
    | Some w =>
      match ws s w with
      | None => Ub
      | Some r => drop_ref w [Cancelled w] (match w_id r with Some i => [Rem i w] | None => [] end) s
      end
    end
  (* uring_socket.cc:76-80. LOG(DFATAL) goes on in release builds. *)
  | LClose =>
    match sock s with
    | None => Next s
    | Some w => drop_ref w [Dfatal; Cancelled w] [] s
    end
  | LOther i =>
    match slots s i with
    | Free => Next (mkS (ws s) (nextw s) (sock s) (upd (slots s) i Other) (sq s ++ [Add i]) (kreq s) (cq s) (hist s))
    | _ => Stuck
    end
  | LDispatch =>
    match cq s with
    | [] => Stuck
    | (i, fired) :: q =>
      let s1 := mkS (ws s) (nextw s) (sock s) (upd (slots s) i Free) (sq s) (kreq s) q (hist s) in
      match slots s i with
      | Free => Ub
      | Other => Next s1
      (* uring_socket.cc:401-416 *)
      | ForErr w =>
        match ws s w with
        | None => Ub
        | Some r =>
          let s2 := mkS (upd (ws s) w (Some (mkW None (w_refs r) false))) (nextw s) (sock s) (upd (slots s) i Free) (sq s) (kreq s) q (hist s) in
          match destroy w s2 with
          | None => Ub
          | Some s3 => Next (mkS (ws s3) (nextw s) (sock s) (upd (slots s) i Free) (sq s) (kreq s) q
                                 (hist s ++ if fired && w_cb r then [Called w] else []))
          end
        end
      end
    end
  | KSubmit =>
    match sq s with
    | [] => Stuck
    | Add i :: q => Next (mkS (ws s) (nextw s) (sock s) (slots s) q (upd (kreq s) i (Some (slots s i))) (cq s) (hist s))
    | Rem i w :: q =>
      match kreq s i with
      | Some o => Next (mkS (ws s) (nextw s) (sock s) (slots s) q (upd (kreq s) i None) (cq s ++ [(i, false)]) (hist s ++ [Hit w o]))
      | None => Next (mkS (ws s) (nextw s) (sock s) (slots s) q (kreq s) (cq s) (hist s))
      end
    end
  | KFire i =>
    match kreq s i with
    | Some _ => Next (mkS (ws s) (nextw s) (sock s) (slots s) (sq s) (upd (kreq s) i None) (cq s ++ [(i, true)]) (hist s))
    | None => Stuck
    end
  end.
