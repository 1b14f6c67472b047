(** Model of DnsResolve (util/fibers/dns_resolve.cc), in two parts: the variant with the global resolver, whose callback runs in the
    thread of c-ares (lines 204-217 with 115-150), and the sockets of the variant that runs c-ares on a proactor
    (lines 25-113, 152-184, 219-251). c-ares itself is an environment. *)
From Verif Require Import Util Conc.
Local Open Scope bool_scope.

(** ** DnsResolve (host, dest_ip) *)
(** The caller: in ares_getaddrinfo, suspended, returned. *)
Inductive gpc := GCalling | GSusp | GRet.
Record gst := mkG {
  gp : gpc;
  gcb : nat;             (* how many steps of DnsResolveCallback have been made: 3 is all *)
  gact : bool;           (* ActivateOther has been called *)
  gec : bool;            (* cb_args.ec is an error *)
  gip : bool;            (* dest_ip holds the address *)
  gret : option (bool * bool) }.   (* what the caller found when it returned: error?, address? *)
Definition ginit : gst := mkG GCalling 0 false false false None.
Inductive glab := GCb | GSuspend | GResume.
Section G.
Variable fail : bool.    (* the host has no address *)
(** The callback: done (line 117), ActivateOther (121), the result (124-149). [cb_args] is in the caller's frame. Also a callback that
    runs inside of ares_getaddrinfo (the hosts file) is covered: the steps then come before [GSuspend]. *)
Definition gstep (s : gst) (l : glab) : outcome gst :=
  match l with
  | GCb =>
    match gcb s with
    | 0 => if match gp s with GRet => true | _ => false end then Ub else Next (mkG (gp s) 1 (gact s) (gec s) (gip s) (gret s))
    | 1 => if match gp s with GRet => true | _ => false end then Ub else Next (mkG (gp s) 2 true (gec s) (gip s) (gret s))
    | 2 => if match gp s with GRet => true | _ => false end then Ub else Next (mkG (gp s) 3 (gact s) fail (negb fail) (gret s))
    | _ => Stuck
    end
  | GSuspend => match gp s with GCalling => Next (mkG GSusp (gcb s) (gact s) (gec s) (gip s) (gret s)) | _ => Stuck end
  | GResume => match gp s with
               | GSusp => if gact s then Next (mkG GRet (gcb s) (gact s) (gec s) (gip s) (Some (gec s, gip s))) else Stuck
               | _ => Stuck
               end
  end.
End G.

(** ** The sockets of DnsResolve (host, wait_ms, dest_ip, proactor) *)
(** AresSocketState (lines 32-36). *)
Record sock := mkK { kmask : nat; kremoved : bool; kidx : nat }.
(** A callback that is armed in the proactor and refers to the AresChannelState on the caller's stack. *)
Record arm := mkA { aidx : nat; afd : nat; amask : nat }.
Record st := mkS {
  socks : list (nat * sock);       (* sockets_state *)
  armed : list arm;
  nexti : nat;                     (* arm indices: the next one that is not in use (simplified: indices are not used again) *)
  pass : bool;                     (* in the loop over sockets_state, lines 177-182 *)
  want : nat -> nat;               (* c-ares: what it asked for last; 0: the socket is closed *)
  alive : bool }.                  (* the frame of DnsResolve *)
Definition init : st := mkS [] [] 0 false (fun _ => 0) true.
(** [LUpd fd m r]: c-ares calls UpdateSocketsCallback; [r]: an insertion rehashes the flat_hash_map.
    [LPass], [LPassEnd]: the loop; [LReturn]: ares_destroy has closed all the sockets (c-ares's contract), DnsResolve returns.
    [LEvent i]: the proactor calls the callback with index [i]. *)
Inductive lab := LUpd (fd m : nat) (r : bool) | LPass | LPassEnd | LReturn | LEvent (i : nat).

Fixpoint look (fd : nat) (l : list (nat * sock)) : option sock :=
  match l with [] => None | (d, k) :: t => if Nat.eqb d fd then Some k else look fd t end.
(** The map with one entry changed. *)
Definition put (fd : nat) (k : sock) (l : list (nat * sock)) : list (nat * sock) := map (fun x => if Nat.eqb (fst x) fd then (fd, k) else x) l.
Definition has_idx (i : nat) (l : list arm) : bool := existsb (fun a => Nat.eqb (aidx a) i) l.
(** Disarm and EpollDel. *)
Definition disarm (i : nat) (l : list arm) : list arm := filter (fun a => negb (Nat.eqb (aidx a) i)) l.

Definition step (s : st) (l : lab) : outcome st :=
  match l with
  | LUpd fd m r =>
    if negb (alive s) then Stuck
    else
    let want' := upd (want s) fd m in
    if Nat.eqb m 0
    then
      if Nat.eqb (want s fd) 0 then Stuck                          (* c-ares closes open sockets only *)
      else match look fd (socks s) with
           | None => Ub                                            (* the CHECK of line 66 *)
           | Some k => if has_idx (kidx k) (armed s)
                       then Next (mkS (put fd (mkK (kmask k) true (kidx k)) (socks s)) (disarm (kidx k) (armed s)) (nexti s) (pass s) want' (alive s))
                       else Ub                                     (* somebody else's callback, or a freed entry *)
           end
    else
      match look fd (socks s) with
      | None =>
        if pass s && r then Ub                                     (* the iterator of the loop is invalid *)
        else Next (mkS (socks s ++ [(fd, mkK m false (nexti s))]) (mkA (nexti s) fd m :: armed s) (S (nexti s)) (pass s) want' (alive s))
      | Some k =>
        if kremoved k
        then Next (mkS (put fd (mkK m false (nexti s)) (socks s)) (mkA (nexti s) fd m :: armed s) (S (nexti s)) (pass s) want' (alive s))
        else Next (mkS (socks s) (armed s) (nexti s) (pass s) want' (alive s))       (* line 111: skipped *)
      end
  | LPass => if alive s && negb (pass s) then Next (mkS (socks s) (armed s) (nexti s) true (want s) (alive s)) else Stuck
  | LPassEnd => if pass s then Next (mkS (socks s) (armed s) (nexti s) false (want s) (alive s)) else Stuck
  | LReturn => if alive s && negb (pass s) && forallb (fun x => Nat.eqb (want s (fst x)) 0) (socks s)
               then Next (mkS (socks s) (armed s) (nexti s) (pass s) (want s) false) else Stuck
  | LEvent i => if has_idx i (armed s) then (if alive s then Next s else Ub) else Stuck
  end.
