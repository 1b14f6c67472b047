(** Model of the files that write an object to cloud storage part by part:
    - AbstractStorageFile (util/cloud/utils.cc) with its three implementations: S3
      (util/cloud/aws/s3_storage.cc), Azure (util/cloud/azure/storage.cc) and Google Cloud Storage
      (util/cloud/gcp/gcs_file.cc);
    - S3WriteFile (util/aws/s3_write_file.cc), which uses the AWS library instead.

    The storage service is the environment. It is modelled by the part of its documented interface
    that the code relies on (section "Service"), and the network between them is a list of fates,
    one per request, universally quantified in the theorems. When the list runs out the caller is
    still waiting ([Wait]).
    Simplifications: a part is the list of its bytes; entity tags and checksums are not modelled
    (a part is known by its number); part numbers do not wrap; only one file is open on the object;
    the body of a request is moved out of [body_mb_], which leaves it empty with the same maximal
    size (Boost.Beast multi_buffer); the up to three attempts of RobustSender::Send count as one
    request; FLAGS_gcs_dry_upload is off; opening the file has succeeded. *)
From Verif Require Import Util.
Open Scope N_scope.

(** ** Service (not in /repo) *)

Inductive kind := S3 | Azure | Gcs.

(** [v_parts]: parts or blocks received, latest first; [v_stored]: bytes received by a resumable
    upload of GCS; [v_obj]: the object, once the upload was completed. *)
Record svc := mkSvc { v_parts : list (nat * list N); v_stored : list N; v_obj : option (list N) }.
Definition svc0 : svc := mkSvc [] [] None.

Fixpoint lookup (i : nat) (l : list (nat * list N)) : option (list N) :=
  match l with
  | [] => None
  | (j, d) :: l' => if Nat.eqb i j then Some d else lookup i l'
  end.

Fixpoint gather (ids : list nat) (l : list (nat * list N)) : option (list N) :=
  match ids with
  | [] => Some []
  | i :: r => match lookup i l, gather r l with
              | Some d, Some e => Some (d ++ e)
              | _, _ => None
              end
  end.

(** UploadPart of S3, Put Block of Azure: a part sent again replaces the earlier one. *)
Definition svc_put (i : nat) (d : list N) (v : svc) : option svc :=
  Some (mkSvc ((i, d) :: v_parts v) (v_stored v) (v_obj v)).

(** CompleteMultipartUpload of S3, Put Block List of Azure: refused if a part named is missing; S3
    also refuses an empty list. *)
Definition svc_commit (k : kind) (ids : list nat) (v : svc) : option svc :=
  match k, ids with
  | S3, [] => None
  | _, _ => match gather ids (v_parts v) with
            | None => None
            | Some o => Some (mkSvc (v_parts v) (v_stored v) (Some o))
            end
  end.

(** A request of a resumable upload of GCS for the bytes from [from]: refused if it leaves a gap;
    bytes received before are not replaced. If the total is given and reached, the object is
    complete; if it is given and not met the request is refused. *)
Definition svc_range (from : N) (total : option N) (d : list N) (v : svc) : option svc :=
  if len (v_stored v) <? from then None
  else
    let st := v_stored v ++ drop (len (v_stored v) - from) d in
    match total with
    | None => Some (mkSvc (v_parts v) st (v_obj v))
    | Some t => if len st =? t then Some (mkSvc (v_parts v) st (Some st)) else None
    end.

(** What the network does with a request: delivers it and the response; loses the request; loses
    the response (for S3 also: the response has no ETag, s3_storage.cc:343-347). *)
Inductive fate := Deliver | LoseReq | LoseReply.

Definition orelse (o : option svc) (v : svc) : svc := match o with Some v' => v' | None => v end.

Definition send (f : fate) (act : svc -> option svc) (v : svc) : bool * svc :=
  match f with
  | Deliver => match act v with Some v' => (true, v') | None => (false, v) end
  | LoseReq => (false, v)
  | LoseReply => (false, orelse (act v) v)
  end.

(** Outcome of a call: returned; the process aborted (CHECK); waiting for the network; the call
    never returns. *)
Inductive out (S A : Type) :=
| Ret (a : A) (s : S) (net : list fate) | Abort | Wait | Spin.
Arguments Ret {S A}. Arguments Abort {S A}. Arguments Wait {S A}. Arguments Spin {S A}.

Definition bind {S A B} (x : out S A) (f : A -> S -> list fate -> out S B) : out S B :=
  match x with
  | Ret a s net => f a s net
  | Abort => Abort | Wait => Wait | Spin => Spin
  end.

(** ** AbstractStorageFile *)

(** [w_body]: body_mb_ (utils.h:181); [w_next]: part_num_ (s3_storage.cc:315), block_id_
    (azure/storage.cc:260); [w_acked]: the numbers in parts_ (s3_storage.cc:316); [w_up]: uploaded_
    (gcs_file.cc:93). *)
Record ws := mkWs { w_body : list N; w_next : nat; w_acked : list nat; w_up : N; w_svc : svc }.
Definition ws0 : ws := mkWs [] 1 [] 0 svc0.

Definition with_body (b : list N) (s : ws) : ws :=
  mkWs b (w_next s) (w_acked s) (w_up s) (w_svc s).

(** s3_storage.cc:322-351, azure/storage.cc:368-398, gcs_file.cc:196-226 Upload (with
    PrepareUploadBlockReq and PrepareRequest). [true]: no error. The number of a block of Azure is
    used up even if the request fails (azure/storage.cc:388), that of a part of S3 only on success
    (s3_storage.cc:349). The last CHECK of GCS compares the range that the service reports to have
    received. *)
Definition Upload (k : kind) (s : ws) (net : list fate) : out ws bool :=
  if len (w_body s) =? 0 then Abort
  else match k with
  | S3 =>
    match net with
    | [] => Wait
    | f :: net' =>
      match send f (svc_put (w_next s) (w_body s)) (w_svc s) with
      | (true, v) => Ret true (mkWs [] (S (w_next s)) (w_acked s ++ [w_next s]) (w_up s) v) net'
      | (false, v) => Ret false (mkWs [] (w_next s) (w_acked s) (w_up s) v) net'
      end
    end
  | Azure =>
    match net with
    | [] => Wait
    | f :: net' =>
      match send f (svc_put (w_next s) (w_body s)) (w_svc s) with
      | (ok, v) => Ret ok (mkWs [] (S (w_next s)) (w_acked s) (w_up s) v) net'
      end
    end
  | Gcs =>
    if negb (len (w_body s) mod 262144 =? 0) then Abort
    else match net with
    | [] => Wait
    | f :: net' =>
      let to := w_up s + len (w_body s) in
      match send f (svc_range (w_up s) None (w_body s)) (w_svc s) with
      | (true, v) =>
        if len (v_stored v) =? to
        then Ret true (mkWs [] (w_next s) (w_acked s) to v) net' else Abort
      | (false, v) => Ret false (mkWs [] (w_next s) (w_acked s) (w_up s) v) net'
      end
    end
  end.

(** utils.cc:112-141 FillBuf. The loop makes progress because the body is never full between calls;
    with a maximal size of 0 the first Upload aborts. *)
Fixpoint fill (k : kind) (part : N) (fuel : nat) (data : list N) (s : ws) (net : list fate)
  : out ws bool :=
  match fuel with
  | O => Spin
  | S fuel' =>
    let room := part - len (w_body s) in
    if room <=? len data then
      bind (Upload k (with_body (w_body s ++ take room data) s) net)
           (fun ok s' net' => if ok then fill k part fuel' (drop room data) s' net'
                              else Ret false s' net')
    else Ret true (with_body (w_body s ++ data) s) net
  end.
Definition FillBuf (k : kind) (part : N) (data : list N) (s : ws) (net : list fate) : out ws bool :=
  fill k part (length data + 2) data s net.

(** utils.cc:103-110 WriteSome. The loop does not advance [v]: each round passes the first buffer
    ([v]). [i]: rounds left. *)
Fixpoint write_loop (k : kind) (part : N) (i : nat) (v : list N) (total : N) (s : ws)
    (net : list fate) : out ws (option N) :=
  match i with
  | O => Ret (Some total) s net
  | S i' =>
    bind (FillBuf k part v s net)
         (fun ok s' net' => if ok then write_loop k part i' v (total + len v) s' net'
                            else Ret None s' net')
  end.
Definition WriteSome (k : kind) (part : N) (vs : list (list N)) (s : ws) (net : list fate)
  : out ws (option N) :=
  write_loop k part (length vs) (hd [] vs) 0 s net.

(** s3_storage.cc:353-392, azure/storage.cc:349-366 with 400-430, gcs_file.cc:146-194 Close. S3
    names the parts acknowledged, Azure all numbers used. *)
Definition commit (k : kind) (ids : list nat) (s : ws) (net : list fate) : out ws bool :=
  match net with
  | [] => Wait
  | f :: net' =>
    match send f (svc_commit k ids) (w_svc s) with
    | (ok, v) => Ret ok (mkWs (w_body s) (w_next s) (w_acked s) (w_up s) v) net'
    end
  end.
Definition close_ids (k : kind) (s : ws) : list nat :=
  match k with S3 => w_acked s | _ => seq 1 (w_next s - 1) end.
Definition Close (k : kind) (s : ws) (net : list fate) : out ws bool :=
  match k with
  | Gcs =>
    let to := w_up s + len (w_body s) in
    match net with
    | [] => Wait
    | f :: net' =>
      match send f (svc_range (w_up s) (Some to) (w_body s)) (w_svc s) with
      | (ok, v) => Ret ok (mkWs [] (w_next s) (w_acked s) (w_up s) v) net'
      end
    end
  | _ =>
    if 0 <? len (w_body s) then
      bind (Upload k s net)
           (fun ok s' net' => if ok then commit k (close_ids k s') s' net' else Ret false s' net')
    else commit k (close_ids k s) s net
  end.

(** The user's calls: one WriteSome per element, then Close. Result: what each write returned
    ([None]: an error) and whether Close returned success. *)
Fixpoint writes (k : kind) (part : N) (l : list (list (list N))) (s : ws) (net : list fate)
  : out ws (list (option N)) :=
  match l with
  | [] => Ret [] s net
  | vs :: l' =>
    bind (WriteSome k part vs s net)
         (fun r s' net' => bind (writes k part l' s' net')
                                (fun rs s'' net'' => Ret (r :: rs) s'' net''))
  end.
Definition session (k : kind) (part : N) (l : list (list (list N))) (net : list fate)
  : out ws (list (option N) * bool) :=
  bind (writes k part l ws0 net)
       (fun rs s net' => bind (Close k s net') (fun ok s' net'' => Ret (rs, ok) s' net'')).

(** ** S3WriteFile *)

(** [d_buf]: the first offset_ bytes of buf_; [d_n]: parts_.size(). *)
Record ds := mkDs { d_buf : list N; d_n : nat; d_svc : svc }.
Definition ds0 : ds := mkDs [] 0 svc0.

(** s3_write_file.cc:150-202 Flush *)
Definition Flush (s : ds) (net : list fate) : out ds bool :=
  if len (d_buf s) =? 0 then Ret true s net
  else match net with
       | [] => Wait
       | f :: net' =>
         match send f (svc_put (S (d_n s)) (d_buf s)) (d_svc s) with
         | (true, v) => Ret true (mkDs [] (S (d_n s)) v) net'
         | (false, v) => Ret false (mkDs (d_buf s) (d_n s) v) net'
         end
       end.

(** s3_write_file.cc:26-43, the while loop of WriteSome. [part] = buf_.size(). *)
Fixpoint sdk_fill (part : N) (fuel : nat) (data : list N) (s : ds) (net : list fate) : out ds bool :=
  match data with
  | [] => Ret true s net
  | _ =>
    match fuel with
    | O => Spin
    | S fuel' =>
      let n := N.min (len data) (part - len (d_buf s)) in
      let s1 := mkDs (d_buf s ++ take n data) (d_n s) (d_svc s) in
      if part =? len (d_buf s1) then
        bind (Flush s1 net)
             (fun ok s' net' => if ok then sdk_fill part fuel' (drop n data) s' net'
                                else Ret false s' net')
      else sdk_fill part fuel' (drop n data) s1 net
    end
  end.

(** s3_write_file.cc:17-47 WriteSome. The while loop makes at most two rounds per byte and one more
    unless [part] is 0. *)
Fixpoint sdk_write (part : N) (vs : list (list N)) (total : N) (s : ds) (net : list fate)
  : out ds (option N) :=
  match vs with
  | [] => Ret (Some total) s net
  | v :: vs' =>
    bind (sdk_fill part (2 * length v + 2) v s net)
         (fun ok s' net' => if ok then sdk_write part vs' (total + len v) s' net'
                            else Ret None s' net')
  end.

(** s3_write_file.cc:51-102 Close *)
Definition sdk_close (s : ds) (net : list fate) : out ds bool :=
  bind (Flush s net)
       (fun ok s' net' =>
          if ok then
            match net' with
            | [] => Wait
            | f :: net'' =>
              match send f (svc_commit S3 (seq 1 (d_n s'))) (d_svc s') with
              | (ok', v) => Ret ok' (mkDs (d_buf s') (d_n s') v) net''
              end
            end
          else Ret false s' net').

Fixpoint sdk_writes (part : N) (l : list (list (list N))) (s : ds) (net : list fate)
  : out ds (list (option N)) :=
  match l with
  | [] => Ret [] s net
  | vs :: l' =>
    bind (sdk_write part vs 0 s net)
         (fun r s' net' => bind (sdk_writes part l' s' net')
                                (fun rs s'' net'' => Ret (r :: rs) s'' net''))
  end.
Definition sdk_session (part : N) (l : list (list (list N))) (net : list fate)
  : out ds (list (option N) * bool) :=
  bind (sdk_writes part l ds0 net)
       (fun rs s net' => bind (sdk_close s net') (fun ok s' net'' => Ret (rs, ok) s' net'')).
