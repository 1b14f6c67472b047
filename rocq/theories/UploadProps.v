(** C55, C56: an object written to cloud storage holds the bytes written. *)
From Verif Require Import Util UploadModel UploadSpec UploadProof.
Open Scope N_scope.

(** ** C55: the files of util/cloud (S3, Azure, GCS) *)

(** If all writes and Close return success, the object is exactly the data written, and each write
    returned its number of bytes. Part of C55: the buffers of one write must be the same (one
    buffer, for example). *)
Theorem upload_object_partial k part l net rs s net' :
  alike l -> session k part l net = Ret (rs, true) s net' -> no_error rs ->
  v_obj (w_svc s) = Some (written l) /\ rs = map (fun vs => Some (len (concat vs))) l.
Proof. exact (upload_object_pf k part l net rs s net'). Qed.
Print Assumptions upload_object_partial.

(** Azure: also if writes have failed, the object that a successful Close leaves has all bytes of
    the successful ones and the first bytes of the others, in order. *)
Theorem upload_azure_object_partial part l net rs s net' :
  alike l -> session Azure part l net = Ret (rs, true) s net' ->
  exists o, v_obj (w_svc s) = Some o /\ kept l rs o.
Proof. exact (azure_object_pf part l net rs s net'). Qed.
Print Assumptions upload_azure_object_partial.

(** No call aborts the process or runs for ever if the part size is positive (GCS: and a multiple
    of 256 KiB), whatever the network does and whatever buffers are passed. *)
Theorem upload_returns k part l net :
  0 < part -> (k = Gcs -> part mod 262144 = 0) ->
  session k part l net <> Abort /\ session k part l net <> Spin.
Proof. intros A B. exact (upload_returns_pf k part l net (conj A B)). Qed.
Print Assumptions upload_returns.

(** With any other part size the process aborts at the first write that fills a part. *)
Theorem upload_aborts k part v vs l net :
  part = 0 \/ (k = Gcs /\ part mod 262144 <> 0) -> part <= len v ->
  session k part ((v :: vs) :: l) net = Abort.
Proof. exact (upload_aborts_pf k part v vs l net). Qed.
Print Assumptions upload_aborts.

(** If the network delivers all requests, all calls return success (S3: if there is data). *)
Theorem upload_delivers_partial k part l :
  0 < part -> (k = Gcs -> part mod 262144 = 0) -> alike l -> (k = S3 -> written l <> []) ->
  exists m, forall net, (forall f, In f net -> f = Deliver) -> (m <= length net)%nat ->
  exists rs s net', session k part l net = Ret (rs, true) s net' /\ no_error rs.
Proof. intros A B. exact (upload_delivers_pf k part l (conj A B)). Qed.
Print Assumptions upload_delivers_partial.

(** Parts of S3 and blocks of Azure have the part size, except the last. *)
Theorem upload_part_sizes k part l net rs ok s net' :
  0 < part -> k <> Gcs -> session k part l net = Ret (rs, ok) s net' ->
  sized part (v_parts (w_svc s)).
Proof. exact (upload_parts_pf k part l net rs ok s net'). Qed.
Print Assumptions upload_part_sizes.

(** A write of two different buffers stores the first one twice: all calls succeed, and the object
    is not the data. The write also reports more bytes than it was given. *)
Theorem upload_vectored_refuted k :
  exists part l net rs s o,
    session k part l net = Ret (rs, true) s [] /\ (forall f, In f net -> f = Deliver) /\
    no_error rs /\ v_obj (w_svc s) = Some o /\ o <> written l /\
    rs = [Some 4] /\ len (written l) = 3.
Proof. exact (upload_vectored_refuted_pf k). Qed.
Print Assumptions upload_vectored_refuted.

(** S3 and GCS: a part whose upload fails is forgotten. A later Close returns success and the
    object lacks bytes of a write that returned success. *)
Theorem upload_gap_refuted k : k = S3 \/ k = Gcs ->
  exists part l net s o,
    alike l /\ session k part l net = Ret ([Some 1; None; Some 1], true) s [] /\
    v_obj (w_svc s) = Some o /\ ~ kept l [Some 1; None; Some 1] o.
Proof. exact (upload_gap_refuted_pf k). Qed.
Print Assumptions upload_gap_refuted.

(** S3: an empty object cannot be written; Close fails whatever the network does. *)
Theorem upload_s3_empty_refuted part l net rs s net' :
  written l = [] -> session S3 part l net <> Ret (rs, true) s net'.
Proof. exact (s3_empty_pf part l net rs s net'). Qed.
Print Assumptions upload_s3_empty_refuted.

(** ** C56: S3WriteFile of util/aws *)

(** Whatever the network does: if Close returns success, the object has all bytes of the successful
    writes and the first bytes of the others, in order. *)
Theorem sdk_object part l net rs s net' :
  sdk_session part l net = Ret (rs, true) s net' ->
  exists o, v_obj (d_svc s) = Some o /\ kept l rs o.
Proof. exact (sdk_object_pf part l net rs s net'). Qed.
Print Assumptions sdk_object.

Theorem sdk_object_all part l net rs s net' :
  sdk_session part l net = Ret (rs, true) s net' -> no_error rs ->
  v_obj (d_svc s) = Some (written l).
Proof.
  intros R NE. destruct (sdk_object_pf part l net rs s net' R) as (o & O & K).
  rewrite O. f_equal. exact (kept_written l rs o K NE).
Qed.
Print Assumptions sdk_object_all.

(** No call aborts or runs for ever, with a positive part size. *)
Theorem sdk_returns part l net :
  0 < part -> sdk_session part l net <> Abort /\ sdk_session part l net <> Spin.
Proof. exact (sdk_returns_pf part l net). Qed.
Print Assumptions sdk_returns.

(** If the network delivers all requests and there is data, all calls return success. *)
Theorem sdk_delivers part l :
  0 < part -> written l <> [] ->
  exists m, forall net, (forall f, In f net -> f = Deliver) -> (m <= length net)%nat ->
  exists rs s net', sdk_session part l net = Ret (rs, true) s net' /\ no_error rs.
Proof. exact (sdk_delivers_pf part l). Qed.
Print Assumptions sdk_delivers.

Theorem sdk_part_sizes part l net rs ok s net' :
  0 < part -> sdk_session part l net = Ret (rs, ok) s net' -> sized part (v_parts (d_svc s)).
Proof. exact (sdk_parts_pf part l net rs ok s net'). Qed.
Print Assumptions sdk_part_sizes.

(** With part size 0 the first write of data never returns: the loop does not end after any number
    of rounds. *)
Theorem sdk_zero_part_refuted x data vs l net : forall fuel,
  sdk_fill 0 fuel (x :: data) ds0 net = Spin /\
  sdk_session 0 (((x :: data) :: vs) :: l) net = Spin.
Proof. exact (sdk_zero_part_pf x data vs l net). Qed.
Print Assumptions sdk_zero_part_refuted.

(** ** The hypotheses are met *)

Example upload_s3_met :
  session S3 3 [[[1; 2]]; []; [[3; 4; 5; 6; 7]]; [[8; 9]; [8; 9]]] (repeat Deliver 5)
  = Ret ([Some 2; Some 0; Some 5; Some 4], true)
        (mkWs [] 5 [1; 2; 3; 4]%nat 0
           (mkSvc [(4%nat, [8; 9]); (3%nat, [7; 8; 9]); (2%nat, [4; 5; 6]); (1%nat, [1; 2; 3])]
                  [] (Some [1; 2; 3; 4; 5; 6; 7; 8; 9; 8; 9]))) [].
Proof. vm_compute. reflexivity. Qed.

Example upload_azure_met :
  session Azure 2 [[[1]]; [[2; 3; 4; 5]]; [[6]]] [Deliver; LoseReply; Deliver; Deliver]
  = Ret ([Some 1; None; Some 1], true)
        (mkWs [] 4 [] 0 (mkSvc [(3%nat, [6]); (2%nat, [3; 4]); (1%nat, [1; 2])] []
                               (Some [1; 2; 3; 4; 6]))) [].
Proof. vm_compute. reflexivity. Qed.

(** The same, and the block is lost: Close fails. *)
Example upload_azure_lost_met :
  exists s, session Azure 2 [[[1]]; [[2; 3; 4; 5]]; [[6]]] [Deliver; LoseReq; Deliver; Deliver]
  = Ret ([Some 1; None; Some 1], false) s [].
Proof. eexists. vm_compute. reflexivity. Qed.

Example upload_gcs_met :
  session Gcs 262144 [[[1; 2]]; [[3]]] [Deliver]
  = Ret ([Some 2; Some 1], true) (mkWs [] 1 [] 0 (mkSvc [] [1; 2; 3] (Some [1; 2; 3]))) [].
Proof. vm_compute. reflexivity. Qed.

Example sdk_met :
  sdk_session 2 [[[1]; [2; 3; 4; 5]]; [[6; 7]]; [[8]]]
              [Deliver; LoseReply; LoseReq; Deliver; LoseReply]
  = Ret ([None; None; Some 1], false)
        (mkDs [8] 2 (mkSvc [(3%nat, [8]); (2%nat, [3; 4]); (2%nat, [3; 4]); (1%nat, [1; 2])] [] None)) [].
Proof. vm_compute. reflexivity. Qed.

Example sdk_ok_met :
  sdk_session 2 [[[1]; [2; 3; 4; 5]]; [[6; 7]]; [[8]]]
              [Deliver; LoseReply; Deliver; Deliver; Deliver; Deliver]
  = Ret ([None; Some 2; Some 1], true)
        (mkDs [] 4 (mkSvc [(4%nat, [8]); (3%nat, [6; 7]); (2%nat, [3; 4]); (2%nat, [3; 4]);
                           (1%nat, [1; 2])] [] (Some [1; 2; 3; 4; 6; 7; 8]))) [].
Proof. vm_compute. reflexivity. Qed.
