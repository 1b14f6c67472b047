(** C83: the configuration of the S3 client. *)
From Coq Require Import String Ascii.
From Verif Require Import Util SignModel CfgSpec CfgModel CfgProof.
Local Open Scope N_scope.
Local Open Scope list_scope.

(** Every text is an INI file, and the entries of a section are reported in order, exactly. *)
Theorem ini_total : forall s, exists is, ini_file s is.
Proof. exact ini_total_pf. Qed.
Theorem ini_spec : forall s is name, ini_file s is -> ParseIniSection s name = section name is.
Proof. exact ini_spec_pf. Qed.
(** URLs are taken apart correctly, unless an address stands in brackets without a port. *)
Theorem url_parsed_partial : forall s e u, url_text s e u -> e = true \/ ~ List.In 58 (u_host u) -> ParseHttpUrl s = u.
Proof. exact url_parsed_pf. Qed.
Theorem url_brackets_refuted : exists s u, url_text s false u /\ ParseHttpUrl s <> u.
Proof.
  exists (text "http://[::1]/x"), (Url (text "[::1]") (text "80") (text "/x") false). split; [|vm_compute; discriminate].
  apply (ut (text "http://") false (text "[::1]") false (text "[::1]") (text "80") (text "/x") (text "/x")).
  - constructor.
  - apply (au_default false). split; [vm_compute; intuition discriminate|]. right. exists (text "::1"). split; [reflexivity|vm_compute; intuition discriminate].
  - apply pa_path.
  - discriminate.
Qed.
(** The endpoint that is made of a URL stands for the same host and port. *)
Theorem endpoint_same_partial : forall s, let u := ParseHttpUrl s in ~ List.In 58 (u_host u) ->
  ParseHttpUrl ((if u_tls u then text "https://" else text "http://") ++ endpoint_of s) = Url (u_host u) (u_port u) [47] (u_tls u).
Proof. exact endpoint_same_pf. Qed.
Theorem endpoint_same_refuted : exists s u, url_text s true u /\ ParseHttpUrl s = u
  /\ u_host (ParseHttpUrl (text "http://" ++ endpoint_of s)) <> u_host u.
Proof.
  exists (text "http://[::1]:80"), (Url (text "[::1]") (text "80") (text "/") false). split; [|split; [reflexivity|vm_compute; discriminate]].
  apply (ut (text "http://") false (text "[::1]:80") true (text "[::1]") (text "80") [] (text "/")).
  - constructor.
  - apply (au_port false (text "[::1]") (text "80")); try (vm_compute; intuition discriminate).
    split; [vm_compute; intuition discriminate|]. right. exists (text "::1"). split; [reflexivity|vm_compute; intuition discriminate].
  - apply pa_none.
  - discriminate.
Qed.
(** The endpoint follows the documented order of the argument, the variable and the region. *)
Theorem endpoint_order_partial : forall w over region s, endpoint_rule w over region s ->
  (over <> [] -> url_ok over) -> (forall v, has w "AWS_S3_ENDPOINT" v -> url_ok v) -> service_endpoint w over region = s.
Proof. exact endpoint_pf. Qed.
(** So does the region, if the two variables agree and are not set to nothing. *)
Theorem region_order_partial : forall w given r, region_rule w given r ->
  var w "AWS_REGION" <> Some [] -> var w "AWS_DEFAULT_REGION" <> Some [] ->
  (forall a b, var w "AWS_REGION" = Some a -> var w "AWS_DEFAULT_REGION" = Some b -> a = b) -> region_of w given = r.
Proof. exact region_pf. Qed.
Definition env_of (l : list (string * string)) (n : list N) : option (list N) :=
  match find (fun p => str_eq (str (fst p)) n) l with Some p => Some (str (snd p)) | None => None end.
Definition world_of (l : list (string * string)) : world :=
  World (env_of l) (fun _ => None) (fun _ => None) (fun _ => JBad) (fun _ => None) (fun _ => None) (fun s => s).
Theorem region_order_refuted : exists w r, region_rule w [] r /\ r <> [] /\ region_of w [] <> r /\ region_of w [] <> [].
Proof.
  exists (world_of [("AWS_REGION", "eu-west-1"); ("AWS_DEFAULT_REGION", "us-west-2")]%string), (text "eu-west-1").
  split; [|split; [discriminate|split; vm_compute; discriminate]]. apply rr_env; auto. split; [vm_compute; reflexivity|discriminate].
Qed.
Theorem region_empty_refuted : exists w r, region_rule w [] r /\ r <> [] /\ region_of w [] = [].
Proof.
  exists (world_of [("AWS_REGION", "eu-west-1"); ("AWS_DEFAULT_REGION", "")]%string), (text "eu-west-1").
  split; [|split; [discriminate|vm_compute; reflexivity]]. apply rr_env; auto. split; [vm_compute; reflexivity|discriminate].
Qed.
(** Init takes the credentials of the first source in the documented order that offers any, exactly
    as it offers them, and fails only if none does. *)
Theorem init_partial : forall w region, proper w -> uri_ok w ->
  (forall s c, Init w region = Ready s c <-> first_offer w region s c)
  /\ (Init w region = NoCreds <-> forall s c, ~ offers w region s c).
Proof. exact init_pf. Qed.
(** A metadata service that answers with JSON that is not an object brings about undefined behaviour. *)
Theorem init_ub_refuted : exists w, (forall q b, w_net w q = Some b -> b <> []) /\ Init w (text "us-east-1") = InitUb.
Proof.
  exists (World (fun _ => None) (fun _ => None) (fun _ => Some (text "[]")) (fun _ => JOther) (fun _ => None) (fun _ => None) (fun s => s)).
  split; [intros q b [= <-]; discriminate|vm_compute; reflexivity].
Qed.

Print Assumptions ini_total.
Print Assumptions ini_spec.
Print Assumptions url_parsed_partial.
Print Assumptions url_brackets_refuted.
Print Assumptions endpoint_same_partial.
Print Assumptions endpoint_same_refuted.
Print Assumptions endpoint_order_partial.
Print Assumptions region_order_partial.
Print Assumptions region_order_refuted.
Print Assumptions region_empty_refuted.
Print Assumptions init_partial.
Print Assumptions init_ub_refuted.

(** A file with two sections, comments and blanks. *)
Definition nl : string := String (ascii_of_nat 10) EmptyString.
Definition file : string :=
  ("# keys" ++ nl ++ "[default]" ++ nl ++ "aws_access_key_id = AK=1 " ++ nl ++ "; more" ++ nl ++ "  aws_secret_access_key=S" ++ nl
   ++ "[other]" ++ nl ++ "aws_access_key_id=B" ++ nl)%string.
Example ini_met : ParseIniSection (text file) (text "default") =
    [(text "aws_access_key_id", text "AK=1"); (text "aws_secret_access_key", text "S")]
  /\ ParseIniSection (text file) (text "other") = [(text "aws_access_key_id", text "B")]
  /\ List.length (ParseIniSection (text file) []) = 3%nat /\ ParseIniSection (text file) (text "none") = [].
Proof. vm_compute. auto. Qed.
Example url_met : url_text (text "https://s3.example:9000/a/b") true (Url (text "s3.example") (text "9000") (text "/a/b") true)
  /\ endpoint_of (text "https://s3.example:443/a") = text "s3.example".
Proof.
  split; [|reflexivity].
  apply (ut (text "https://") true (text "s3.example:9000") true (text "s3.example") (text "9000") (text "/a/b") (text "/a/b")).
  - constructor.
  - apply (au_port true (text "s3.example") (text "9000")); [split; [|left]|..]; vm_compute; intuition discriminate.
  - apply pa_path.
  - discriminate.
Qed.
(** A world with a metadata service and a file without keys: the service's keys are taken. *)
Definition imds_world : world :=
  World (fun _ => None) (fun _ => Some (text "[default]"))
    (fun q => if str_eq (q_method q) (text "PUT") then Some (text "T ")
              else if str_eq (q_path q) (text "/latest/meta-data/iam/security-credentials/") then Some (text "role")
              else match q_headers q with [(_, t)] => if str_eq t (text "T") then Some (text "{..}") else None | _ => None end)
    (fun _ => JObj (fun k => if str_eq k (text "AccessKeyId") then Some (text "A") else if str_eq k (text "SecretAccessKey") then Some (text "B")
                             else if str_eq k (text "Expiration") then Some (text "soon") else None))
    (fun _ => None) (fun _ => Some 77%Z) (fun s => s).
Example init_met : proper imds_world /\ uri_ok imds_world
  /\ Init imds_world (text "eu") = Ready ImdsSrc (Creds (text "A") (text "B") [] 77).
Proof.
  split; [|split; [|vm_compute; reflexivity]].
  - intros q b H. split; [|discriminate]. intros ->. cbn [imds_world w_net] in H.
    destruct (str_eq (q_method q) _); [discriminate|]. destruct (str_eq (q_path q) _); [discriminate|].
    destruct (q_headers q) as [|[n t] [|]]; try discriminate. destruct (str_eq t _); discriminate.
  - split; intros r [H _]; discriminate.
Qed.
(** The environment comes first. *)
Example env_met : Init (world_of [("AWS_ACCESS_KEY_ID", "I"); ("AWS_SECRET_ACCESS_KEY", "S")]%string) [] = Ready EnvSrc (Creds (text "I") (text "S") [] 0)
  /\ region_of (world_of [("AWS_REGION", "eu-west-1")]%string) [] = text "eu-west-1"
  /\ service_endpoint (world_of []) [] (text "cn-north-1") = text "s3.cn-north-1.amazonaws.com.cn".
Proof. vm_compute. auto. Qed.
