(** C77: listing objects and buckets. Definitions: CloudListSpec.v. *)
From Verif Require Import Util UrlModel UrlSpec UrlProof CloudListModel CloudListSpec CloudListProof.
From Coq Require Import String Ascii.
Local Open Scope N_scope.

(** ** The request: the server reads back the prefix and the token, whatever bytes they have. [opt k x]: the parameter is there unless
    empty; [delim recursive]: delimiter=/ unless recursive. *)
Theorem list_gcs_url : forall bucket prefix recursive max token, ~ In 63 bucket -> digits max -> bytes prefix -> bytes token ->
  exists url, gcs_url bucket prefix recursive max token = Some url /\
    sees url (str "/storage/v1/b/" ++ bucket ++ str "/o")
      ([(str "maxResults", max); (str "prefix", prefix)] ++ delim recursive ++ opt "pageToken" token).
Proof. exact list_gcs_url_pf. Qed.
Print Assumptions list_gcs_url.
Theorem list_s3_url : forall (virt : bool) bucket prefix recursive max token, ~ In 63 bucket -> digits max -> bytes prefix -> bytes token ->
  exists url, s3_url virt bucket prefix recursive max token = Some url /\
    sees url (if virt then str "/" else str "/" ++ bucket)
      ([(str "list-type", str "2"); (str "max-keys", max)] ++ opt "prefix" prefix ++ delim recursive ++ opt "continuation-token" token).
Proof. exact list_s3_url_pf. Qed.
Print Assumptions list_s3_url.
Theorem list_az_url : forall pp container prefix recursive max token, ~ In 63 pp -> ~ In 63 container -> digits max -> bytes prefix -> bytes token ->
  exists url, az_url pp container prefix recursive max token = Some url /\
    sees url (pp ++ str "/" ++ container)
      ([(str "restype", str "container"); (str "comp", str "list"); (str "maxresults", max)] ++ opt "prefix" prefix ++ delim recursive ++ opt "marker" token).
Proof. exact list_az_url_pf. Qed.
Print Assumptions list_az_url.
Theorem list_buckets_url : forall project token, ~ In 37 project -> ~ In 38 project -> bytes token ->
  exists url, buckets_url project (Some token) = Some url /\
    sees url (str "/storage/v1/b")
      [(str "project", project); (str "maxResults", str "50"); (str "fields", str "items/id,nextPageToken"); (str "pageToken", token)].
Proof. exact list_buckets_url_pf. Qed.
Print Assumptions list_buckets_url.
(** A request is read in one way only: no prefix or token can pass for another parameter. *)
Theorem list_sees_unique : forall url path ps path' ps', sees url path ps -> sees url path' ps' -> path = path' /\ ps = ps'.
Proof. exact list_sees_unique_pf. Qed.
Print Assumptions list_sees_unique.
Example list_url_met :
  gcs_url (str "b") (str "a&b=c?/%") false (str "10") (str "t==") = Some (str "/storage/v1/b/b/o?maxResults=10&prefix=a%26b%3Dc%3F%2F%25&delimiter=%2f&pageToken=t%3D%3D") /\
  s3_url true (str "b") (str "x y") true (str "10") [] = Some (str "/?list-type=2&max-keys=10&prefix=x%20y").
Proof. split; vm_compute; reflexivity. Qed.

(** ** The loop: what the callback was called with is what the server holds, in its order, and only a failing request gives an error. *)
Section P.
Variable item : Type.
Definition gcs_server (serve : list N -> option (gpage item)) (t : list N) : option (list item * list N) :=
  match serve t with
  | Some p => Some (match g_items _ p with Some l => l | None => [] end ++ match g_prefixes _ p with Some l => l | None => [] end,
                    match g_next _ p with Some t' => t' | None => [] end)
  | None => None
  end.
Definition s3_server (serve : list N -> option (spage item)) (t : list N) : option (list item * list N) :=
  match serve t with Some p => Some (s_items _ p ++ s_prefixes _ p, if s_trunc _ p then s_next _ p else []) | None => None end.
Definition az_server (serve : list N -> option (apage item)) (t : list N) : option (list item * list N) :=
  match serve t with Some p => Some (a_items _ p ++ a_prefixes _ p, a_next _ p) | None => None end.
Lemma ext_l f g t l : (forall x, f x = g x) -> listing item f t l -> listing item g t l.
Proof. intros E H. induction H; [apply l_last; now rewrite <- E|]. eapply l_more; [now rewrite <- E; eassumption|assumption|assumption]. Qed.
Lemma ext_b f g t l : (forall x, f x = g x) -> broken item f t l -> broken item g t l.
Proof. intros E H. induction H; [apply b_fail; now rewrite <- E|]. eapply b_more; [now rewrite <- E; eassumption|assumption|assumption]. Qed.
Lemma loop page server (silent : forall t, snd (page t) = None -> fst (page t) = []) (E : forall t, serves item page t = server t) l :
  ((exists fuel, list_all item page fuel [] [] = Ok item l) <-> listing item server [] l) /\
  ((exists fuel, list_all item page fuel [] [] = Err item l) <-> broken item server [] l).
Proof.
  split; split.
  - intros (f & H). apply (all_sound item page silent) in H as (l' & -> & H). exact (ext_l _ _ _ _ E H).
  - intros H. apply (all_ok item page [] l []). apply (ext_l server); [now intros x; rewrite E|exact H].
  - intros (f & H). apply (all_sound item page silent) in H as (l' & -> & H). exact (ext_b _ _ _ _ E H).
  - intros H. apply (all_err item page silent [] l []). apply (ext_b server); [now intros x; rewrite E|exact H].
Qed.
Theorem list_gcs_loop : forall serve l,
  ((exists fuel, list_all item (fun t => gcs_page item (serve t)) fuel [] [] = Ok item l) <-> listing item (gcs_server serve) [] l) /\
  ((exists fuel, list_all item (fun t => gcs_page item (serve t)) fuel [] [] = Err item l) <-> broken item (gcs_server serve) [] l).
Proof. intros serve l. apply loop; intros t; [|unfold serves, gcs_server]; destruct (serve t); cbn; try discriminate; reflexivity. Qed.
Theorem list_s3_loop : forall serve l,
  ((exists fuel, list_all item (fun t => s3_page item (serve t)) fuel [] [] = Ok item l) <-> listing item (s3_server serve) [] l) /\
  ((exists fuel, list_all item (fun t => s3_page item (serve t)) fuel [] [] = Err item l) <-> broken item (s3_server serve) [] l).
Proof. intros serve l. apply loop; intros t; [|unfold serves, s3_server]; destruct (serve t); cbn; try discriminate; reflexivity. Qed.
Theorem list_az_loop : forall serve l,
  ((exists fuel, list_all item (fun t => az_page item (serve t)) fuel [] [] = Ok item l) <-> listing item (az_server serve) [] l) /\
  ((exists fuel, list_all item (fun t => az_page item (serve t)) fuel [] [] = Err item l) <-> broken item (az_server serve) [] l).
Proof. intros serve l. apply loop; intros t; [|unfold serves, az_server]; destruct (serve t); cbn; try discriminate; reflexivity. Qed.

(** ** Buckets. Full statement: as [list_gcs_loop]. Proved if no page without items has a successor. *)
Definition bucket_server (serve : list N -> option (gpage item)) (t : list N) : option (list item * list N) :=
  match serve t with
  | Some p => Some (match g_items _ p with Some l => l | None => [] end, match g_next _ p with Some t' => t' | None => [] end)
  | None => None
  end.
Theorem list_buckets_partial : forall serve l, (forall t p, serve t = Some p -> g_next item p <> Some [] /\ (g_items item p = None -> g_next item p = None)) ->
  ((exists fuel, list_buckets item serve fuel [] [] = Ok item l) <-> listing item (bucket_server serve) [] l) /\
  ((exists fuel, list_buckets item serve fuel [] [] = Err item l) <-> broken item (bucket_server serve) [] l).
Proof.
  intros serve l F. split; split.
  - intros (f & H). pose proof (buckets_sound item serve F f [] []) as X. rewrite H in X. destruct X as (l' & -> & X). exact X.
  - exact (buckets_ok item serve F [] l []).
  - intros (f & H). pose proof (buckets_sound item serve F f [] []) as X. rewrite H in X. destruct X as (l' & -> & X). exact X.
  - exact (buckets_err item serve F [] l []).
Qed.
(** Containers: proved if the server holds no more than a page. *)
Theorem list_containers_partial : forall serve l, (forall p, serve [] = Some p -> a_prefixes item p = [] /\ a_next item p = []) ->
  (list_containers item (serve []) = Ok item l <-> listing item (az_server serve) [] l) /\
  (list_containers item (serve []) = Err item l <-> broken item (az_server serve) [] l).
Proof.
  intros serve l F. unfold list_containers. destruct (serve []) as [p|] eqn:E.
  - destruct (F p eq_refl) as [F1 F2]. assert (Es : az_server serve [] = Some (a_items _ p, [])) by (unfold az_server; rewrite E, F1, F2, app_nil_r; reflexivity).
    split; split; intros H; try discriminate; [injection H as <-; now constructor| |]; inversion H; congruence.
  - assert (Es : az_server serve [] = None) by (unfold az_server; now rewrite E).
    split; split; intros H; try discriminate; [inversion H; congruence|injection H as <-; now constructor|inversion H; congruence].
Qed.
(** The listing is one. *)
Theorem list_unique : forall server t l, listing item server t l -> (forall l', listing item server t l' -> l = l') /\ (forall l', ~ broken item server t l').
Proof.
  intros server t l H. induction H as [t l E|t l t' l2 E Nt H [I1 I2]].
  - split; [intros l' H'|intros l' H']; inversion H'; subst; congruence.
  - split; [intros l' H'|intros l' H']; inversion H'; subst; try congruence; match goal with X : server _ = Some _ |- _ => rewrite E in X end; match goal with X : Some _ = Some _ |- _ => injection X as <- <- end.
    + f_equal. now apply I1.
    + match goal with X : broken _ _ _ _ |- _ => exact (I2 _ X) end.
Qed.
End P.
Print Assumptions list_gcs_loop.
Print Assumptions list_s3_loop.
Print Assumptions list_az_loop.
Print Assumptions list_buckets_partial.
Print Assumptions list_containers_partial.
Print Assumptions list_unique.

(** Three pages, the second without items. *)
Definition ex_serve (t : list N) : option (gpage nat) :=
  match t with
  | [] => Some (mkGP nat (Some [1; 2]%nat) None (Some [65]))
  | [65] => Some (mkGP nat None None (Some [66]))
  | [66] => Some (mkGP nat (Some [3]%nat) (Some [4]%nat) None)
  | _ => None
  end.
Example list_gcs_met : list_all nat (fun t => gcs_page nat (ex_serve t)) 3 [] [] = Ok nat [1; 2; 3; 4]%nat.
Proof. reflexivity. Qed.
Example list_err_met : list_all nat (fun t => s3_page nat (match t with [] => Some (mkSP nat [1]%nat [2]%nat true [65]) | _ => None end)) 3 [] [] = Err nat [1; 2]%nat.
Proof. reflexivity. Qed.
Example list_buckets_met : let serve t := match t with [] => Some (mkGP nat (Some [1]%nat) None (Some [65])) | [_] => Some (mkGP nat None None None) | _ => None end in
  list_buckets nat serve 2 [] [] = Ok nat [1]%nat /\ (forall t p, serve t = Some p -> g_next nat p <> Some [] /\ (g_items nat p = None -> g_next nat p = None)).
Proof. split; [reflexivity|]. intros [|c [|d t]] p H; cbn in H; try discriminate; injection H as <-; cbn; split; congruence. Qed.

(** FINDING. ListBuckets ends, with success, at a page without items although it has a next page. *)
Theorem list_buckets_refuted : exists (serve : list N -> option (gpage nat)) l r,
  listing nat (bucket_server nat serve) [] l /\ list_buckets nat serve 10 [] [] = Ok nat r /\ r <> l.
Proof.
  exists ex_serve, ([1; 2] ++ [] ++ [3])%nat, [1; 2]%nat. split; [|split; [reflexivity|discriminate]].
  eapply (l_more nat _ [] [1; 2]%nat [65]); [reflexivity|discriminate|]. eapply (l_more nat _ [65] [] [66]); [reflexivity|discriminate|]. now apply l_last.
Qed.
Print Assumptions list_buckets_refuted.
(** FINDING. ListContainers gives the first page as if it was all. *)
Theorem list_containers_refuted : exists (serve : list N -> option (apage nat)) l r,
  listing nat (az_server nat serve) [] l /\ list_containers nat (serve []) = Ok nat r /\ r <> l.
Proof.
  exists (fun t => match t with [] => Some (mkAP nat [1]%nat [] [65]) | _ => Some (mkAP nat [2]%nat [] []) end), ([1] ++ [2])%nat, [1]%nat.
  split; [|split; [reflexivity|discriminate]]. eapply (l_more nat _ [] [1]%nat [65]); [reflexivity|discriminate|]. now apply l_last.
Qed.
Print Assumptions list_containers_refuted.
