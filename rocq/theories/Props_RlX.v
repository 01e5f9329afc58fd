(** C66: concrete histories, and what does not hold. *)
From Verif Require Import Util RlModel RlSpec RlProofs Props_Rl.
Local Open Scope N_scope.

Definition sec : N := NS.
Definition ex_cf : conf := {| c_global := Some {| rate := 10; burst := 3 |}; c_client := Some {| rate := 1; burst := 2 |}; c_max := 2; c_v4 := 32; c_v6 := 64 |}.
Definition ca : addr := V4 167772161.                       (* 10.0.0.1 *)
Definition ca6 : addr := V6 (65535 * 2 ^ 32 + 167772161).   (* ::ffff:10.0.0.1 *)
Definition cb : addr := V6 (42540766411282592856903984951653826561 + 7).
Definition cb' : addr := V6 (42540766411282592856903984951653826561 + 2 ^ 63).
(** Two clients, one of them seen under two addresses each; a sweep; a refusal by either limit; a request a second later. *)
Definition ex_es : list event :=
  [Request 0 (Some ca); Request 0 (Some ca6); Request 0 (Some cb); Request 0 (Some cb'); Sweep sec; Request sec (Some ca); Request sec (Some ca6); Request sec None].
Theorem C66_example :
  conf_ok ex_cf /\ in_order 0 ex_es /\ few_clients ex_cf ex_es /\ same_client 32 64 ca ca6 /\ same_client 32 64 cb cb' /\ ~ same_client 32 64 ca cb /\
  map e_out (history ex_cf 0 ex_es) = [Passed; Passed; Passed; RefusedGlobal; Passed; RefusedClient; Passed].
Proof.
  split; [split; intros l E; injection E as <-; split; cbv; discriminate|]. split; [cbn; cbv; repeat split; discriminate|].
  split.
  { exists [key ex_cf ca; key ex_cf cb]. split; [vm_compute; discriminate|]. intros t a I. unfold ex_es in I. cbn [In] in I.
    repeat (destruct I as [I|I]; [try discriminate; injection I as <- <-; vm_compute; auto|]). destruct I. }
  split; [vm_compute; reflexivity|]. split; [vm_compute; reflexivity|]. split; [vm_compute; tauto|]. vm_compute. reflexivity.
Qed.

(** The clock is read before the lock is taken.  A request that read it early and takes the lock late sets the refill time back, and
    the same second refills the bucket twice: three requests get through in one second under a limit of one per second and a burst
    of one. *)
Theorem C66_clock_before_lock_refuted : exists cf l es, c_global cf = Some l /\ limit_set l /\ rate l = 1 /\ burst l = 1 /\
  (forall e, In e es -> time e <= sec) /\ map e_out (history cf 0 es) = [Passed; Passed; RefusedGlobal; Passed] /\
  burst l * NS + rate l * sec < NS * count passed_global (history cf 0 es).
Proof.
  exists {| c_global := Some {| rate := 1; burst := 1 |}; c_client := None; c_max := 1; c_v4 := 32; c_v6 := 64 |}, {| rate := 1; burst := 1 |},
    [Request 0 None; Request sec None; Request 0 None; Request sec None].
  split; [reflexivity|]. split; [split; cbv; discriminate|]. split; [reflexivity|]. split; [reflexivity|]. split.
  - intros e [<-|[<-|[<-|[<-|[]]]]]; cbv; discriminate.
  - split; vm_compute; reflexivity.
Qed.

(** A request that its client's limit refuses has already been charged to the whole gateway: one client that keeps asking shuts out the
    others.  Here one of its requests was let through in all, and the first request of another client is refused. *)
Theorem C66_refused_requests_starve_refuted : exists cf es t b, conf_ok cf /\ in_order 0 (es ++ [Request t (Some b)]) /\ few_clients cf (es ++ [Request t (Some b)]) /\
  c_global cf = Some {| rate := 2; burst := 10 |} /\
  count (fun e => match e_out e with Passed => true | _ => false end) (history cf 0 es) = 1 /\
  ~ (exists u a, In (Request u (Some a)) es /\ key cf a = key cf b) /\
  map e_out (history cf 0 (es ++ [Request t (Some b)])) = [Passed] ++ repeat RefusedClient 9 ++ [RefusedGlobal].
Proof.
  exists {| c_global := Some {| rate := 2; burst := 10 |}; c_client := Some {| rate := 1; burst := 1 |}; c_max := 100; c_v4 := 32; c_v6 := 64 |},
    (repeat (Request 0 (Some ca)) 10), 0, cb.
  split; [split; intros l E; injection E as <-; split; cbv; discriminate|]. split; [cbn; cbv; repeat split; discriminate|].
  split.
  { exists [key ex_cf ca; key ex_cf cb]. split; [vm_compute; discriminate|]. intros t a I. apply in_app_iff in I. destruct I as [I|[I|[]]].
    - apply repeat_spec in I. injection I as -> ->. left. reflexivity.
    - injection I as <- <-. right. left. reflexivity. }
  split; [reflexivity|]. split; [vm_compute; reflexivity|]. split; [|vm_compute; reflexivity].
  intros [u [a [I E]]]. apply repeat_spec in I. injection I as -> ->. vm_compute in E. discriminate.
Qed.

(** A client that comes when the table is full is not limited at all, as the code says; the table stays full as long as the clients in
    it keep busy. *)
Theorem C66_untracked_refuted : exists cf l, conf_ok cf /\ c_client cf = Some l /\ burst l = 1 /\ c_global cf = None /\
  forall n, map e_out (history cf 0 (Request 0 (Some cb) :: repeat (Request 0 (Some ca)) n)) = Passed :: repeat Passed n.
Proof.
  exists {| c_global := None; c_client := Some {| rate := 1; burst := 1 |}; c_max := 1; c_v4 := 32; c_v6 := 64 |}, {| rate := 1; burst := 1 |}.
  split; [split; intros l E; [discriminate|injection E as <-; split; cbv; discriminate]|]. repeat (split; [reflexivity|]).
  intros n. unfold history. cbn [run]. set (cf := {| c_global := None |}). 
  destruct (step cf (start cf 0) (Request 0 (Some cb))) as [s h] eqn:E.
  assert (Es : s = {| g := {| tok := 0; at_ := 0 |}; tbl := [(key cf cb, {| tok := 0; at_ := 0 |})] |} /\ map e_out h = [Passed]).
  { vm_compute in E. injection E as <- <-. vm_compute. auto. }
  destruct Es as [Es Eh].
  assert (St : step cf s (Request 0 (Some ca)) = (s, [{| e_time := 0; e_peer := Some ca; e_out := Passed |}])) by (subst s; vm_compute; reflexivity).
  clear E Es. assert (R : forall m, map e_out (snd (run cf s (repeat (Request 0 (Some ca)) m))) = repeat Passed m).
  { induction m as [|m IH]; [reflexivity|]. cbn [repeat run]. rewrite St. destruct (run cf s (repeat (Request 0 (Some ca)) m)) as [s2 h2].
    cbn [snd] in *. cbn [app map e_out]. rewrite IH. reflexivity. }
  specialize (R n). destruct (run cf s (repeat (Request 0 (Some ca)) n)) as [s2 h2]. cbn [snd] in *. rewrite map_app, Eh, R. reflexivity.
Qed.
