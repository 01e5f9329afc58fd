(* C06, C28: the vote service over every history of requests, task interleavings, database-thread turns with I/O
   failures, crashes, restarts and epoch changes (VoteModel.vstep). `n_out` lists the headers whose vote was returned
   to a peer. *)
From Verif Require Import Util Types CommitteeModel CertModel LdbModel VoteModel VoteSpec VoteProofs2 Props_Committee.
Local Open Scope N_scope.

(* C06: at most one header per (author, epoch, round) is ever voted for. *)
Theorem C06_one_vote_per_slot :
  forall real c disk, collision_free real -> built c -> (forall a, disk (VOTES, a) = None) ->
  forall evs h1 h2, history_ok real evs ->
  In h1 (n_out (vrun (vinit c disk) evs)) -> In h2 (n_out (vrun (vinit c disk) evs)) ->
  h_author h1 = h_author h2 -> h_epoch h1 = h_epoch h2 -> h_round h1 = h_round h2 -> h1 = h2.
Proof. exact one_vote. Qed.
Print Assumptions C06_one_vote_per_slot.

(* a vote newly recorded for an author is for a strictly newer slot than every vote returned before for that author *)
Theorem C06_new_votes_are_strictly_newer :
  forall real c disk, collision_free real -> built c -> (forall a, disk (VOTES, a) = None) ->
  forall evs e h x, history_ok real evs ->
  let n := vrun (vinit c disk) evs in
  n_fresh (vstep n e) = n_fresh n ++ [h] -> In x (n_out n) -> h_author x = h_author h -> older x h.
Proof. exact fresh_newer. Qed.
Print Assumptions C06_new_votes_are_strictly_newer.

(* before a vote leaves the node, its record is durable: after a crash at any later moment the store still shows that
   record or a newer one, or it was cleared at an epoch change *)
Theorem C06_votes_are_durable_before_sent :
  forall real c disk, collision_free real -> built c -> (forall a, disk (VOTES, a) = None) ->
  forall evs h, history_ok real evs ->
  let n := vrun (vinit c disk) evs in In h (n_out n) ->
  match l_get (l_crash (n_db n)) (VOTES, h_author h) with
  | Some v => (h_epoch h < vi_epoch v) \/ (h_epoch h = vi_epoch v /\ h_round h < vi_round v) \/
              (h_epoch h = vi_epoch v /\ h_round h = vi_round v /\ h_digest h = vi_digest v)
  | None => h_epoch h < cm_epoch (n_com n)
  end.
Proof. exact durable. Qed.
Print Assumptions C06_votes_are_durable_before_sent.

(* C28: every header voted for satisfied all admission rules at some earlier moment of the history *)
Theorem C28_votes_only_for_admissible_headers :
  forall real c disk, collision_free real -> built c -> (forall a, disk (VOTES, a) = None) ->
  forall evs h, history_ok real evs ->
  In h (n_out (vrun (vinit c disk) evs)) ->
  exists pre i e post, evs = pre ++ VCheck i e :: post /\ admissible (n_com (vrun (vinit c disk) pre)) e h.
Proof. exact votes_admissible. Qed.
Print Assumptions C28_votes_only_for_admissible_headers.

(* ---- a concrete history ---- *)
Definition ev_c : committee := match build ex_idof 3 ex_entries with Some c => c | None => mkCommittee 0 [] [] 0 0 end.
Definition ev_gen (o : N) : cert := mkCert (mkHeader o 0 3 90 [] [] 0 0 9 o) Genesis [].
Definition ev_env : venv := mkVenv 5 50 true true 0 100 [] [] true true (fun d => Some (ev_gen d)) (fun _ => None) true 100 1.
(* author 8, round 1, parents = five genesis certificates *)
Definition ev_h (d : N) : header := mkHeader 8 1 3 100 [(77, 0)] [8;16;39;47;70] 0 0 9 d.
Definition ev_vote (h : header) : list vev :=
  [VRequest 8 h [] true; VLock 0; VCheck 0 ev_env; VRead 0 true; VDecide 0; VPersist 0; VDb true; VDb true; VAck 0].
Definition ev_hist : list vev :=
  ev_vote (ev_h 1000) ++ [VCrash] ++ ev_vote (ev_h 1001) ++
  (* the same header again after the crash: recast on the fast path *)
  [VRequest 8 (ev_h 1000) [] true; VPersist 0; VDb true; VAck 0].
Example C06_example :
  built ev_c /\ map h_digest (n_out (vrun (vinit ev_c (fun _ => None)) (ev_vote (ev_h 1000)))) = [1000] /\
  map h_digest (n_out (vrun (vinit ev_c (fun _ => None)) ev_hist)) = [1000; 1000] /\
  collision_free (fun h => h = ev_h 1000 \/ h = ev_h 1001) /\
  history_ok (fun h => h = ev_h 1000 \/ h = ev_h 1001) ev_hist.
Proof.
  split; [exists ex_idof, 3, ex_entries; vm_compute; reflexivity|].
  split; [vm_compute; reflexivity|]. split; [vm_compute; reflexivity|]. split.
  - intros h1 h2 [-> | ->] [-> | ->]; cbn; intros E; try reflexivity; discriminate.
  - unfold history_ok, ev_hist, ev_vote. cbn [app]. repeat (apply Forall_cons; [cbn; auto|]). constructor.
Qed.
(* had the crash come before the record was durable, no vote had been returned *)
Example C06_example_crash_before_durable :
  n_out (vrun (vinit ev_c (fun _ => None))
    ([VRequest 8 (ev_h 1000) [] true; VLock 0; VCheck 0 ev_env; VRead 0 true; VDecide 0; VPersist 0; VDb true; VAck 0])) = [].
Proof. vm_compute. reflexivity. Qed.
