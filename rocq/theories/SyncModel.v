(* Model of crates/consensus/primary/src/state_sync/{cert_validator.rs, cert_manager.rs, pending_cert_manager.rs}. *)
From Verif Require Import Util Types CommitteeModel CertModel.
Local Open Scope N_scope.

(* ====================== cert_validator.rs: fetched batches ====================== *)
Section Fetched.
Variable averify : N -> N -> list N -> bool.    (* aggregate BLS verification *)
Variable genesis : list cert.
Variable com : committee.
Variable interval : N.                          (* sync_config().certificate_verification_round_interval *)
Variable gc : N.                                (* self.gc_round() *)

Inductive cv_err := TooOld | Invalid (e : dag_err) | NoSignature.

(* 112-131 `validate_and_verify` *)
Definition check_direct (c : cert) : result cert cv_err :=
  if c_round c <? gc then Err TooOld
  else match validate_and_verify averify genesis com c with Ok c' => Ok c' | Err e => Err (Invalid e) end.

(* 294-303 `requires_direct_verification`; u32::is_multiple_of(0) is `self == 0` *)
Definition multiple_of (r i : N) : bool := if i =? 0 then r =? 0 else r mod i =? 0.
Definition requires_direct (all_parents : list N) (c : cert) : bool :=
  negb (memN (c_digest c) all_parents) || multiple_of (c_round c) interval.

(* 308-316 `mark_verified_indirectly` *)
Definition mark_indirect (c : cert) : result cert cv_err :=
  match aggregated_signature (c_state c) with
  | Some s => Ok (set_state c (VerifiedIndirectly s))
  | None => Err NoSignature
  end.

(* 260-286 `classify_certificates_for_verification`: the marked slice and the (index, certificate) work list *)
Fixpoint classify (all_parents : list N) (i : nat) (l : list cert) : result (list cert * list (nat * cert)) cv_err :=
  match l with
  | [] => Ok ([], [])
  | c :: t =>
      match (if requires_direct all_parents c then Ok (c, [(i, c)])
             else match mark_indirect c with Ok c' => Ok (c', []) | Err e => Err e end) with
      | Err e => Err e
      | Ok (c', w) => match classify all_parents (S i) t with
                      | Err e => Err e
                      | Ok (t', w') => Ok (c' :: t', w ++ w')
                      end
      end
  end.

(* 319-358 `verify_certificate_chunk`, `spawn_verification_task`: the chunks are verified in order and any error fails the
   whole call, so chunking does not matter (the error reported may differ) *)
Fixpoint verify_all (w : list (nat * cert)) : result (list (nat * cert)) cv_err :=
  match w with
  | [] => Ok []
  | (i, c) :: t => match check_direct c with
                   | Err e => Err e
                   | Ok c' => match verify_all t with Err e => Err e | Ok t' => Ok ((i, c') :: t') end
                   end
  end.
Fixpoint set_nth {A} (i : nat) (x : A) (l : list A) : list A :=
  match i, l with
  | _, [] => []
  | O, _ :: t => x :: t
  | S i, y :: t => y :: set_nth i x t
  end.
(* 233-257 `verify_collection` *)
Definition verify_collection (l : list cert) : result (list cert) cv_err :=
  match classify (flat_map c_parents l) 0 l with
  | Err e => Err e
  | Ok (marked, w) =>
      match verify_all w with
      | Err e => Err e
      | Ok done => Ok (fold_left (fun acc x => set_nth (fst x) (snd x) acc) done marked)
      end
  end.

(* certificate_fetcher.rs 498-522: every fetched certificate is first reset to `Unverified` (genesis-state ones are refused), and
   the response is then handed to 235-243 `process_fetched_certificates_in_parallel`, whose forwarding is [process] below *)
Fixpoint reset_all (l : list cert) : result (list cert) cv_err :=
  match l with
  | [] => Ok []
  | c :: t => match validate_received c with
              | Err _ => Err NoSignature
              | Ok c' => match reset_all t with Err e => Err e | Ok t' => Ok (c' :: t') end
              end
  end.
Definition process_fetched (l : list cert) : result (list cert) cv_err :=
  match reset_all l with Err e => Err e | Ok l' => verify_collection l' end.
End Fetched.

(* ====================== pending_cert_manager.rs ====================== *)
(* 15-22 `PendingCertificate` *)
Record pcert := mkPcert { pc_cert : cert; pc_missing : list N }.

(* hash maps and B-tree maps: association lists with at most one entry per key *)
Section Assoc.
Context {K V : Type}.
Variable eqb : K -> K -> bool.
Fixpoint a_get (k : K) (m : list (K * V)) : option V :=
  match m with [] => None | (k', v) :: t => if eqb k k' then Some v else a_get k t end.
Definition a_del (k : K) (m : list (K * V)) : list (K * V) := filter (fun x => negb (eqb k (fst x))) m.
Definition a_put (k : K) (v : V) (m : list (K * V)) : list (K * V) := (k, v) :: a_del k m.
End Assoc.
Definition rkey : Type := N * N.                         (* (round, digest) *)
Definition rkey_eqb (a b : rkey) : bool := (fst a =? fst b) && (snd a =? snd b).
Definition rkey_ltb (a b : rkey) : bool := (fst a <? fst b) || ((fst a =? fst b) && (snd a <? snd b)).

(* 37-50 `PendingCertificateManager` *)
Record pmgr := mkPmgr {
  pm_pending : list (N * pcert);
  pm_missing : list (rkey * list N)
}.
Definition pm_new : pmgr := mkPmgr [] [].

Inductive cm_err := Unverified' | Pending (d : N) | InvalidGenesisParent | PendingParentsMismatch | PendingCertificateNotFound
                  | StoreError | OutOfFuel.

(* HashSet operations on duplicate-free lists *)
Definition set_add (x : N) (l : list N) : list N := if memN x l then l else x :: l.
Definition set_remove' (x : N) (l : list N) : list N := filter (fun y => negb (y =? x)) l.
Definition set_eqb (a b : list N) : bool := forallb (fun x => memN x b) a && forallb (fun x => memN x a) b.

(* 58-93 `insert_pending` *)
Definition insert_pending (c : cert) (missing : list N) (m : pmgr) : result pmgr cm_err :=
  let d := c_digest c in
  let pr := c_round c - 1 in
  let put := a_put N.eqb d (mkPcert c missing) (pm_pending m) in
  if match a_get N.eqb d (pm_pending m) with Some old => negb (set_eqb (pc_missing old) missing) | None => false end
  then Err PendingParentsMismatch
  else Ok (mkPmgr put
         (fold_left (fun mm p => a_put rkey_eqb (pr, p)
                                   (set_add d (match a_get rkey_eqb (pr, p) mm with Some s => s | None => [] end)) mm)
                    missing (pm_missing m))).

(* the order in which a HashSet is walked: arbitrary, and possibly different at every walk ([nat] numbers the walks of one call) *)
Definition order : Type := nat -> list N -> list N.

(* 114-140: the body for the certificates blocked by one digest *)
Fixpoint unblock (parent : N) (ds : list N) (m : pmgr) (work : list rkey) (ready : list cert)
  : result (pmgr * list rkey * list cert) cm_err :=
  match ds with
  | [] => Ok (m, work, ready)
  | d :: t =>
      match a_get N.eqb d (pm_pending m) with
      | None => Err PendingCertificateNotFound
      | Some p =>
          let left := set_remove' parent (pc_missing p) in
          match left with
          | [] => unblock parent t (mkPmgr (a_del N.eqb d (pm_pending m)) (pm_missing m))
                          (work ++ [(c_round (pc_cert p), d)]) (ready ++ [pc_cert p])
          | _ => unblock parent t (mkPmgr (a_put N.eqb d (mkPcert (pc_cert p) left) (pm_pending m)) (pm_missing m)) work ready
          end
      end
  end.
(* 97-144 `update_pending`: the work list is a queue; [fuel] bounds the loop (shown to be enough) *)
Fixpoint cascade (ord : order) (fuel : nat) (m : pmgr) (work : list rkey) (ready : list cert) : result (pmgr * list cert) cm_err :=
  match work with
  | [] => Ok (m, ready)
  | k :: work =>
      match fuel with
      | O => Err OutOfFuel
      | S f =>
          match a_get rkey_eqb k (pm_missing m) with
          | None => cascade ord f m work ready
          | Some ds =>
              match unblock (snd k) (ord fuel ds) (mkPmgr (pm_pending m) (a_del rkey_eqb k (pm_missing m))) work ready with
              | Err e => Err e
              | Ok (m', work', ready') => cascade ord f m' work' ready'
              end
          end
      end
  end.
Definition update_pending (ord : order) (k : rkey) (m : pmgr) : result (pmgr * list cert) cm_err :=
  cascade ord (S (length (pm_pending m))) m [k] [].

(* 150-171 `next_for_gc_round` *)
Fixpoint first_key (m : list (rkey * list N)) : option rkey :=
  match m with
  | [] => None
  | (k, _) :: t => match first_key t with
                   | Some k' => if rkey_ltb k' k then Some k' else Some k
                   | None => Some k
                   end
  end.
Definition next_for_gc (gc : N) (m : pmgr) : option (rkey * pmgr) :=
  match first_key (pm_missing m) with
  | None => None
  | Some (r, d) =>
      if gc <? r then None
      else Some ((r, d), match a_get N.eqb d (pm_pending m) with
                         | Some p => mkPmgr (a_put N.eqb d (mkPcert (pc_cert p) []) (pm_pending m)) (pm_missing m)
                         | None => m
                         end)
  end.

(* ====================== cert_manager.rs ====================== *)
(* pending_cert_manager.rs 174-176 `is_pending` *)
Definition is_pending (m : pmgr) (d : N) : bool := match a_get N.eqb d (pm_pending m) with Some _ => true | None => false end.
(* 186-188 `filter_unknown_digests`, asked by the header validator through the manager's channel *)
Definition filter_unknown (m : pmgr) (unknown : list N) : list N := filter (fun d => negb (is_pending m d)) unknown.

Section Sync.
Variable gc_depth : N.
Variable is_genesis : N -> bool.       (* config.genesis().contains_key *)

Record csync := mkCsync {
  y_commit : N;                 (* committed_round of the consensus bus *)
  y_store : list cert;          (* certificate store, newest last; nothing deletes from it within an epoch *)
  y_mgr : pmgr;
  y_out : list (N * cert)       (* history: (gc round at the time, certificate) sent to consensus, oldest first *)
}.
Definition stored (s : list cert) (d : N) : bool := existsb (fun c => c_digest c =? d) s.
(* consensus/utils.rs 60-62 *)
Definition gc_of (s : csync) : N := y_commit s - gc_depth.
Definition see_commit (r : N) (s : csync) : csync := mkCsync (N.max (y_commit s) r) (y_store s) (y_mgr s) (y_out s).

(* 138-181 `get_missing_parents` *)
Definition missing_parents (c : cert) (s : csync) : result (list N) cm_err :=
  if c_round c =? 1 then if forallb is_genesis (c_parents c) then Ok [] else Err InvalidGenesisParent
  else Ok (nodup N.eq_dec (filter (fun p => negb (stored (y_store s) p)) (c_parents c))).

(* 189-220 `accept_verified_certificates`; [ok]: the storage write succeeds. The two channel sends are assumed to succeed:
   their failure shuts the node down. *)
Definition accept_all (ok : bool) (l : list cert) (s : csync) : result csync cm_err :=
  if ok then Ok (mkCsync (y_commit s) (y_store s ++ l) (y_mgr s) (y_out s ++ map (fun c => (gc_of s, c)) l)) else Err StoreError.
Definition with_mgr (s : csync) (m : pmgr) : csync := mkCsync (y_commit s) (y_store s) m (y_out s).

(* what the environment decides while one certificate is handled *)
Record env1 := mkEnv { e_commit : N; e_ok : bool; e_ord : order }.
(* 74-133 `process_verified_certificates`: each certificate comes with the commit round the watch shows when it is handled and
   with the outcome of its storage write ([env1]). On an error the state reached so far stays. *)
Fixpoint process (l : list (env1 * cert)) (res : result unit cm_err) (s : csync) : csync * result unit cm_err :=
  match l with
  | [] => (s, res)
  | (ev, c) :: t =>
      let s := see_commit (e_commit ev) s in
      let d := c_digest c in
      if negb (is_verified c) then (s, Err Unverified')
      else if is_pending (y_mgr s) d
      then process t (Err (Pending d)) s
      else
        let go s :=
          match update_pending (e_ord ev) (c_round c, d) (y_mgr s) with
          | Err e => (s, Err e)
          | Ok (m, unlocked) =>
              match accept_all (e_ok ev) (c :: unlocked) (with_mgr s m) with
              | Err e => (with_mgr s m, Err e)
              | Ok s' => process t res s'
              end
          end in
        if gc_of s + 1 <? c_round c
        then match missing_parents c s with
             | Err e => (s, Err e)
             | Ok [] => go s
             | Ok miss => match insert_pending c miss (y_mgr s) with
                          | Err e => (with_mgr s (mkPmgr (a_put N.eqb d (mkPcert c miss) (pm_pending (y_mgr s))) (pm_missing (y_mgr s))), Err e)
                          | Ok m => process t (Err (Pending d)) (with_mgr s m)
                          end
             end
        else go s
  end.

(* 227-242 `process_gc_round` *)
Fixpoint gc_loop (fuel : nat) (g : N) (envs : list (bool * order)) (s : csync) : csync * result unit cm_err :=
  match next_for_gc g (y_mgr s) with
  | None => (s, Ok tt)
  | Some (k, m) =>
      match fuel with
      | O => (s, Err OutOfFuel)
      | S f =>
          let ev := List.hd (true, fun _ l => l) envs in
          match update_pending (snd ev) k m with
          | Err e => (with_mgr s m, Err e)
          | Ok (m', unlocked) =>
              match accept_all (fst ev) unlocked (with_mgr s m') with
              | Err e => (with_mgr s m', Err e)
              | Ok s' => gc_loop f g (List.tl envs) s'
              end
          end
      end
  end.
Definition gc_round_event (r : N) (envs : list (bool * order)) (s : csync) : csync * result unit cm_err :=
  let s := see_commit r s in gc_loop (length (pm_missing (y_mgr s))) (gc_of s) envs s.

(* 246-262 the long-running loop: batches of verified certificates and gc rounds, in any order *)
Inductive sev := SCerts (l : list (env1 * cert)) | SGc (r : N) (envs : list (bool * order)).
Definition sstep (s : csync) (e : sev) : csync * result unit cm_err :=
  match e with
  | SCerts l => process l (Ok tt) s
  | SGc r envs => gc_round_event r envs s
  end.
Fixpoint srun (s : csync) (evs : list sev) : csync := match evs with [] => s | e :: t => srun (fst (sstep s e)) t end.
Fixpoint sresults (s : csync) (evs : list sev) : list (result unit cm_err) :=
  match evs with [] => [] | e :: t => snd (sstep s e) :: sresults (fst (sstep s e)) t end.
Definition sinit (commit : N) (store : list cert) : csync := mkCsync commit store pm_new [].
End Sync.
