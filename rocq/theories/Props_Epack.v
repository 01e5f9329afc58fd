(** C42: the consensus pack of an epoch. *)
From Verif Require Import Util OutModel OutSpec OutProofs EpackModel EpackSpec EpackProofs.
Local Open Scope nat_scope.

(** For every history of saves, persists and crashes (at any point of a persist, with any loss of
    unsynced data, index entries and digest entries, each followed by the repair on open), the pack
    opens and answers every read exactly like the log: the outputs accepted and not lost, in order,
    where a crash loses exactly the outputs saved after the last completed persist. *)
Theorem C42_pack_is_a_log bd addr hd cap rsz epoch start meta evs :
  (forall r, 0 < rsz r) ->
  (forall a b, ch_num a <> ch_num b -> digest_of hd a <> digest_of hd b) ->
  good_history bd addr cap epoch start {| l_outs := []; l_kept := 0 |} evs ->
  possible_history bd hd rsz epoch start meta (persist rsz (create rsz epoch start meta)) evs ->
  exists p, prun bd hd rsz epoch start meta (persist rsz (create rsz epoch start meta)) evs = Some p /\
            reads_like bd addr hd cap rsz start (l_outs (spec_run epoch start evs)) p.
Proof.
  intros Hr Hd G P.
  destruct (run_inv bd addr hd cap rsz Hr epoch start meta Hd evs _ _ (inv_create bd addr hd cap rsz epoch start meta) G P) as [p [E I]].
  exists p. split; auto. eapply inv_reads; eauto.
Qed.

(** Persisted outputs are never lost, whatever follows. *)
Lemma spec_kept epoch start evs : forall l, l_kept l <= length (l_outs l) ->
  firstn (l_kept l) (l_outs l) = firstn (l_kept l) (l_outs (fold_left (spec_step epoch start) evs l)) /\
  l_kept l <= length (l_outs (fold_left (spec_step epoch start) evs l)).
Proof.
  induction evs as [|e t IH]; intros l H; simpl; auto.
  assert (Hs : firstn (l_kept l) (l_outs l) = firstn (l_kept l) (l_outs (spec_step epoch start l e)) /\
               l_kept l <= l_kept (spec_step epoch start l e) /\
               l_kept (spec_step epoch start l e) <= length (l_outs (spec_step epoch start l e))).
  { destruct e as [o| |j m k c b]; simpl.
    - destruct (_ && _); simpl; auto. rewrite app_length; simpl. split; [|lia].
      rewrite firstn_app. replace (l_kept l - length (l_outs l)) with 0 by lia. rewrite app_nil_r; auto.
    - auto.
    - rewrite firstn_firstn, Nat.min_id, firstn_length. split; auto. lia. }
  destruct Hs as [E [K1 K2]]. destruct (IH _ K2) as [E' K'].
  split; [|lia]. rewrite E.
  replace (l_kept l) with (Nat.min (l_kept l) (l_kept (spec_step epoch start l e))) by lia.
  rewrite <- !firstn_firstn. rewrite E'; auto.
Qed.
Theorem C42_persisted_survive epoch start before after :
  exists more, l_outs (spec_run epoch start (before ++ Persist :: after)) = l_outs (spec_run epoch start before) ++ more.
Proof.
  unfold spec_run. rewrite fold_left_app. simpl.
  set (l := fold_left (spec_step epoch start) before {| l_outs := []; l_kept := 0 |}).
  destruct (spec_kept epoch start after {| l_outs := l_outs l; l_kept := length (l_outs l) |}) as [E K]; simpl in *; auto.
  rewrite firstn_all in E.
  exists (skipn (length (l_outs l)) (l_outs (fold_left (spec_step epoch start) after {| l_outs := l_outs l; l_kept := length (l_outs l) |}))).
  transitivity (firstn (length (l_outs l)) (l_outs (fold_left (spec_step epoch start) after {| l_outs := l_outs l; l_kept := length (l_outs l) |})) ++ skipn (length (l_outs l)) (l_outs (fold_left (spec_step epoch start) after {| l_outs := l_outs l; l_kept := length (l_outs l) |}))).
  { symmetry; apply firstn_skipn. }
  f_equal. symmetry; exact E.
Qed.

(** Saving refuses everything but the next number of the epoch; a number already held is ignored. *)
Theorem C42_save_answer bd hd rsz p o :
  (p_start p <= out_num o)%N ->
  (fst (save bd hd rsz p o) = None <->
   sd_epoch (out_sub o) <> p_epoch p \/ (p_start p + N.of_nat (length (p_idx p)) < out_num o)%N).
Proof.
  intros H. unfold save.
  destruct (sd_epoch (out_sub o) =? p_epoch p)%N eqn:E; cbn [negb].
  - apply N.eqb_eq in E. destruct (nth_error (p_idx p) _) eqn:Ne; simpl.
    + assert (N.to_nat (out_num o - p_start p) < length (p_idx p)) by (apply nth_error_Some; congruence).
      split; [intros C; discriminate C|]. intros [C|C]; [congruence|lia].
    + apply nth_error_None in Ne. destruct (_ =? length (p_idx p)) eqn:E2; cbn [negb].
      * apply Nat.eqb_eq in E2. destruct (fold_left _ _ _). simpl. split; [intros C; discriminate C|]. intros [C|C]; [congruence|lia].
      * apply Nat.eqb_neq in E2. simpl. split; auto. intros _. right. lia.
  - apply N.eqb_neq in E. simpl. split; auto.
Qed.

(** A batch answered by digest has that digest and was written to the pack. *)
Theorem C42_batch_answer_is_genuine bd rsz p d b :
  batch_by_digest bd rsz p d = Some b -> bd b = d /\ In (SRec (RBatch b)) (p_data p).
Proof.
  unfold batch_by_digest. destruct (dmap_get _ _); [|intros C; discriminate C].
  destruct (_ <=? _); [intros C; discriminate C|].
  destruct (fetch rsz n (p_data p)) as [[m|h|b'|]|] eqn:F; intros H; try discriminate H.
  destruct (N.eqb _ _) eqn:E; [|discriminate H]. injection H as ->. apply N.eqb_eq in E.
  split; auto. eapply fetch_in; eauto.
Qed.

(* ---------- a concrete pack ---------- *)
Definition xbd (b : N) : N := (b + 100)%N.
Definition xhd (p : N) (s : subdag) (n : N) : N := n.
Definition xaddr (a : N) : option N := if (a <? 4)%N then Some (a + 50)%N else None.
Definition xsz (r : rec) : nat := match r with RMeta _ => 30 | RHeader _ => 12 | RBatch _ => 7 | RBad => 1 end.
Definition xsub (i : N) (pl : list N) : subdag :=
  {| sd_hdrs := [{| oh_author := 1; oh_payload := pl |}; {| oh_author := 2; oh_payload := [] |}]; sd_epoch := 3; sd_ts := i; sd_id := i |}.
Definition xout (i num : N) (bs : list N) : output :=
  {| out_sub := xsub i (map xbd bs); out_parent := num; out_num := num; out_digests := map xbd bs;
     out_batches := [{| cb_addr := 51; cb_batches := bs |}; {| cb_addr := 52; cb_batches := [] |}] |}.
Definition xnew : epack := create xsz 3 11 77.
Definition xrun (p : epack) (evs : list pev) := prun xbd xhd xsz 3 11 77 p evs.

(** Three outputs (one repeating a batch), a persist after the second, then a crash inside the
    next persist after the header index was synced: two outputs are left, all readable, and the
    third can be saved again. *)
Definition xevs : list pev :=
  [Save (xout 1 11 [5; 3]%N); Save (xout 2 12 [3; 9; 3]%N); Persist; Save (xout 3 13 [8]%N); Crash J3 129 3 0 1; Save (xout 3 13 [8]%N)].
Lemma xgood i num bs : (11 <= num)%N -> bs <> [] -> length (batch_set (xsub i (map xbd bs))) <= 10 ->
  good_output xbd xaddr 10 11 (xout i num bs).
Proof.
  intros H Hb Hl. split; [|split; [|split; auto]].
  - unfold output_for; simpl. unfold named; simpl. rewrite !app_nil_r. repeat (split; auto).
    intros C. exfalso. apply Hb. destruct bs; auto; discriminate C.
  - intros a b _ _ E. unfold xbd in E. lia.
Qed.
Example C42_example_history :
  good_history xbd xaddr 10 3 11 {| l_outs := []; l_kept := 0 |} xevs /\
  possible_history xbd xhd xsz 3 11 77 (persist xsz xnew) xevs /\
  map out_num (l_outs (spec_run 3 11 xevs)) = [11; 12; 13]%N /\
  match xrun (persist xsz xnew) xevs with
  | Some p => get_output xbd xaddr xhd 10 xsz p 12 = Some (xout 2 12 [3; 9; 3]%N) /\ length (p_idx p) = 3
  | None => False
  end.
Proof.
  split; [|split; [|split; [vm_compute; auto|vm_compute; auto]]].
  - simpl. repeat split; auto; try (apply xgood; [lia|discriminate|vm_compute; repeat constructor]).
    intros [C _]; discriminate C.
  - simpl. repeat split; auto. vm_compute. discriminate.
Qed.

(** The excluded crash.  A pack's very first output is saved and a crash falls between the sync of
    the position index and the sync of the batch digests.  The repair cuts the data file back but
    leaves the single index entry, so after every later start the pack claims an output it cannot
    read: the latest header is an error (and with it the startup lookup of the last header,
    state-sync/src/lib.rs 155-170), and saving that output again is silently ignored. *)
Theorem C42_first_output_refuted :
  match xrun (persist xsz xnew) [Save (xout 1 11 [5; 3]%N); Crash J2 84 1 0 0] with
  | Some p => contains_number p 11 = true /\ latest_header xsz p = None /\
              get_output xbd xaddr xhd 10 xsz p 11 = None /\
              save xbd xhd xsz p (xout 1 11 [5; 3]%N) = (Some 26, p) /\
              fst (save xbd xhd xsz p (xout 2 12 [9]%N)) = Some 19 /\
              match xrun (persist xsz p) [Crash J0 58 1 0 0] with
              | Some p' => latest_header xsz p' = None
              | None => False
              end
  | None => False
  end.
Proof. vm_compute. repeat split. Qed.

(** A crash while a new pack's metadata is being written: the next open cannot read it, appends a
    second copy behind the torn one and carries on; outputs are saved and persisted, but the pack
    can no longer be opened as an existing one (storage/src/consensus.rs 357-364, every start once
    the slot file names this epoch). *)
Theorem C42_torn_metadata_refuted :
  match xrun xnew [Crash J0 40 0 0 0; Persist; Save (xout 1 11 [5; 3]%N); Persist] with
  | Some p => get_output xbd xaddr xhd 10 xsz p 11 = Some (xout 1 11 [5; 3]%N) /\
              match crash xsz p J0 (flen xsz (p_data p)) 1 0 0 with
              | Some im => open_append_exists xsz im 3 11 77 = None
              | None => False
              end
  | None => False
  end.
Proof. vm_compute. auto. Qed.

(** A batch that occurs in a persisted output can become unfindable by digest: a later output
    repeats it, its newer index entry survives a crash that cuts that output off, and the lookup
    then answers "absent" although the output that holds it is intact. *)
Theorem C42_batch_lookup_refuted :
  match xrun (persist xsz xnew) [Save (xout 1 11 [5; 3]%N); Persist; Save (xout 2 12 [3]%N); Crash J2 103 2 0 0] with
  | Some p => get_output xbd xaddr xhd 10 xsz p 11 = Some (xout 1 11 [5; 3]%N) /\ batch_by_digest xbd xsz p (xbd 3) = None
              /\ batch_by_digest xbd xsz p (xbd 5) = Some 5%N
  | None => False
  end.
Proof. vm_compute. auto. Qed.

(** Without the lower bound on the number, a number below the start is stored as the first output
    ([saturating_sub]); the pack then holds an output at a number it does not have. *)
Theorem C42_low_number_refuted :
  let p := snd (save xbd xhd xsz xnew (xout 1 0 [5]%N)) in
  fst (save xbd xhd xsz xnew (xout 1 0 [5]%N)) = Some 19 /\
  get_output xbd xaddr xhd 10 xsz p 11 = Some (xout 1 0 [5]%N) /\
  save xbd xhd xsz p (xout 1 11 [5]%N) = (Some 19, p).
Proof. vm_compute. auto. Qed.
