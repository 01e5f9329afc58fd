(** C43: importing an epoch's consensus pack from an untrusted peer. *)
From Verif Require Import Util OutModel OutSpec OutProofs ImpModel ImpSpec ImpProofs.
Local Open Scope nat_scope.

Section T.
Variable bd : N -> N.
Variable hd : N -> subdag -> N -> N.
Variable dec : N -> emeta.
Variable idof : N -> N.
Variable per_auth : nat.
Notation import := (chain_import bd hd dec idof per_auth).

(** Whatever a peer streams, in either format version: if the import of an epoch after the first is
    accepted, the installed headers are exactly the true headers of the epoch up to the one the
    certified record names, and every output holds exactly the batches its headers name.  [hp] is
    the true last header of the previous epoch. *)
Theorem C43_import_is_the_true_epoch have ver er prev recs m l hs hp :
  no_collision hd recs (hp :: hs) ->
  er_epoch er <> 0%N ->
  digest_of hd hp = er_chash prev -> sd_epoch (ch_sub hp) <> er_epoch er ->
  true_epoch hd (er_epoch er) (er_chash prev) (er_cnum prev) (er_chash er) (er_cnum er) hs ->
  import have ver er prev recs = CInstalled m l ->
  Forall2 (output_of bd (addr_of idof m)) hs l.
Proof.
  intros Hinj He Hp Hpe T H.
  destruct (import_facts bd hd dec idof per_auth _ _ _ _ _ _ _ H) as [V _].
  destruct (verify_fields _ _ _ V) as [_ [St _]]. rewrite (proj2 (N.eqb_neq _ _) He) in St.
  destruct (import_main bd hd dec idof per_auth _ _ _ _ _ _ _ _ _ _ (fun h g A B => Hinj h g A (or_intror B)) H T St) as [Fo [E|[os1 [x [os2 [Dx [Ix [Ex _]]]]]]]].
  - subst hs. clear - Fo. induction Fo as [|o l Ho Fo IH]; simpl; constructor; auto.
  - exfalso. rewrite <- Hp in Dx. apply Hinj in Dx; [|apply Ix, in_app_iff; simpl; auto|left; auto]. rewrite <- Dx in Hpe. apply Hpe. exact Ex.
Qed.

(** Epoch 0: the same, except that the pre-genesis header [h0] may stand in the place of header 1
    (its digest is the parent hash of header 1; nothing streamed has its parent hash as digest). *)
Theorem C43_import_epoch_zero have ver er prev recs m l hs h0 :
  no_collision hd recs (h0 :: hs) ->
  er_epoch er = 0%N ->
  ch_num h0 = 0%N -> (forall h, In (RHeader h) recs -> digest_of hd h <> ch_parent h0) ->
  true_epoch hd 0 (digest_of hd h0) 0 (er_chash er) (er_cnum er) hs ->
  import have ver er prev recs = CInstalled m l ->
  Forall2 (output_of bd (addr_of idof m)) hs l \/ Forall2 (output_of bd (addr_of idof m)) (h0 :: tl hs) l.
Proof.
  intros Hinj He Hn H0 T H.
  destruct (import_facts bd hd dec idof per_auth _ _ _ _ _ _ _ H) as [V _].
  destruct (verify_fields _ _ _ V) as [_ [St _]]. rewrite He in St. cbn [N.eqb] in St.
  assert (T' : true_epoch hd (er_epoch er) (digest_of hd h0) 0 (er_chash er) (er_cnum er) hs) by (rewrite He; exact T).
  assert (Fin : forall hs', map header_of l = hs' -> Forall (fun o => output_for bd (addr_of idof m) (out_sub o) (out_parent o) (out_num o) o) l ->
     Forall2 (output_of bd (addr_of idof m)) hs' l).
  { intros hs' <- Fo. clear - Fo. induction Fo as [|o l Ho Fo IH]; simpl; constructor; auto. }
  destruct (import_main bd hd dec idof per_auth _ _ _ _ _ _ _ _ _ _ (fun h g A B => Hinj h g A (or_intror B)) H T' St) as [Fo [E|[os1 [x [os2 [Dx [Ix [Ex [Eh [S F]]]]]]]]]].
  - left. auto.
  - right. apply Fin; auto. apply Hinj in Dx; [|apply Ix, in_app_iff; simpl; auto|left; auto].
    destruct os1 as [|q os1 _] using rev_ind.
    + cbn [app] in S. rewrite He, St in S. rewrite <- Dx. apply (saves_shifted bd hd dec idof per_auth 0 0 x hs os2 l (digest_of hd h0)); auto.
      * destruct T as [L _]; exact L.
      * rewrite <- Hn, <- Dx. reflexivity.
    + exfalso. rewrite <- app_assoc in F. simpl in F. apply (follows_link hd os1 q x os2) in F.
      apply (H0 (header_of q)); [apply Ix; rewrite !in_app_iff; simpl; auto|]. rewrite <- Dx. cbn [header_of ch_parent]. auto.
Qed.

(** The outputs are the real ones when the streamed committee has the right addresses and batch
    digests do not collide. *)
Theorem C43_outputs_are_true addr m hs l truth :
  (forall o t a b, In o l -> In t truth -> In a (flat_map cb_batches (out_batches o)) ->
     In b (flat_map cb_batches (out_batches t)) -> bd a = bd b -> a = b) ->
  (forall id, addr_of idof m id = addr id) ->
  Forall2 (output_of bd (addr_of idof m)) hs l -> Forall2 (output_of bd addr) hs truth -> l = truth.
Proof.
  intros Hb Ha F. revert truth Hb. induction F as [|h o hs l Ho F IH]; intros truth Hb G; inversion G as [|? o2 ? t2 Ho2 G2]; subst; auto.
  f_equal; [|apply IH; auto; intros; eapply Hb; simpl; eauto].
  apply (output_for_unique bd addr (ch_sub h) (ch_parent h) (ch_num h)); auto.
  { intros a b A B. eapply Hb; simpl; eauto. }
  destruct Ho as [A [B [C [D [E Z]]]]]. unfold output_for. repeat (split; auto).
  intros Hn. specialize (Z Hn). clear - Z Ha. induction Z as [|x y xs ys [P Q] Z IH]; constructor; auto. rewrite <- Ha. auto.
Qed.

(** The metadata that is installed: everything but the committee's addresses is what the previous
    record certifies. *)
Theorem C43_installed_metadata have ver er prev recs m l :
  import have ver er prev recs = CInstalled m l ->
  m_epoch m = er_epoch er /\ m_start m = (if (er_epoch er =? 0)%N then 1 else er_cnum prev + 1)%N /\
  m_state m = er_state prev /\ m_cnum m = er_cnum prev /\ m_chash m = er_chash prev /\
  (forall k, In k (map fst (m_auth m)) <-> In k (er_next prev)).
Proof. intros H. destruct (import_facts _ _ _ _ _ _ _ _ _ _ _ _ H) as [V _]. apply verify_fields; auto. Qed.

(** What is on disk after an import attempt: the pack that was there, unless the stream was accepted. *)
Theorem C43_failed_import_changes_nothing have ver er prev recs :
  disk_after have (import have ver er prev recs) = have \/
  exists m l, import have ver er prev recs = CInstalled m l /\ disk_after have (import have ver er prev recs) = Some (m, l).
Proof. destruct (import have ver er prev recs) as [| | |m l]; simpl; eauto. Qed.

(** A pack that already holds the named header is
    never replaced. *)
Theorem C43_never_truncates have m0 l0 o ver er prev recs : have = Some (m0, l0) ->
  (m_start m0 <= er_cnum er)%N -> nth_error l0 (N.to_nat (er_cnum er - m_start m0)) = Some o ->
  digest_of hd (header_of o) = er_chash er ->
  import have ver er prev recs = CNoop /\ disk_after have (import have ver er prev recs) = have.
Proof.
  intros -> Hs Hn Hd. unfold chain_import. destruct (_ <? m_start m0)%N eqn:X; [apply N.ltb_lt in X; lia|].
  rewrite Hn, Hd, N.eqb_refl. auto.
Qed.

(** An honest peer's stream is accepted: the metadata of the epoch and the records of its outputs. *)
Theorem C43_honest_stream_accepted have ver er prev x os :
  ver <> 0%N -> er_epoch er <> 0%N ->
  match have with Some (m0, l0) => length l0 <= N.to_nat (er_cnum er - m_start m0) | None => True end ->
  verify_epoch_meta (er_epoch er) prev (dec x) = true ->
  true_epoch hd (er_epoch er) (er_chash prev) (er_cnum prev) (er_chash er) (er_cnum er) (map header_of os) ->
  Forall (fun o => output_for bd (addr_of idof (dec x)) (out_sub o) (out_parent o) (out_num o) o /\
                   one_batch_per_digest bd o /\ sd_hdrs (out_sub o) <> [] /\
                   length (batch_set (out_sub o)) <= cap_of per_auth (dec x)) os ->
  import have ver er prev (RMeta x :: concat (map (write_output bd) os)) = CInstalled (dec x) os.
Proof.
  intros Hv He Hhave V [L [Ep [hl [hs' [Eh [Dh Nh]]]]]] Fo.
  destruct (verify_fields _ _ _ V) as [Me [St _]]. rewrite (proj2 (N.eqb_neq _ _) He) in St.
  unfold chain_import.
  assert (A : match have with
    | Some (m, l) => if (er_cnum er <? m_start m)%N then false
        else match nth_error l (N.to_nat (er_cnum er - m_start m)) with Some o => (digest_of hd (header_of o) =? er_chash er)%N | None => false end
    | None => false end = false).
  { destruct have as [[m0 l0]|]; auto. destruct (_ <? _)%N; auto.
    rewrite (proj2 (nth_error_None l0 _)); auto. }
  rewrite A. unfold stream_import. rewrite V. rewrite (proj2 (N.eqb_neq _ _) He).
  assert (Num : forall i o, nth_error os i = Some o -> out_num o = (er_cnum prev + N.of_nat i + 1)%N).
  { intros i o Hi. apply (linked_nth bd hd dec idof per_auth _ _ _ i (header_of o) L). rewrite nth_error_map, Hi. auto. }
  assert (Hlast : exists os' o, os = os' ++ [o] /\ header_of o = hl).
  { destruct os as [|o os' _] using rev_ind; [destruct hs'; discriminate Eh|]. exists os', o. split; auto.
    rewrite map_app in Eh. simpl in Eh. apply app_inj_tail in Eh. tauto. }
  destruct Hlast as [os' [ol [Eo Eol]]].
  assert (S : saves (m_epoch (dec x)) (m_start (dec x)) os [] = SOk os).
  { assert (G : forall done rest, os = done ++ rest -> saves (m_epoch (dec x)) (m_start (dec x)) rest done = SOk os).
    { intros done rest. revert done. induction rest as [|o t IH]; intros done E; simpl; [rewrite E, app_nil_r; auto|].
      assert (Hi : nth_error os (length done) = Some o) by (rewrite E, nth_error_app2, Nat.sub_diag by lia; auto).
      assert (Hin : In o os) by (eapply nth_error_In; eauto).
      rewrite Forall_forall in Fo. destruct (Fo o Hin) as [_ [_ [Hh _]]].
      unfold log_save. destruct (sd_hdrs (out_sub o)) eqn:X; [congruence|].
      rewrite (Ep (header_of o) (in_map _ _ _ Hin) : sd_epoch (out_sub o) = er_epoch er). rewrite Me, N.eqb_refl. cbn [negb].
      replace (N.to_nat (out_num o - m_start (dec x))) with (length done) by (rewrite (Num _ _ Hi), St; lia).
      rewrite Nat.ltb_irrefl, Nat.eqb_refl. rewrite Me in IH. apply IH. rewrite E, <- app_assoc; auto. }
    apply (G [] os eq_refl). }
  assert (Fol : follows hd (EParent (er_chash prev)) os).
  { clear - L. revert L. generalize (er_chash prev) (er_cnum prev). induction os as [|o t IH]; intros p n L; simpl in *; auto.
    destruct L as [L1 [L2 L3]]. split; [apply N.eqb_eq; auto|]. eapply IH; eauto. }
  rewrite (honest_loop bd hd dec idof per_auth (dec x) (er_cnum er) (EParent (er_chash prev)) os _ [] _ eq_refl) with (l' := os); auto.
  - rewrite Eo, rev_app_distr. cbn [rev app nth_error].
    rewrite <- Nh, <- Dh, <- Eol. cbn [header_of ch_num]. rewrite !N.eqb_refl. reflexivity.
  - rewrite Forall_forall in *. intros o Ho. destruct (Fo o Ho) as [B1 [B2 [B3 B4]]]. repeat (split; auto).
    destruct (In_nth_error _ _ Ho) as [i Hi]. rewrite (Num _ _ Hi).
    assert (Hol : nth_error os (length os') = Some ol) by (rewrite Eo, nth_error_app2, Nat.sub_diag by lia; auto).
    pose proof (Num _ _ Hol) as Nol. rewrite <- Nh, <- Eol. cbn [header_of ch_num]. rewrite Nol.
    assert (i < length os) by (apply nth_error_Some; congruence). rewrite Eo, app_length in H. simpl in H. lia.
Qed.
End T.

(* ---------- a concrete epoch ---------- *)
Definition zbd (b : N) : N := (b + 100)%N.
(** An injective digest: pairs of numbers are coded by nesting. *)
Definition zpair (a b : N) : N := ((a + b) * (a + b + 1) / 2 + b)%N.
Definition zhd (p : N) (s : subdag) (n : N) : N := zpair p (zpair (sd_id s) n).
Definition zid (k : N) : N := k.
Definition zsub (i e : N) (pl : list N) : subdag :=
  {| sd_hdrs := [{| oh_author := 1; oh_payload := pl |}; {| oh_author := 2; oh_payload := [] |}]; sd_epoch := e; sd_ts := i; sd_id := i |}.
Definition zout (p i num e b : N) : output :=
  {| out_sub := zsub i e [zbd b]; out_parent := p; out_num := num; out_digests := [zbd b];
     out_batches := [{| cb_addr := 51; cb_batches := [b] |}; {| cb_addr := 52; cb_batches := [] |}] |}.
Definition zdig (o : output) := digest_of zhd (header_of o).
(** Epoch 1: outputs 3 and 4 after output 2, the last of epoch 0. *)
Definition o2 := zout 5 0 2 0 3.
Definition o3 := zout (zdig o2) 1 3 1 5.
Definition o4 := zout (zdig o3) 2 4 1 9.
Definition zprev : erec := {| er_epoch := 0; er_cnum := 2; er_chash := zdig o2; er_state := 7; er_next := [1; 2]%N |}.
Definition zrec : erec := {| er_epoch := 1; er_cnum := 4; er_chash := zdig o4; er_state := 8; er_next := [1; 2]%N |}.
(** Metadata 0 is the genuine one; metadata 1 has other addresses. *)
Definition zdec (x : N) : emeta :=
  {| m_epoch := 1; m_start := 3; m_state := 7; m_cnum := 2; m_chash := zdig o2;
     m_auth := if (x =? 0)%N then [(1, 51); (2, 52)]%N else [(1, 666); (2, 666)]%N |}.
Definition zimport := chain_import zbd zhd zdec zid 10.
Definition zstream (x : N) : list rec := RMeta x :: write_output zbd o3 ++ write_output zbd o4.

Example C43_example :
  zimport None 1 zrec zprev (zstream 0) = CInstalled (zdec 0) [o3; o4] /\
  no_collision zhd (zstream 0) (map header_of [o2; o3; o4]) /\ sd_epoch (out_sub o2) <> 1%N /\
  true_epoch zhd 1 (zdig o2) 2 (er_chash zrec) 4 (map header_of [o3; o4]) /\
  (* another order, a missing output, a foreign batch, a shorter prefix: refused *)
  zimport None 1 zrec zprev (RMeta 0 :: write_output zbd o4 ++ write_output zbd o3) = CErr /\
  zimport None 1 zrec zprev (RMeta 0 :: write_output zbd o3) = CErr /\
  zimport None 1 zrec zprev (RMeta 0 :: RHeader (header_of o3) :: RBatch 6 :: write_output zbd o4) = CErr /\
  (* the legacy order under version 0 *)
  zimport None 0 zrec zprev (RMeta 0 :: RBatch 5 :: RHeader (header_of o3) :: RBatch 9 :: RHeader (header_of o4) :: nil) = CInstalled (zdec 0) [o3; o4].
Proof.
  split; [vm_compute; reflexivity|]. split; [|split; [discriminate|split; [|split; [|split; [|split]]; vm_compute; reflexivity]]].
  { intros h g Hh Hg. simpl in Hh, Hg.
    destruct Hh as [Hh|[Hh|[Hh|[Hh|[Hh|[]]]]]]; try discriminate Hh; injection Hh as <-;
    destruct Hg as [<-|[<-|[<-|[]]]]; vm_compute; intros E; try discriminate E; reflexivity. }
  split; [vm_compute; auto|]. split.
  - intros h [<-|[<-|[]]]; reflexivity.
  - exists (header_of o4), [header_of o3]. vm_compute. auto.
Qed.

(** The execution addresses of the committee are not covered: a peer can substitute them, and the
    installed outputs pay other accounts. *)
Theorem C43_addresses_refuted :
  match zimport None 1 zrec zprev (zstream 1) with
  | CInstalled m [a; b] => map header_of [a; b] = map header_of [o3; o4] /\
      map cb_addr (out_batches a) = [666; 666]%N /\ map cb_addr (out_batches o3) = [51; 52]%N
  | _ => False
  end.
Proof. vm_compute. auto. Qed.

(** Epoch 0: streaming the (public) pre-genesis header before the genuine outputs is accepted; the
    pack answers number 1 with it and the genuine first output is gone. *)
Definition h0out : output := bare_output (zsub 0 0 []) 0 0.
Definition e1 := zout (zdig h0out) 1 1 0 5.
Definition e2 := zout (zdig e1) 2 2 0 9.
Definition zprev0 : erec := {| er_epoch := 0; er_cnum := 0; er_chash := 0; er_state := 7; er_next := [1; 2]%N |}.
Definition zrec0 : erec := {| er_epoch := 0; er_cnum := 2; er_chash := zdig e2; er_state := 8; er_next := [1; 2]%N |}.
Definition zdec0 (x : N) : emeta :=
  {| m_epoch := 0; m_start := 1; m_state := 7; m_cnum := 0; m_chash := 0; m_auth := [(1, 51); (2, 52)]%N |}.
Theorem C43_epoch_zero_refuted :
  chain_import zbd zhd zdec0 zid 10 None 1 zrec0 zprev0 (RMeta 0 :: write_output zbd e1 ++ write_output zbd e2)
    = CInstalled (zdec0 0) [e1; e2] /\
  chain_import zbd zhd zdec0 zid 10 None 1 zrec0 zprev0 (RMeta 0 :: write_output zbd h0out ++ write_output zbd e1 ++ write_output zbd e2)
    = CInstalled (zdec0 0) [h0out; e2].
Proof. vm_compute. auto. Qed.

(** A peer can crash the importing task: a header whose sub-dag has no header at all. *)
Definition leaderless : chdr :=
  {| ch_parent := zdig o2; ch_sub := {| sd_hdrs := []; sd_epoch := 1; sd_ts := 1; sd_id := 1 |}; ch_num := 3 |}.
Theorem C43_leaderless_panics_refuted : zimport None 1 zrec zprev [RMeta 0; RHeader leaderless] = CPanic.
Proof. vm_compute. reflexivity. Qed.
