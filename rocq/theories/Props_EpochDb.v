(* C38: the epoch record database. *)
From Verif Require Import Util EpochModel EpochSpec EpochProofs EpochDbModel Props_Epoch.

(* ---------- what is stored stays ---------- *)
Definition no_reopen (o : iop) : Prop := match o with IReopen _ _ => False | _ => True end.
Definition gap_free (recs : list erec) : Prop := forall e r, nth_error recs e = Some r -> er_epoch r = e.
Definition disk_ok (o : iop) : Prop := match o with IReopen recs _ => gap_free recs | _ => True end.

Ltac four := split; [solve [auto]|split; [solve [auto]|split]].
Lemma istep_grow E s o : no_reopen o -> exists rs cs,
  db_recs (snd (istep E s o)) = db_recs s ++ rs /\ db_certs (snd (istep E s o)) = cs ++ db_certs s /\
  (forall d c, In (d, c) cs -> cget (db_certs s) d = None) /\
  (forall i r, nth_error rs i = Some r -> er_epoch r = length (db_recs s) + i).
Proof.
  intros Hn. destruct o as [r|w r|w1 w2 r c|w d c|tip|recs certs]; cbn [istep snd].
  - exists [], []. unfold db_save_dummy. destruct (er_epoch r =? 0); cbn [snd db_recs db_certs]; rewrite app_nil_r; (four; [intros ? ? []|intros j x Hj; destruct j; discriminate Hj]).
  - unfold db_save_record. destruct (er_epoch r <? length (db_recs s)).
    { exists [], []. rewrite app_nil_r. four; [intros ? ? []|intros j x Hj; destruct j; discriminate Hj]. }
    destruct (er_epoch r =? length (db_recs s)) eqn:Ee; cbn [negb].
    2:{ exists [], []. rewrite app_nil_r. four; [intros ? ? []|intros j x Hj; destruct j; discriminate Hj]. }
    destruct w; cbn [snd db_recs db_certs].
    + exists [r], []. four; [intros ? ? []|]. apply Nat.eqb_eq in Ee. intros [|i] x; cbn [nth_error]; [intros H; injection H as <-; lia|destruct i; discriminate].
    + exists [], []. rewrite app_nil_r. four; [intros ? ? []|intros j x Hj; destruct j; discriminate Hj].
  - unfold db_save, db_save_record.
    assert (Hc : forall s1 w, db_certs s1 = db_certs s -> exists cs, db_recs (snd (db_save_cert w s1 (ee_dig E r) c)) = db_recs s1 /\
       db_certs (snd (db_save_cert w s1 (ee_dig E r) c)) = cs ++ db_certs s /\ forall d c0, In (d, c0) cs -> cget (db_certs s) d = None).
    { intros s1 w H1. unfold db_save_cert. destruct (cget (db_certs s1) (ee_dig E r)) eqn:Eg; cbn [snd].
      - exists []. split; [auto|]. split; [auto|]. intros ? ? [].
      - destruct w; cbn [snd db_recs db_certs].
        + exists [(ee_dig E r, c)]. rewrite H1. split; [auto|]. split; [auto|]. intros d c0 [H|[]]. injection H as <- <-. congruence.
        + exists []. split; [auto|]. split; [auto|]. intros ? ? []. }
    destruct (er_epoch r <? length (db_recs s)).
    { destruct (Hc s w2 eq_refl) as (cs & C1 & C2 & C3). exists [], cs. rewrite app_nil_r. four; [auto|intros j x Hj; destruct j; discriminate Hj]. }
    destruct (er_epoch r =? length (db_recs s)) eqn:Ee; cbn [negb].
    2:{ exists [], []. rewrite app_nil_r. four; [intros ? ? []|intros j x Hj; destruct j; discriminate Hj]. }
    destruct w1.
    + match goal with |- context[db_save_cert w2 ?x _ _] => destruct (Hc x w2 eq_refl) as (cs & C1 & C2 & C3) end.
      exists [r], cs. four; [auto|]. apply Nat.eqb_eq in Ee. intros [|i] x; cbn [nth_error]; [intros H; injection H as <-; lia|destruct i; discriminate].
    + exists [], []. cbn [snd]. rewrite app_nil_r. four; [intros ? ? []|intros j x Hj; destruct j; discriminate Hj].
  - unfold db_save_cert. destruct (cget (db_certs s) d) eqn:Eg; cbn [snd].
    + exists [], []. rewrite app_nil_r. four; [intros ? ? []|intros j x Hj; destruct j; discriminate Hj].
    + destruct w; cbn [snd db_recs db_certs].
      * exists [], [(d, c)]. rewrite app_nil_r. four; [|intros j x Hj; destruct j; discriminate Hj]. intros d' c' [H|[]]. injection H as <- <-. auto.
      * exists [], []. rewrite app_nil_r. four; [intros ? ? []|intros j x Hj; destruct j; discriminate Hj].
  - exists [], []. unfold first_missing. cbn [snd db_recs db_certs]. rewrite app_nil_r. four; [intros ? ? []|intros j x Hj; destruct j; discriminate Hj].
  - destruct Hn.
Qed.

Lemma cget_app l1 l2 d : (forall d c, In (d, c) l1 -> cget l2 d = None) -> forall c, cget l2 d = Some c -> cget (l1 ++ l2) d = Some c.
Proof.
  intros H c Hc. induction l1 as [|[d' c'] l1 IH]; simpl; auto. destruct (N.eqb d' d) eqn:Ed.
  - apply N.eqb_eq in Ed. subst d'. rewrite (H d c') in Hc by (simpl; auto). discriminate.
  - apply IH. intros d0 c0 Hin. apply (H d0 c0). simpl; auto.
Qed.

(* A stored record and a stored certificate never change while the process runs. *)
Theorem C38_first_write_wins E s os e r d c :
  Forall no_reopen os ->
  (nth_error (db_recs s) e = Some r -> nth_error (db_recs (irun E s os)) e = Some r) /\
  (cget (db_certs s) d = Some c -> cget (db_certs (irun E s os)) d = Some c).
Proof.
  revert s. induction os as [|o os IH]; intros s Hf; cbn [irun]; [auto|].
  inversion Hf as [|? ? H1 H2]; subst. destruct (istep_grow E s o H1) as (rs & cs & G1 & G2 & G3 & _).
  destruct (IH (snd (istep E s o)) H2) as [I1 I2]. split; intros H.
  - apply I1. rewrite G1, nth_error_app1; auto. apply nth_error_Some. congruence.
  - apply I2. rewrite G2. apply cget_app; auto.
Qed.

(* Records are stored without gaps, each under its own epoch number. *)
Theorem C38_gap_free E os : Forall disk_ok os -> gap_free (db_recs (irun E edb_new os)).
Proof.
  assert (H : forall s, gap_free (db_recs s) -> Forall disk_ok os -> gap_free (db_recs (irun E s os))).
  { induction os as [|o os IH]; intros s Hg Hf; cbn [irun]; [auto|]. inversion Hf as [|? ? H1 H2]; subst. apply IH; auto.
    destruct o as [r|w r|w1 w2 r c|w d c|tip|recs certs];
      try (match goal with |- context[istep E s ?o] => destruct (istep_grow E s o I) as (rs & cs & G1 & _ & _ & G4) end;
           intros e x Hx; rewrite G1 in Hx; destruct (Nat.lt_ge_cases e (length (db_recs s))) as [Hlt|Hge];
           [rewrite nth_error_app1 in Hx; auto|rewrite nth_error_app2 in Hx by auto; apply G4 in Hx; lia]).
    exact H1. }
  intros Hf. apply H; auto. intros [|e] r; discriminate.
Qed.

(* A certified read returns a record only if a stored certificate verifies for it. *)
Theorem C38_certified_read E signed s e r :
  eenv_sound E signed -> NoDup (er_com r) -> certified_record E s e = inl r ->
  record_by_epoch s e = Some r /\ (exists c, cget (db_certs s) (ee_dig E r) = Some c /\ verify_with_cert E r c = true) /\ super_signed E signed r.
Proof.
  intros Hs Hn. unfold certified_record. destruct (record_by_epoch s e) as [r0|]; [|discriminate].
  destruct (cget (db_certs s) (ee_dig E r0)) as [c|] eqn:Ec; [|discriminate].
  destruct (verify_with_cert E r0 c) eqn:Ev; [|discriminate]. intros H; injection H as ->. split; auto. split; [eauto|].
  apply (verify_super E signed r c); auto.
Qed.

(* ---------- the export scan ---------- *)
Definition cert_keys (E : eenv) (o : iop) : list N :=
  match o with ISave _ _ r _ => [ee_dig E r] | ICert _ d _ => [d] | IReopen _ certs => map fst certs | _ => [] end.
Definition dummies (o : iop) : list erec := match o with IDummy r => [r] | _ => [] end.

Lemma find_from_spec f : forall n a, match find_from f a n with
  | Some e => a <= e < a + n /\ f e = true /\ forall e', a <= e' < e -> f e' = false
  | None => forall e', a <= e' < a + n -> f e' = false end.
Proof.
  induction n as [|n IH]; intros a; cbn [find_from]; [intros e'; lia|].
  destruct (f a) eqn:Ef; [split; [lia|]; split; auto; intros e'; lia|].
  specialize (IH (S a)). destruct (find_from f (S a) n) as [e|].
  - destruct IH as (I1 & I2 & I3). split; [lia|]. split; auto. intros e' He'. destruct (Nat.eq_dec e' a) as [->|]; auto. apply I3. lia.
  - intros e' He'. destruct (Nat.eq_dec e' a) as [->|]; auto. apply IH. lia.
Qed.

(* D: the stand-in records ever set; K: the digests certificates were ever stored under *)
Definition minv (E : eenv) (D : list erec) (K : list N) (s : edb) : Prop :=
  (forall e, e < db_mark s -> epoch_certified E s e = true) /\
  (forall r, db_dummy s = Some r -> In r D) /\ (forall d c, In (d, c) (db_certs s) -> In d K).

Lemma cget_key l d c : cget l d = Some c -> In (d, c) l.
Proof. apply cget_In. Qed.
Lemma dummy_uncert E D K s r : (forall x, In x D -> ~ In (ee_dig E x) K) -> minv E D K s -> db_dummy s = Some r -> cget (db_certs s) (ee_dig E r) = None.
Proof.
  intros Hd (_ & M2 & M3) Hr. destruct (cget (db_certs s) (ee_dig E r)) as [c|] eqn:Ec; auto.
  exfalso. apply (Hd r); auto. eapply M3. apply cget_In; eauto.
Qed.
(* certified epochs have a stored record *)
Lemma certified_stored E D K s e : (forall x, In x D -> ~ In (ee_dig E x) K) -> minv E D K s -> epoch_certified E s e = true ->
  exists r c, nth_error (db_recs s) e = Some r /\ cget (db_certs s) (ee_dig E r) = Some c.
Proof.
  intros Hd Hm. unfold epoch_certified. destruct (record_by_epoch s e) as [r|] eqn:Er; [|discriminate].
  destruct (cget (db_certs s) (ee_dig E r)) as [c|] eqn:Ec; [|discriminate]. intros _. exists r, c. split; auto.
  unfold record_by_epoch in Er. destruct e; [|auto]. destruct (db_recs s) as [|x l] eqn:El; [|auto].
  rewrite (dummy_uncert E D K s r Hd Hm Er) in Ec. discriminate.
Qed.
Lemma stored_certified E s e r c : nth_error (db_recs s) e = Some r -> cget (db_certs s) (ee_dig E r) = Some c -> epoch_certified E s e = true.
Proof.
  intros Hn Hc. unfold epoch_certified. rewrite record_by_epoch_nth.
  - rewrite Hn, Hc. auto.
  - intros Hx. rewrite Hx in Hn. destruct e; discriminate.
Qed.
Lemma first_missing_cert E s tip e : epoch_certified E (snd (first_missing E s tip)) e = epoch_certified E s e.
Proof. unfold first_missing, epoch_certified, record_by_epoch. cbn [snd db_recs db_certs db_dummy]. auto. Qed.
Lemma first_missing_exact E s tip : (forall e, e < db_mark s -> epoch_certified E s e = true) ->
  (match fst (first_missing E s tip) with
   | Some e => e < tip /\ epoch_certified E s e = false /\ forall e', e' < e -> epoch_certified E s e' = true
   | None => forall e, e < tip -> epoch_certified E s e = true end) /\
  (forall e, e < db_mark (snd (first_missing E s tip)) -> epoch_certified E s e = true).
Proof.
  intros Hm. unfold first_missing. cbv zeta. cbn [fst snd db_mark].
  pose proof (find_from_spec (fun e => negb (epoch_certified E s e)) (tip - db_mark s) (db_mark s)) as Hf.
  destruct (find_from (fun e => negb (epoch_certified E s e)) (db_mark s) (tip - db_mark s)) as [m|].
  - destruct Hf as (F1 & F2 & F3). apply negb_true_iff in F2.
    assert (Hb : forall e', e' < m -> epoch_certified E s e' = true).
    { intros e' He'. destruct (Nat.lt_ge_cases e' (db_mark s)) as [|Hge]; auto. specialize (F3 e'). cbv beta in F3.
      destruct (epoch_certified E s e'); auto. discriminate F3. lia. }
    split.
    + destruct (m <? tip) eqn:Et; [apply Nat.ltb_lt in Et; auto|]. apply Nat.ltb_ge in Et. intros e He. apply Hb. lia.
    + intros e He. apply Hb. lia.
  - assert (Hb : forall e', e' < Nat.max (db_mark s) tip -> epoch_certified E s e' = true).
    { intros e' He'. destruct (Nat.lt_ge_cases e' (db_mark s)) as [|Hge]; auto. specialize (Hf e'). cbv beta in Hf.
      destruct (epoch_certified E s e'); auto. discriminate Hf. lia. }
    split; [|auto]. destruct (tip <? tip) eqn:Et; [apply Nat.ltb_lt in Et; lia|]. intros e He. apply Hb. lia.
Qed.

Lemma istep_minv E D K s o : (forall x, In x D -> ~ In (ee_dig E x) K) -> incl (dummies o) D -> incl (cert_keys E o) K ->
  minv E D K s -> minv E D K (snd (istep E s o)).
Proof.
  intros Hd HD HK Hm. pose proof Hm as (M1 & M2 & M3).
  assert (Hgrow : no_reopen o -> (forall d c, In (d, c) (db_certs (snd (istep E s o))) -> In d K) ->
            (forall r, db_dummy (snd (istep E s o)) = Some r -> In r D) -> db_mark (snd (istep E s o)) = db_mark s -> minv E D K (snd (istep E s o))).
  { intros Hn H1 H2 H3. destruct (istep_grow E s o Hn) as (rs & cs & G1 & G2 & G3 & _). split; [|split; auto].
    intros e He. rewrite H3 in He. destruct (certified_stored E D K s e Hd Hm (M1 e He)) as (r & c & S1 & S2).
    apply (stored_certified E _ e r c).
    - rewrite G1, nth_error_app1; auto. apply nth_error_Some. congruence.
    - rewrite G2. apply cget_app; auto. }
  destruct o as [r|w r|w1 w2 r c|w d c|tip|recs certs].
  - apply Hgrow; [exact I| | |]; cbn [istep]; unfold db_save_dummy; destruct (er_epoch r =? 0); cbn [snd db_certs db_dummy db_mark]; auto.
    intros x Hx. injection Hx as <-. apply HD. simpl; auto.
  - apply Hgrow; [exact I| | |]; cbn [istep]; unfold db_save_record; destruct (er_epoch r <? length (db_recs s)); auto;
      destruct (negb (er_epoch r =? length (db_recs s))); auto; destruct w; auto.
  - assert (Hk : In (ee_dig E r) K) by (apply HK; simpl; auto).
    apply Hgrow; [exact I| | |]; cbn [istep]; unfold db_save, db_save_record, db_save_cert; destruct (er_epoch r <? length (db_recs s));
      repeat match goal with |- context[if ?b then _ else _] => destruct b end; cbn [snd db_certs db_dummy db_mark];
      repeat match goal with |- context[match cget ?a ?b with _ => _ end] => destruct (cget a b) end;
      repeat match goal with |- context[if ?b then _ else _] => destruct b end; cbn [snd db_certs db_dummy db_mark]; auto;
      intros d' c' [Hx|Hx]; eauto; injection Hx as <- <-; auto.
  - assert (Hk : In d K) by (apply HK; simpl; auto).
    apply Hgrow; [exact I| | |]; cbn [istep]; unfold db_save_cert; destruct (cget (db_certs s) d); auto; destruct w; cbn [snd db_certs]; auto.
    intros d' c' [Hx|Hx]; eauto. injection Hx as <- <-. auto.
  - cbn [istep]. destruct (first_missing_exact E s tip M1) as [_ F]. split; [|split].
    + intros e He. rewrite first_missing_cert. auto.
    + auto.
    + auto.
  - cbn [istep snd]. unfold seed_mark. cbn [db_recs db_certs].
    match goal with |- minv _ _ _ (snd (first_missing E ?s0 ?t)) => destruct (first_missing_exact E s0 t) as [_ F] end; [intros e He; cbn in He; lia|].
    split; [|split].
    + intros e He. rewrite first_missing_cert. auto.
    + cbn. discriminate.
    + cbn [first_missing snd db_certs]. intros d c Hin. apply HK. cbn [cert_keys]. apply (in_map fst) in Hin. auto.
Qed.

(* After any history (writes that fail or not, scans, restarts on whatever the heal left), the scan that resumes from the
   watermark answers what a full scan would: the first epoch below the tip without a record and certificate, or none.  The
   stand-in of epoch 0 must never be certified. *)
Theorem C38_scan_exact E os tip :
  (forall r, In r (flat_map dummies os) -> ~ In (ee_dig E r) (flat_map (cert_keys E) os)) ->
  let s := irun E edb_new os in
  match fst (first_missing E s tip) with
  | Some e => e < tip /\ epoch_certified E s e = false /\ forall e', e' < e -> epoch_certified E s e' = true
  | None => forall e, e < tip -> epoch_certified E s e = true
  end.
Proof.
  intros Hd s. set (D := flat_map dummies os) in *. set (K := flat_map (cert_keys E) os) in *.
  assert (H : forall os' s, incl (flat_map dummies os') D -> incl (flat_map (cert_keys E) os') K -> minv E D K s -> minv E D K (irun E s os')).
  { clear s. induction os' as [|o os' IH]; intros s H1 H2 Hm; cbn [irun]; [auto|]. cbn [flat_map] in H1, H2. apply IH.
    - intros x Hx. apply H1, in_app_iff. auto.
    - intros x Hx. apply H2, in_app_iff. auto.
    - apply istep_minv; auto; intros x Hx; [apply H1|apply H2]; apply in_app_iff; auto. }
  apply first_missing_exact. apply (H os edb_new); try apply incl_refl. split; [simpl; lia|]. split; simpl; [discriminate|tauto].
Qed.
(* The condition is needed: were a certificate stored under the stand-in's digest, the watermark would pass epoch 0. *)
Theorem C38_certified_stand_in_refuted :
  exists os, let s := irun E4 edb_new os in fst (first_missing E4 s 1) = None /\ epoch_certified E4 s 0 = false.
Proof.
  exists [IDummy forged; IDummy (mk_erec 0 [] [] 0 0 0 0); ICert true (tdig (mk_erec 0 [] [] 0 0 0 0)) (cert4 forged []); IFirst 1; IRecord true (chain4 0)].
  vm_compute. auto.
Qed.
Example C38_example_scan : let os := [IRecord true (chain4 0); IRecord true (chain4 1); ICert true (tdig (chain4 1)) (cert4 (chain4 1) [0; 1; 2]); IFirst 2] in
  fst (first_missing E4 (irun E4 edb_new os) 2) = Some 0 /\
  fst (first_missing E4 (irun E4 edb_new (os ++ [ICert true (tdig (chain4 0)) (cert4 (chain4 0) [0; 1; 2])])) 2) = None.
Proof. vm_compute. auto. Qed.

(* ---------- flushing is a barrier ---------- *)
Definition err_seen (o : eobs) : bool := match o with OCallErr => true | OReply _ false => true | _ => false end.
Definition is_fail (o : eobs) : bool := match o with OFail _ => true | _ => false end.
(* no failure of a write is still unreported at the end of os, given whether one was at its start *)
Fixpoint unreported (pending : bool) (os : list eobs) : bool :=
  match os with
  | [] => pending
  | o :: r => unreported (if is_fail o then true else if err_seen o then false else pending) r
  end.
Lemma unreported_app a b p : unreported p (a ++ b) = unreported (unreported p a) b.
Proof. revert p. induction a as [|o a IH]; intros p; simpl; auto. Qed.

Lemma xstep_unrep E s e : let '(o, s1) := xstep E s e in (unreported (x_err s) o = true -> x_err s1 = true) /\
   (forall id, In (OReply id true) o -> x_err s = false /\ o = [OReply id true]).
Proof.
  destruct e as [c|w1 w2 wp]; cbn [xstep].
  - unfold do_call. destruct (x_err s) eqn:Ee; cbn [unreported is_fail err_seen].
    + split; [discriminate|]. intros id [H|[]]; discriminate.
    + destruct c as [r|r|r k|d k|id]; cbv zeta; try destruct (update_finals (x_fin s) r); cbn [unreported is_fail err_seen x_err]; rewrite ?Ee;
        (split; [auto|]; intros i Hi; repeat (destruct Hi as [Hi|Hi]; [discriminate|]); destruct Hi).
  - unfold do_turn. destruct (x_q s) as [|m q]; [cbn [unreported]; split; [auto|intros id []]|].
    destruct m as [r|r|r c|d c|id]; cbv zeta;
      try (match goal with |- context[if fst ?p then _ else _] => destruct (fst p) end; cbn [unreported is_fail err_seen x_err];
           (split; [auto|]; intros i Hi; repeat (destruct Hi as [Hi|Hi]; [discriminate|]); destruct Hi)).
    destruct (x_err s) eqn:Ee; cbn [negb andb].
    + cbn [unreported is_fail err_seen x_err]. split; [discriminate|]. intros i [Hi|[]]. discriminate.
    + destruct wp; cbn [unreported is_fail err_seen x_err]; (split; [auto|]); intros i [Hi|[]]; [|discriminate]. injection Hi as <-. auto.
Qed.

(* When a flush is answered Ok, every write that failed before it has been reported: between the failure and the answer
   some call returned an error.  For every interleaving of callers and thread, and every failing append or flush. *)
Theorem C38_flush_reports_failures E evs os s o1 m o2 id o3 :
  xrun E x_new evs = (os, s) -> os = o1 ++ OFail m :: o2 ++ OReply id true :: o3 -> existsb err_seen o2 = true.
Proof.
  assert (H : forall evs s0 os s, xrun E s0 evs = (os, s) -> forall a id b, os = a ++ OReply id true :: b -> unreported (x_err s0) a = false).
  { clear. induction evs as [|e evs IH]; intros s0 os s; cbn [xrun].
    - intros H; injection H as <- <-. intros [|x a] id b H; discriminate.
    - pose proof (xstep_unrep E s0 e) as Hx. destruct (xstep E s0 e) as [o s1]. destruct (xrun E s1 evs) as [os' s2] eqn:Er.
      intros H; injection H as <- <-. intros a id b Ha. destruct Hx as [X1 X2].
      assert (Hsplit : (exists a', a = o ++ a' /\ os' = a' ++ OReply id true :: b) \/ (exists b', o = a ++ OReply id true :: b' /\ b = b' ++ os')).
      { clear - Ha. revert a Ha. induction o as [|y o IHo]; intros a Ha; [left; exists a; auto|].
        destruct a as [|z a]; simpl in Ha; injection Ha as -> Ha; [right; exists o; auto|].
        destruct (IHo a Ha) as [(a' & -> & Hos)|(b' & -> & Hb)]; [left; exists a'; auto|right; exists b'; auto]. }
      destruct Hsplit as [(a' & -> & Hos)|(b' & Ho & _)].
      + pose proof (IH _ _ _ Er a' id b Hos) as HI. rewrite unreported_app. destruct (unreported (x_err s0) o) eqn:Eu.
        * rewrite (X1 eq_refl) in HI. auto.
        * clear - HI. destruct (x_err s1); [|auto]. revert HI. generalize a'. clear.
          intros l. assert (Hmono : forall l, unreported true l = false -> unreported false l = false).
          { clear. intros l. induction l as [|o l IH]; simpl; auto. destruct (is_fail o); auto. destruct (err_seen o); auto. }
          apply Hmono.
      + destruct (X2 id) as [E1 E2]; [rewrite Ho; apply in_app_iff; simpl; auto|].
        rewrite E2 in Ho. destruct a as [|x a]; [auto|]. injection Ho as _ Ho. destruct a; discriminate. }
  intros Hr Ho. specialize (H _ _ _ _ Hr (o1 ++ OFail m :: o2) id o3). rewrite <- app_assoc in H. specialize (H Ho).
  rewrite unreported_app in H. cbn [unreported is_fail] in H. clear - H.
  assert (Hk : forall l, existsb err_seen l = false -> unreported true l = true).
  { clear. induction l as [|o l IH]; simpl; auto. destruct (is_fail o) eqn:Ei; [destruct o; try discriminate; cbn [err_seen orb]; auto|].
    destruct (err_seen o); [discriminate|auto]. }
  destruct (existsb err_seen o2) eqn:Ee; auto. rewrite Hk in H; auto.
Qed.

(* So if nobody was told of an error, an Ok flush means that every write before it was applied. *)
Theorem C38_quiet_flush_means_applied E evs os s o1 id o2 :
  xrun E x_new evs = (os, s) -> os = o1 ++ OReply id true :: o2 -> existsb err_seen o1 = false -> existsb is_fail o1 = false.
Proof.
  intros Hr Ho Hq. destruct (existsb is_fail o1) eqn:Ef; auto. exfalso.
  apply existsb_exists in Ef as (x & Hx & Hf). destruct x; try discriminate. apply in_split in Hx as (a & b & ->).
  rewrite <- app_assoc in Ho. cbn [app] in Ho.
  pose proof (C38_flush_reports_failures E evs os s a m b id o2 Hr Ho) as He.
  rewrite existsb_app in Hq. cbn [existsb err_seen orb] in Hq. rewrite He, orb_true_r in Hq. discriminate.
Qed.

(* With two callers the slot is shared: one caller's write fails, another caller is told, and the first caller's flush is
   answered Ok. *)
Theorem C38_shared_error_slot_refuted :
  exists evs os s, xrun E4 x_new evs = (os, s) /\
    os = [OCallOk; OFail (MCert 1%N (cert4 forged [])); OCallErr; OReply 1 true].
Proof.
  exists [XCall (CCert 1%N (cert4 forged [])); XTurn true false true; XCall (CDummy (chain4 0)); XCall (CPersist 1); XTurn true true true].
  eexists. eexists. split; vm_compute; eauto.
Qed.

(* ---------- from a consensus number to its epoch ---------- *)
(* For increasing final numbers, the answer is the epoch whose range holds the number, or the one after the last. *)
Theorem C38_number_to_epoch fin n :
  StronglySorted N.lt fin ->
  (forall e v, nth_error fin e = Some v -> e < number_to_epoch fin n -> (v < n)%N) /\
  (forall v, nth_error fin (number_to_epoch fin n) = Some v -> (n <= v)%N) /\ number_to_epoch fin n <= length fin.
Proof.
  unfold number_to_epoch. induction fin as [|x fin IH]; intros Hs; cbn [partition_point].
  - split; [intros [|e] v; discriminate|]. split; [intros v; discriminate|auto].
  - inversion Hs as [|? ? H1 H2]; subst. destruct (N.ltb x n) eqn:Ex.
    + apply N.ltb_lt in Ex. destruct (IH H1) as (I1 & I2 & I3). split; [|split; [auto|simpl; lia]].
      intros [|e] v; cbn [nth_error]; [intros H; injection H as <-; auto|]. intros Hv He. eapply I1; eauto. lia.
    + apply N.ltb_ge in Ex. split; [intros e v _ He; lia|]. split; [|simpl; lia]. intros v; cbn [nth_error]. intros H; injection H as <-. auto.
Qed.

(* The vector it searches is the one of the stored records once the queue is drained, when no write failed and nobody saved
   two different final numbers for one epoch. *)
Definition call_recs (e : xev) : list erec := match e with XCall (CRecord r) => [r] | XCall (CSave r _) => [r] | _ => [] end.
Definition mrecs (m : emsg) : list erec := match m with MRecord r => [r] | MSave r _ => [r] | _ => [] end.
Definition vlen (n : nat) (m : emsg) : nat := match mrecs m with [r] => if er_epoch r =? n then S n else n | _ => n end.
Fixpoint ok_q (n : nat) (q : list emsg) : Prop :=
  match q with [] => True | m :: r => (forall x, In x (mrecs m) -> er_epoch x <= n) /\ ok_q (vlen n m) r end.
Definition finv (num : nat -> N) (s : xst) : Prop :=
  x_fin s = map num (seq 0 (fold_left vlen (x_q s) (length (db_recs (x_db s))))) /\
  ok_q (length (db_recs (x_db s))) (x_q s) /\
  (forall m r, In m (x_q s) -> In r (mrecs m) -> er_cnum r = num (er_epoch r)) /\
  map er_cnum (db_recs (x_db s)) = map num (seq 0 (length (db_recs (x_db s)))).

Lemma set_nth_id num n : forall k i, i < n -> set_nth (map num (seq k n)) i (num (k + i)) = map num (seq k n).
Proof.
  induction n as [|n IH]; intros k i Hi; [lia|]. cbn [seq map]. destruct i; cbn [set_nth]; [rewrite Nat.add_0_r; auto|].
  f_equal. replace (k + S i) with (S k + i) by lia. apply IH. lia.
Qed.
Lemma ok_q_app q : forall n m, ok_q n q -> (forall x, In x (mrecs m) -> er_epoch x <= fold_left vlen q n) -> ok_q n (q ++ [m]).
Proof.
  induction q as [|y q IH]; intros n m H Hm; cbn [app ok_q fold_left] in *; [auto|]. destruct H as [H1 H2]. split; auto.
Qed.
Lemma push_finv num s m fin : finv num s -> (forall r, In r (mrecs m) -> er_cnum r = num (er_epoch r)) ->
  (match mrecs m with [r] => update_finals (x_fin s) r = Some fin | _ => fin = x_fin s end) -> length (mrecs m) <= 1 ->
  forall e, finv num (mk_xst (x_db s) e (x_q s ++ [m]) fin).
Proof.
  intros (F1 & F2 & F3 & F4) Hn Hu Hlen e. unfold finv. cbn [x_fin x_q x_db].
  rewrite fold_left_app. cbn [fold_left]. unfold vlen at 1. rewrite F1 in Hu.
  set (V := fold_left vlen (x_q s) (length (db_recs (x_db s)))) in *.
  destruct (mrecs m) as [|r [|r2 l]] eqn:Em; [| |cbn [length] in Hlen; lia].
  - split; [congruence|]. split; [apply ok_q_app; auto; rewrite Em; intros x []|]. split; auto.
    intros m' r Hin Hr. apply in_app_iff in Hin as [Hin|[<-|[]]]; [eauto|]. rewrite Em in Hr. destruct Hr.
  - unfold update_finals in Hu. rewrite map_length, seq_length in Hu. assert (Hr : er_cnum r = num (er_epoch r)) by (apply Hn; simpl; auto).
    destruct (V <? er_epoch r) eqn:E1; [discriminate|]. apply Nat.ltb_ge in E1.
    split.
    + destruct (er_epoch r <? V) eqn:E2; injection Hu as <-.
      * apply Nat.ltb_lt in E2. destruct (er_epoch r =? V) eqn:E3; [apply Nat.eqb_eq in E3; lia|].
        rewrite Hr. apply (set_nth_id num V 0 (er_epoch r)). auto.
      * apply Nat.ltb_ge in E2. assert (er_epoch r = V) as Hv by lia. rewrite Hv, Nat.eqb_refl, seq_S, map_app. cbn [map]. rewrite Hr, Hv. auto.
    + split; [apply ok_q_app; auto; rewrite Em; intros x [<-|[]]; auto|]. split; auto.
      intros m' r' Hin Hr'. apply in_app_iff in Hin as [Hin|[<-|[]]]; [eauto|]. rewrite Em in Hr'. destruct Hr' as [<-|[]]. auto.
Qed.

Lemma save_record_ok num w s r b s1 : db_save_record w s r = (b, s1) -> b = true -> er_epoch r <= length (db_recs s) ->
  er_cnum r = num (er_epoch r) -> map er_cnum (db_recs s) = map num (seq 0 (length (db_recs s))) ->
  length (db_recs s1) = (if er_epoch r =? length (db_recs s) then S (length (db_recs s)) else length (db_recs s)) /\
  map er_cnum (db_recs s1) = map num (seq 0 (length (db_recs s1))).
Proof.
  unfold db_save_record. intros H Hb Hle Hc Hm. destruct (er_epoch r <? length (db_recs s)) eqn:E1.
  - injection H as <- <-. apply Nat.ltb_lt in E1. destruct (er_epoch r =? length (db_recs s)) eqn:E2; [apply Nat.eqb_eq in E2; lia|]. auto.
  - destruct (er_epoch r =? length (db_recs s)) eqn:E2; cbn [negb] in H; [|injection H as <- <-; discriminate].
    destruct w; injection H as <- <-; [|discriminate]. cbn [db_recs]. rewrite app_length. cbn [length]. split; [lia|].
    rewrite map_app, Nat.add_1_r, seq_S, map_app, Hm. cbn [map]. apply Nat.eqb_eq in E2. rewrite Hc, E2. auto.
Qed.
Lemma xstep_finv E num s e o s1 : finv num s -> (forall r, In r (call_recs e) -> er_cnum r = num (er_epoch r)) ->
  xstep E s e = (o, s1) -> existsb is_fail o = false -> finv num s1.
Proof.
  intros Hf Hn Hx Ho. destruct e as [c|w1 w2 wp]; cbn [xstep] in Hx.
  - unfold do_call in Hx. destruct (x_err s) eqn:Ee; [injection Hx as <- <-; exact Hf|]. cbv zeta in Hx.
    destruct c as [r|r|r k|d k|id].
    + injection Hx as <- <-. apply push_finv; cbn; auto.
    + destruct (update_finals (x_fin s) r) eqn:Eu; injection Hx as <- <-; [|exact Hf]. apply push_finv; cbn; auto.
    + destruct (update_finals (x_fin s) r) eqn:Eu; injection Hx as <- <-; [|exact Hf]. apply push_finv; cbn; auto.
    + injection Hx as <- <-. apply push_finv; cbn; auto.
    + injection Hx as <- <-. apply push_finv; cbn; auto.
  - unfold do_turn in Hx. destruct (x_q s) as [|m q] eqn:Eq; [injection Hx as <- <-; exact Hf|]. cbv zeta in Hx.
    destruct Hf as (F1 & F2 & F3 & F4). rewrite Eq in *. cbn [fold_left ok_q] in F1, F2. destruct F2 as [F2 F2'].
    assert (Hgoal : forall db b, length (db_recs db) = vlen (length (db_recs (x_db s))) m ->
       map er_cnum (db_recs db) = map num (seq 0 (length (db_recs db))) -> finv num (mk_xst db b q (x_fin s))).
    { intros db b Hl Hm. unfold finv. cbn [x_fin x_q x_db]. rewrite Hl in *. split; auto. split; auto. split; [|auto].
      intros m' r Hin. apply F3. simpl; auto. }
    assert (Hcert : forall w db d c, db_recs (snd (db_save_cert w db d c)) = db_recs db).
    { intros w db d c. unfold db_save_cert. destruct (cget (db_certs db) d); auto. destruct w; auto. }
    destruct m as [r|r|r c|d c|id].
    + unfold db_save_dummy in Hx. destruct (er_epoch r =? 0); cbn [fst snd] in Hx; injection Hx as <- <-; [|discriminate Ho]. apply Hgoal; auto.
    + destruct (db_save_record w1 (x_db s) r) as [b db] eqn:Es. cbn [fst snd] in Hx. destruct b; injection Hx as <- <-; [|discriminate Ho].
      destruct (save_record_ok num _ _ _ _ _ Es eq_refl (F2 r (or_introl eq_refl)) (F3 _ r (or_introl eq_refl) (or_introl eq_refl)) F4) as [L1 L2].
      apply Hgoal; auto.
    + unfold db_save in Hx. destruct (db_save_record w1 (x_db s) r) as [b db] eqn:Es. destruct b; cbn [fst snd] in Hx; [|injection Hx as <- <-; discriminate Ho].
      destruct (save_record_ok num _ _ _ _ _ Es eq_refl (F2 r (or_introl eq_refl)) (F3 _ r (or_introl eq_refl) (or_introl eq_refl)) F4) as [L1 L2].
      destruct (fst (db_save_cert w2 db (ee_dig E r) c)); injection Hx as <- <-; [|discriminate Ho]. apply Hgoal; rewrite Hcert; auto.
    + destruct (fst (db_save_cert w2 (x_db s) d c)); injection Hx as <- <-; [|discriminate Ho]. apply Hgoal; rewrite Hcert; auto.
    + injection Hx as <- <-. apply Hgoal; auto.
Qed.
Theorem C38_finals_match_records E num evs os s :
  xrun E x_new evs = (os, s) -> existsb is_fail os = false ->
  (forall e r, In e evs -> In r (call_recs e) -> er_cnum r = num (er_epoch r)) ->
  x_q s = [] -> x_fin s = finals_of (db_recs (x_db s)).
Proof.
  assert (H : forall evs s0 os s, finv num s0 -> xrun E s0 evs = (os, s) -> existsb is_fail os = false ->
     (forall e r, In e evs -> In r (call_recs e) -> er_cnum r = num (er_epoch r)) -> finv num s).
  { clear. induction evs as [|e evs IH]; intros s0 os s Hf; cbn [xrun]; [intros H; injection H as <- <-; auto|].
    destruct (xstep E s0 e) as [o s1] eqn:Ex. destruct (xrun E s1 evs) as [os' s2] eqn:Er. intros H; injection H as <- <-.
    rewrite existsb_app, orb_false_iff. intros [O1 O2] Hn. eapply IH; [|exact Er|auto|intros; eapply Hn; simpl; eauto].
    eapply xstep_finv; [exact Hf| |exact Ex|auto]. intros r. apply Hn. simpl; auto. }
  intros Hr Ho Hn Hq. assert (H0 : finv num x_new) by (repeat split; auto; intros m r []).
  destruct (H _ _ _ _ H0 Hr Ho Hn) as (F1 & _ & _ & F4).
  rewrite F1, Hq. cbn [fold_left]. unfold finals_of. rewrite F4. auto.
Qed.

(* ---------- a node that built a wrong record ---------- *)
(* Once a record l is stored for an epoch, no record of the next epoch built on another record p is ever accepted, whatever
   is downloaded: a node that built a wrong record is stuck there. *)
Theorem C38_divergent_record_sticks E signed s os e l p t c :
  eenv_sound E signed -> Forall no_reopen os -> nth_error (db_recs s) e = Some l -> er_parent t = ee_dig E (p : erec) -> p <> l ->
  validate_downloaded E (irun E s os) (S e) t c <> EValid.
Proof.
  intros Hs Hn Hl Hpp Hne Hv. assert (Hp : er_parent t <> ee_dig E l) by (rewrite Hpp; intros Hx; apply Hne; eapply es_dig; eauto).
  destruct (C38_first_write_wins E s os e l 0%N c Hn) as [Hk _]. specialize (Hk Hl).
  unfold validate_downloaded in Hv. cbn [Nat.eqb] in Hv. replace (S e - 1) with e in Hv by lia.
  rewrite record_by_epoch_nth in Hv by (intros Hx; rewrite Hx in Hk; destruct e; discriminate). rewrite Hk in Hv.
  unfold validate_against_anchor in Hv. destruct (N.eqb (ee_dig E l) (er_parent t)) eqn:Ep; [apply N.eqb_eq in Ep; congruence|].
  rewrite andb_false_r in Hv. discriminate.
Qed.
(* The recovery that logs "over wrote" does not replace it, and the number-to-epoch table now disagrees with the records. *)
Definition wrong0 : erec := mk_erec 0 [1; 2; 3; 4]%N [1; 2; 3; 4]%N DEFAULT_DIGEST 0 8 0.
Theorem C38_recovery_does_not_replace_refuted :
  exists evs os s, xrun E4 x_new evs = (os, s) /\ existsb err_seen os = false /\ existsb is_fail os = false /\ x_q s = [] /\
    In (ODone (MSave (chain4 0) (cert4 (chain4 0) [0; 1; 2]))) os /\ verify_with_cert E4 (chain4 0) (cert4 (chain4 0) [0; 1; 2]) = true /\
    record_by_epoch (x_db s) 0 = Some wrong0 /\ x_fin s <> finals_of (db_recs (x_db s)).
Proof.
  exists [XCall (CRecord wrong0); XCall (CSave (chain4 0) (cert4 (chain4 0) [0; 1; 2])); XCall (CPersist 0); XTurn true true true; XTurn true true true; XTurn true true true].
  eexists. eexists. split; [vm_compute; reflexivity|]. vm_compute. repeat split; auto. intros H. discriminate H.
Qed.
