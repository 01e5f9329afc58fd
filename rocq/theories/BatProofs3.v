(** Availability: the invariant of the network of workers. *)
From Verif Require Import Util WireModel WireSpec WireProofs BatModel BatSpec BatProofs BatProofs2.
Local Open Scope N_scope.

Section G.
Variable H : bytes -> bytes.
Variable recover : bytes -> option tx.
Variable v : validator.
Variable committee : list N.
Variable honest : N -> bool.
Notation digest := (BatModel.digest H).
Notation validate := (BatModel.validate H recover v).
Notation gstep := (BatModel.gstep H recover v committee honest).

Definition known (seen : list batch) (d : bytes) : Prop := exists b, In b seen /\ digest b = d.
Lemma known_mono new seen d : known seen d -> known (new ++ seen) d.
Proof. intros (b & I & E). exists b. rewrite in_app_iff. auto. Qed.
Record nodeok (seen : list batch) (lost : list N) (i : N) (s : nst) : Prop := {
  k_cache : keyed H (n_cache s);
  k_chain : keyed H (n_chain s);
  k_known : forall d, In d (map fst (n_cache s)) \/ In d (map fst (n_chain s)) \/ In d (map fst (n_pay s)) \/ In d (map fst (n_own s)) -> known seen d;
  k_local : ~ In i lost -> forall d, In d (map fst (n_pay s)) \/ In d (map fst (n_own s)) -> local s d <> None }.
Lemma nodeok_seen new seen lost i s : nodeok seen lost i s -> nodeok (new ++ seen) lost i s.
Proof. intros [A B C D]. constructor; auto. intros d I. apply known_mono. auto. Qed.
Lemma nodeok_ext P D new seen lost i s s' : ext P D s s' -> (forall e, P e -> fst e = digest (snd e) /\ known (new ++ seen) (fst e)) ->
  nodeok seen lost i s -> nodeok (new ++ seen) lost i s'.
Proof.
  intros X HP K. pose proof (fun d => ext_local P D s s' d X) as M. destruct (ext_keyed H P D s s' (fun e p => proj1 (HP e p)) X (k_cache _ _ _ _ K) (k_chain _ _ _ _ K)) as [A B].
  destruct X as ((nw & Ec & F) & (np & Ep & G) & _ & _ & Eh & Eo).
  rewrite Forall_forall in F, G.
  assert (Kc : forall d, In d (map fst (n_cache s')) \/ In d (map fst (n_chain s')) -> known (new ++ seen) d).
  { intros d [I|I].
    - rewrite Ec, map_app, in_app_iff in I. destruct I as [I|I].
      + apply in_map_iff in I. destruct I as (e & <- & I). apply HP, F, I.
      + apply known_mono. apply (k_known _ _ _ _ K). auto.
    - rewrite Eh in I. apply known_mono. apply (k_known _ _ _ _ K). auto. }
  constructor; [exact A|exact B| |].
  - intros d [I|[I|[I|I]]]; [apply Kc; auto|apply Kc; auto| |].
    + rewrite Ep, map_app, in_app_iff in I. destruct I as [I|I].
      * apply in_map_iff in I. destruct I as (e & <- & I). apply Kc. apply local_some. apply G, I.
      * apply known_mono. apply (k_known _ _ _ _ K). auto.
    + rewrite Eo in I. apply known_mono. apply (k_known _ _ _ _ K). auto.
  - intros Nl d [I|I].
    + rewrite Ep, map_app, in_app_iff in I. destruct I as [I|I].
      * apply in_map_iff in I. destruct I as (e & <- & I). apply G, I.
      * apply M. apply (k_local _ _ _ _ K Nl). auto.
    + rewrite Eo in I. apply M. apply (k_local _ _ _ _ K Nl). auto.
Qed.

Lemma pl_eqb_eq : forall a b, pl_eqb a b = true <-> a = b.
Proof.
  induction a as [|[d w] a IH]; intros [|[d' w'] b]; cbn [pl_eqb fst snd]; try (split; [discriminate 1|discriminate 1]); [tauto|].
  rewrite !andb_true_iff, N.eqb_eq, IH. destruct (beqb_spec d d') as [->|Nd]; intuition congruence.
Qed.
Lemma hdr_eqb_eq a b : hdr_eqb a b = true -> a = b.
Proof.
  unfold hdr_eqb. rewrite andb_true_iff, N.eqb_eq, pl_eqb_eq. destruct a, b. cbn. intros [-> ->]. reflexivity.
Qed.
Lemma hdr_eqb_refl a : hdr_eqb a a = true.
Proof. unfold hdr_eqb. rewrite N.eqb_refl. apply pl_eqb_eq. reflexivity. Qed.
Lemma voted_In g i h : voted g i h = true <-> In (i, h) (g_votes g).
Proof.
  unfold voted. rewrite existsb_exists. split.
  - intros ((j & h') & I & E). cbn in E. apply andb_true_iff in E. destruct E as [E1 E2]. apply N.eqb_eq in E1. apply hdr_eqb_eq in E2. subst. exact I.
  - intros I. exists (i, h). split; [exact I|]. cbn. rewrite N.eqb_refl, hdr_eqb_refl. reflexivity.
Qed.

Definition certified (g : gst) (h : hdr) : Prop :=
  exists signers, NoDup signers /\ incl signers committee /\ quorum (N.of_nat (length committee)) <= N.of_nat (length signers) /\
                  forall i, In i signers -> honest i = true -> In (i, h) (g_votes g).
Record GI (g : gst) : Prop := {
  gi_node : forall i, nodeok (g_seen g) (g_lost g) i (g_node g i);
  gi_seen : forall b, In b (g_seen g) -> validate (digest b) b = None;
  gi_vote : forall i h e, In (i, h) (g_votes g) -> In e (h_payload h) ->
              known (g_seen g) (fst e) /\ (~ In i (g_lost g) -> local (g_node g i) (fst e) <> None);
  gi_cert : forall h, In h (g_certs g) -> certified g h }.

Definition bad : list N := filter (fun i => negb (honest i)) committee.
Hypothesis few : 3 * N.of_nat (length bad) < N.of_nat (length committee).

Lemma GI_init : GI g0.
Proof.
  constructor; cbn; try contradiction; try (intros; contradiction).
  intros i. constructor; cbn; try constructor; try (intros d [[]|[[]|[[]|[]]]]). intros _ d [[]|[]].
Qed.
Lemma upd_same f i s : upd f i s i = s. Proof. unfold upd. rewrite N.eqb_refl. reflexivity. Qed.
Lemma upd_other f i s j : j <> i -> upd f i s j = f j. Proof. intros Nq. unfold upd. destruct (N.eqb_spec j i); [contradiction|reflexivity]. Qed.
Lemma GI_set g i s new : GI g -> nodeok (new ++ g_seen g) (g_lost g) i s ->
  (forall d, local (g_node g i) d <> None -> local s d <> None) -> (forall b, In b new -> validate (digest b) b = None) ->
  GI (set_node g i s new).
Proof.
  intros [A B C D] K M V. constructor; cbn [set_node g_node g_seen g_lost g_votes g_certs].
  - intros j. unfold upd. destruct (N.eqb_spec j i) as [->|]; [exact K|]. apply nodeok_seen. apply A.
  - intros b I. apply in_app_iff in I. destruct I; auto.
  - intros j h e I Ie. destruct (C j h e I Ie) as [X Y]. split; [apply known_mono; exact X|]. intros Nl.
    unfold upd. destruct (N.eqb_spec j i) as [->|]; auto.
  - intros h I. destruct (D h I) as (sg & X). exists sg. exact X.
Qed.
Lemma GI_ext g i P D s new : GI g -> ext P D (g_node g i) s -> (forall e, P e -> fst e = digest (snd e) /\ known (new ++ g_seen g) (fst e)) ->
  (forall b, In b new -> validate (digest b) b = None) -> GI (set_node g i s new).
Proof.
  intros G X HP V. apply GI_set; [exact G| | |exact V].
  - eapply nodeok_ext; [exact X|exact HP|apply (gi_node g G)].
  - intros d. eapply ext_local. exact X.
Qed.
Lemma fresh_eq s s' new : n_cache s' = new ++ n_cache s -> fresh s s' = map snd new.
Proof.
  intros E. unfold fresh. rewrite E, app_length. replace (length new + length (n_cache s) - length (n_cache s))%nat with (length new) by lia.
  rewrite firstn_app, Nat.sub_diag, firstn_all, firstn_O, app_nil_r. reflexivity.
Qed.
(** Growth by validated batches only. *)
Lemma GI_fresh g i P D s : GI g -> ext P D (g_node g i) s -> (forall e, P e -> fst e = digest (snd e) /\ validate (fst e) (snd e) = None) ->
  GI (set_node g i s (fresh (g_node g i) s)).
Proof.
  intros G X HP. assert (X0 := X). destruct X0 as ((nw & Ec & F) & _). rewrite (fresh_eq _ _ _ Ec). rewrite Forall_forall in F.
  eapply (GI_ext g i (fun e => P e /\ In e nw) D); [exact G| | |].
  - destruct X as ((nw' & Ec' & F') & X). split; [|exact X]. exists nw. split; [exact Ec|]. apply Forall_forall. intros e I. auto.
  - intros e [Pe Ie]. split; [apply HP; exact Pe|]. exists (snd e). rewrite in_app_iff. split; [left; apply in_map; exact Ie|]. symmetry. apply HP. exact Pe.
  - intros b I. apply in_map_iff in I. destruct I as (e & <- & I). destruct (HP e (F e I)) as [Ek Ev]. rewrite <- Ek. exact Ev.
Qed.
Lemma local_flush c p s d : local (flush c p s) d = local s d. Proof. reflexivity. Qed.
Lemma nodeok_flush seen lost i c p s : nodeok seen lost i s -> nodeok seen lost i (flush c p s).
Proof. intros [A B C D]. constructor; auto. Qed.
Lemma GI_vote g i h c p : GI g -> (forall e, In e (h_payload h) -> known (g_seen g) (fst e) /\ (~ In i (g_lost g) -> local (g_node g i) (fst e) <> None)) ->
  GI (vote g i h (flush c p (g_node g i))).
Proof.
  intros [A B C D] V. constructor; cbn [vote g_node g_seen g_lost g_votes g_certs]; [| exact B| |].
  - intros j. unfold upd. destruct (N.eqb_spec j i) as [->|]; [|apply A]. apply nodeok_flush, A.
  - intros j h' e [[= <- <-]|I] Ie.
    + rewrite upd_same, local_flush. auto.
    + unfold upd. destruct (N.eqb_spec j i) as [->|]; [rewrite local_flush|]; apply (C _ _ _ I Ie).
  - intros h' I. destruct (D h' I) as (sg & X1 & X2 & X3 & X4). exists sg. split; [exact X1|]. split; [exact X2|]. split; [exact X3|].
    intros j Ij Hj. right. auto.
Qed.
(** A quorum has an honest member. *)
Lemma honest_count signers : NoDup signers -> incl signers committee ->
  N.of_nat (length signers) <= N.of_nat (length (filter honest signers)) + N.of_nat (length bad).
Proof.
  intros Nd I. assert (L : (length (filter (fun i => negb (honest i)) signers) <= length bad)%nat).
  { apply NoDup_incl_length; [apply NoDup_filter; exact Nd|]. intros i J. apply filter_In in J. apply filter_In. split; [apply I|]; tauto. }
  assert (S : length signers = (length (filter honest signers) + length (filter (fun i => negb (honest i)) signers))%nat).
  { clear. induction signers as [|a t IH]; [reflexivity|]. cbn. destruct (honest a); cbn; lia. }
  lia.
Qed.
Lemma certified_known g h e : GI g -> certified g h -> In e (h_payload h) -> known (g_seen g) (fst e).
Proof.
  intros G (sg & Nd & I & Q & V) Ie. pose proof (honest_count sg Nd I) as L. unfold quorum in Q.
  destruct (filter honest sg) as [|i t] eqn:F; [cbn [length] in L; lia|].
  assert (Ii : In i (filter honest sg)) by (rewrite F; left; reflexivity). apply filter_In in Ii. destruct Ii as [Ii Hi].
  apply (gi_vote g G i h e (V i Ii Hi) Ie).
Qed.
Lemma lastn_in {A} k (l : list A) x : In x (lastn k l) -> In x l.
Proof. unfold lastn. intros I. rewrite <- (firstn_skipn (length l - k) l). apply in_app_iff. auto. Qed.
Lemma lastn_map_in {A B} (f : A -> B) k l x : In x (map f (lastn k l)) -> In x (map f l).
Proof. intros I. apply in_map_iff in I. destruct I as (y & <- & I). apply in_map, lastn_in in I || (apply in_map; apply lastn_in in I; exact I). Qed.
Lemma lastn_all {A} k (l : list A) : (length l <= k)%nat -> lastn k l = l.
Proof. intros L. unfold lastn. replace (length l - k)%nat with O by lia. reflexivity. Qed.

Lemma GI_step g e : GI g -> GI (gstep g e).
Proof.
  intros G. destruct e as [i m d b stop|i d ps|i b q stop|i h plan|i h|h signers|i h plan|i ds rounds|i d|i c p|i]; cbn [BatModel.gstep].
  - destruct (report_batch H recover v m d b stop (g_node g i)) as [s ack] eqn:E. apply report_ext in E. destruct E as [X _].
    eapply GI_fresh; [exact G|exact X|]. intros e [-> V]. cbn. split; [|exact V]. apply validate_iff in V. tauto.
  - eapply GI_fresh; [exact G|apply prefetch_ext|]. cbn. tauto.
  - destruct (validate (digest b) b) eqn:V; [exact G|]. destruct (seal H v b q stop (g_node g i)) as [s ack] eqn:E. unfold seal in E.
    assert (No : s = g_node g i -> GI (set_node g i s (fresh (g_node g i) s))).
    { intros ->. eapply (GI_fresh g i (fun _ => False) (fun _ => False)); [exact G|apply ext_refl|intros ? []]. }
    assert (X : ext (fun e => e = (digest b, b)) (fun _ => False) (g_node g i) (insert_batch (digest b) b (g_node g i))) by (apply insert_ext; reflexivity).
    assert (HP : forall e, e = (digest b, b) -> fst e = digest (snd e) /\ validate (fst e) (snd e) = None) by (intros e ->; cbn; auto).
    assert (Y := GI_fresh g i _ _ _ G X HP). clear No.
    destruct q as [[| |]|]; try (injection E as <- <-; eapply (GI_fresh g i (fun _ => False) (fun _ => False)); [exact G|apply ext_refl|intros ? []]).
    destruct stop; [injection E as <- <-; exact Y|]. injection E as <- <-.
    rewrite (fresh_eq _ _ [(digest b, b)]) by reflexivity. rewrite (fresh_eq _ _ [(digest b, b)]) in Y by reflexivity. cbn [map snd] in *.
    assert (Ky := gi_node _ Y i). cbn [set_node g_node g_seen g_lost] in Ky. rewrite upd_same in Ky.
    assert (Lb : In (digest b) (map fst (n_cache (insert_batch (digest b) b (g_node g i))))) by (left; reflexivity).
    apply GI_set; [exact G| | |].
    + destruct Ky as [A B C D]. constructor; [exact A|exact B| |].
      * intros d [I|[I|[I|I]]]; [apply C; auto|apply C; auto|apply C; auto|]. cbn in I. destruct I as [<-|I]; [apply C; left; exact Lb|apply C; auto].
      * intros Nl d [I|I]; [apply (D Nl); auto|]. cbn in I. destruct I as [<-|I]; [apply local_some; left; exact Lb|apply (D Nl); auto].
    + intros d. rewrite !local_some. cbn. tauto.
    + intros b' [<-|[]]. exact V.
  - destruct (N.eqb_spec (h_author h) i) as [|Na]; [exact G|].
    destruct (sync_header H recover i v false h plan (g_node g i)) as [s ok] eqn:E. apply sync_header_ext in E. destruct E as [X L].
    assert (Y : GI (set_node g i s (fresh (g_node g i) s))).
    { eapply GI_fresh; [exact G|exact X|]. intros e (A & _ & B). auto. }
    destruct ok; [|exact Y]. specialize (L eq_refl Na).
    assert (Es : s = g_node (set_node g i s (fresh (g_node g i) s)) i) by (cbn; rewrite upd_same; reflexivity).
    set (g1 := set_node g i s (fresh (g_node g i) s)) in *. unfold flush_epoch_db. generalize (length (n_pay s)); intros np. rewrite Es in L |- *. clear Es. apply GI_vote; [exact Y|]. intros e Ie. specialize (L e Ie).
    apply (in_map fst) in L. destruct (gi_node _ Y i) as [A B C D]. split; [apply C; auto|]. intros Nl. apply (D Nl). auto.
  - destruct (_ && _) eqn:E; [|exact G]. apply andb_true_iff in E. destruct E as [_ E]. rewrite forallb_forall in E.
    apply GI_vote; [exact G|]. intros e Ie. apply E in Ie. apply existsb_exists in Ie. destruct Ie as (o & Io & Eo).
    apply andb_true_iff in Eo. destruct Eo as [Eo _]. destruct (beqb_spec (fst o) (fst e)) as [Eq|]; [|discriminate]. rewrite <- Eq.
    apply (in_map fst) in Io. destruct (gi_node _ G i) as [A B C D]. split; [apply C; auto|]. intros Nl. apply (D Nl). auto.
  - destruct (_ && _) eqn:E; [|exact G]. apply andb_true_iff in E. destruct E as [Q E]. apply N.leb_le in Q. rewrite forallb_forall in E.
    destruct G as [A B C D]. constructor; cbn; [exact A|exact B|exact C|]. intros h' [<-|I].
    + exists (nodup N.eq_dec signers). split; [apply NoDup_nodup|]. split; [|split; [exact Q|]].
      * intros i I. apply nodup_In in I. apply E in I. apply andb_true_iff in I. destruct I as [I _]. apply memN_In in I. exact I.
      * intros i I Hi. apply nodup_In in I. apply E in I. apply andb_true_iff in I. destruct I as [_ I]. rewrite Hi in I. apply voted_In. exact I.
    + destruct (D h' I) as (sg & X). exists sg. exact X.
  - destruct (existsb _ _) eqn:E; [|exact G]. apply existsb_exists in E. destruct E as (h' & I & E). apply hdr_eqb_eq in E. subst h'.
    destruct (sync_header H recover i v true h plan (g_node g i)) as [s ok] eqn:E. apply sync_header_ext in E. destruct E as [X _].
    eapply GI_ext; [exact G|exact X| |intros ? []]. intros e (A & B & _). split; [exact A|]. cbn [app].
    apply in_map_iff in B. destruct B as (x & Ex & B). rewrite <- Ex. eapply certified_known; [exact G|apply (gi_cert g G); exact I|exact B].
  - destruct (forallb _ _) eqn:E; [|exact G]. rewrite forallb_forall in E.
    destruct (fetch_for_primary H rounds ds (g_node g i)) as [s o] eqn:F.
    apply (fetch_spec H recover v (fun _ => False)) in F; [|apply (gi_node g G)|apply (gi_node g G)]. destruct F as [X _].
    eapply GI_ext; [exact G|exact X| |intros ? []]. intros e (A & B & _). split; [exact A|]. cbn [app].
    apply E in B. apply existsb_exists in B. destruct B as (h & Ih & B). apply mem_In in B. apply in_map_iff in B. destruct B as (x & Ex & B). rewrite <- Ex.
    eapply certified_known; [exact G|apply (gi_cert g G); exact Ih|exact B].
  - destruct (local (g_node g i) d) as [b|] eqn:L; [|exact G]. destruct (gi_node g G i) as [A B C D].
    assert (Kd : d = digest b) by (apply local_in in L; destruct L as [L|L]; [exact (keyed_in H _ _ _ A L)|exact (keyed_in H _ _ _ B L)]).
    apply GI_set; [exact G| | |intros ? []].
    + cbn [app]. assert (Ld : In d (map fst (n_cache (g_node g i))) \/ In d (map fst (n_chain (g_node g i)))) by (apply local_some; congruence).
      constructor; cbn.
      * exact A.
      * constructor; [exact Kd|exact B].
      * intros x [I|[[<-|I]|[I|I]]]; apply C; tauto.
      * intros Nl x I. specialize (D Nl x I). rewrite local_some in *. cbn. tauto.
    + intros x. rewrite !local_some. cbn. tauto.
  - apply GI_set; [exact G|apply nodeok_flush, (gi_node g G)|intros d; rewrite local_flush; auto|intros ? []].
  - destruct G as [A B C D]. pose proof (A i) as [Ka Kb Kc Kd].
    assert (Kn : forall lost, (~ In i lost -> lastn (n_cdur (g_node g i)) (n_cache (g_node g i)) = n_cache (g_node g i) /\ ~ In i (g_lost g)) ->
                 nodeok (g_seen g) lost i (crash (g_node g i))).
    { intros lost Hl. constructor; cbn.
      - unfold keyed in *. rewrite Forall_forall in *. intros e I. apply Ka. eapply lastn_in. exact I.
      - exact Kb.
      - intros d [I|[I|[I|[]]]]; apply Kc; [left; eapply lastn_map_in; exact I|right; left; exact I|right; right; left; eapply lastn_map_in; exact I].
      - intros Nl d [I|[]]. destruct (Hl Nl) as [El Nl']. specialize (Kd Nl' d). rewrite !local_some in *. cbn. rewrite El.
        apply Kd. left. eapply lastn_map_in. exact I. }
    set (extra := if Nat.ltb _ _ then [i] else []).
    assert (Hx : ~ In i (extra ++ g_lost g) -> lastn (n_cdur (g_node g i)) (n_cache (g_node g i)) = n_cache (g_node g i) /\ ~ In i (g_lost g)).
    { intros Nl. unfold extra in Nl. destruct (Nat.ltb_spec (n_cdur (g_node g i)) (length (n_cache (g_node g i)))) as [Lt|Ge].
      - exfalso. apply Nl. left. reflexivity.
      - split; [apply lastn_all; exact Ge|exact Nl]. }
    constructor; cbn [set_node g_node g_seen g_lost g_votes g_certs app]; [|exact B| |].
    + intros j. unfold upd. destruct (N.eqb_spec j i) as [->|Nj]; [apply Kn; exact Hx|].
      destruct (A j) as [Ja Jb Jc Jd]. constructor; auto. intros Nl. apply Jd. intros I. apply Nl. apply in_app_iff. auto.
    + intros j h e I Ie. destruct (C j h e I Ie) as [X Y]. split; [exact X|]. intros Nl. unfold upd. destruct (N.eqb_spec j i) as [->|Nj].
      * destruct (Hx Nl) as [El Nl']. specialize (Y Nl'). rewrite local_some in *. cbn. rewrite El. exact Y.
      * apply Y. intros Il. apply Nl. apply in_app_iff. auto.
    + intros h I. destruct (D h I) as (sg & X). exists sg. exact X.
Qed.
Lemma GI_fold es : forall g, GI g -> GI (fold_left gstep es g).
Proof. induction es as [|e es IH]; cbn [fold_left]; intros g G; [exact G|]. apply IH, GI_step, G. Qed.
Lemma GI_reach es : GI (reach H recover v committee honest es).
Proof. apply GI_fold, GI_init. Qed.

(** Of a certified payload the holders. *)
Lemma holders es h e : let g := reach H recover v committee honest es in In h (g_certs g) -> In e (h_payload h) ->
  exists hs, NoDup hs /\ incl hs committee /\
    (forall i, In i hs -> honest i = true /\ ~ In i (g_lost g) /\ held H (g_node g i) (fst e)) /\
    quorum (N.of_nat (length committee)) <= N.of_nat (length hs) + N.of_nat (length bad) + N.of_nat (length (g_lost g)).
Proof.
  intros g I Ie. pose proof (GI_reach es) as G. fold g in G. destruct (gi_cert g G h I) as (sg & Nd & Ic & Q & V).
  exists (filter (fun i => negb (memN i (g_lost g))) (filter honest sg)).
  split; [apply NoDup_filter, NoDup_filter; exact Nd|]. split; [|split].
  - intros i J. apply filter_In in J. destruct J as [J _]. apply filter_In in J. apply Ic. tauto.
  - intros i J. apply filter_In in J. destruct J as [J Nl]. apply filter_In in J. destruct J as [J Hi].
    assert (Nl' : ~ In i (g_lost g)) by (intros Il; apply memN_In in Il; rewrite Il in Nl; discriminate).
    split; [exact Hi|]. split; [exact Nl'|]. destruct (gi_vote g G i h e (V i J Hi) Ie) as [_ L]. specialize (L Nl').
    destruct (local (g_node g i) (fst e)) as [b|] eqn:El; [|contradiction]. exists b. split; [exact El|].
    apply local_in in El. symmetry. destruct El as [El|El]; [exact (keyed_in H _ _ _ (k_cache _ _ _ _ (gi_node g G i)) El)|exact (keyed_in H _ _ _ (k_chain _ _ _ _ (gi_node g G i)) El)].
  - pose proof (honest_count sg Nd Ic) as L.
    assert (L2 : (length (filter honest sg) <= length (filter (fun i => negb (memN i (g_lost g))) (filter honest sg)) + length (g_lost g))%nat).
    { set (hs := filter honest sg). assert (Ndh : NoDup hs) by (apply NoDup_filter; exact Nd).
      assert (S : length hs = (length (filter (fun i => negb (memN i (g_lost g))) hs) + length (filter (fun i => memN i (g_lost g)) hs))%nat).
      { clear. induction hs as [|a t IH]; [reflexivity|]. cbn. destruct (memN a (g_lost g)); cbn; lia. }
      assert (length (filter (fun i => memN i (g_lost g)) hs) <= length (g_lost g))%nat.
      { apply NoDup_incl_length; [apply NoDup_filter; exact Ndh|]. intros i J. apply filter_In in J. apply memN_In. tauto. }
      lia. }
    lia.
Qed.
(** Whatever an honest node holds is, up to a collision, a valid batch. *)
Lemma held_valid es i d b : let g := reach H recover v committee honest es in local (g_node g i) d = Some b ->
  digest b = d /\ (valid recover v b \/ exists b', valid recover v b' /\ collides H (put_batch b) (put_batch b')
                                        \/ valid recover v b' /\ put_batch b = put_batch b').
Proof.
  intros g L. pose proof (GI_reach es) as G. fold g in G.
  assert (Kd : d = digest b).
  { apply local_in in L. destruct L as [L|L]; [exact (keyed_in H _ _ _ (k_cache _ _ _ _ (gi_node g G i)) L)|exact (keyed_in H _ _ _ (k_chain _ _ _ _ (gi_node g G i)) L)]. }
  split; [auto|]. assert (Kn : known (g_seen g) d).
  { apply (k_known _ _ _ _ (gi_node g G i)). assert (local (g_node g i) d <> None) as X by congruence. apply local_some in X. tauto. }
  destruct Kn as (b' & Ib & Eb). apply (gi_seen g G) in Ib. apply validate_iff in Ib. destruct Ib as [_ Vb]. right. exists b'.
  destruct (list_eq_dec N.eq_dec (put_batch b) (put_batch b')) as [Ep|Ep]; [right; auto|left]. split; [exact Vb|]. split; [exact Ep|].
  unfold BatModel.digest in *. congruence.
Qed.
Lemma cert_valid es h e : let g := reach H recover v committee honest es in In h (g_certs g) -> In e (h_payload h) ->
  exists b, valid recover v b /\ digest b = fst e.
Proof.
  intros g I Ie. pose proof (GI_reach es) as G. fold g in G.
  destruct (certified_known g h e G (gi_cert g G h I) Ie) as (b & Ib & Eb). exists b. split; [|exact Eb].
  apply (gi_seen g G) in Ib. apply validate_iff in Ib. tauto.
Qed.
End G.
