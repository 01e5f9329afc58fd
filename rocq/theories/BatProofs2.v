From Verif Require Import Util WireModel WireSpec WireProofs BatModel BatSpec BatProofs.
Local Open Scope N_scope.

Lemma mem_In d l : mem d l = true <-> In d l.
Proof.
  unfold mem. rewrite existsb_exists. split.
  - intros (x & I & E). destruct (beqb_spec d x) as [->|]; [exact I|discriminate].
  - intros I. exists d. split; [exact I|]. destruct (beqb_spec d d); [reflexivity|contradiction].
Qed.
Lemma mem_nIn d l : mem d l = false <-> ~ In d l.
Proof. rewrite <- mem_In. destruct (mem d l); split; congruence. Qed.
Lemma remove_d_In d l x : In x (remove_d d l) <-> In x l /\ x <> d.
Proof. unfold remove_d. rewrite filter_In. destruct (beqb_spec d x) as [->|]; cbn; intuition congruence. Qed.
Lemma bset_fold_in l : forall s x, In x (fold_left (fun s k => bset_insert k s) l s) <-> In x l \/ In x s.
Proof.
  induction l as [|k l IH]; cbn [fold_left]; intros s x; [cbn; tauto|].
  rewrite IH, bset_insert_in. cbn. intuition.
Qed.
Lemma bset_of_in l x : In x (bset_of l) <-> In x l.
Proof. unfold bset_of. rewrite bset_fold_in. cbn. tauto. Qed.

Lemma lookup_in d m b : lookup d m = Some b -> In (d, b) m.
Proof.
  unfold lookup. destruct (find _ m) as [[d' b']|] eqn:F; [|discriminate]. intros [= ->]. apply find_some in F. destruct F as [I E].
  cbn in E. destruct (beqb_spec d' d) as [->|]; [exact I|discriminate].
Qed.
Lemma lookup_none d m : lookup d m = None <-> ~ In d (map fst m).
Proof.
  unfold lookup. destruct (find _ m) as [[d' b']|] eqn:F.
  - split; [discriminate|]. intros N. exfalso. apply N. apply find_some in F. destruct F as [I E]. cbn in E.
    destruct (beqb_spec d' d) as [->|]; [|discriminate]. apply in_map_iff. exists (d, b'). auto.
  - split; [|reflexivity]. intros _ I. apply in_map_iff in I. destruct I as ((d' & b) & E & I). cbn in E. subst d'.
    apply (find_none _ _ F) in I. cbn in I. destruct (beqb_spec d d); [discriminate|contradiction].
Qed.
Lemma local_in s d b : local s d = Some b -> In (d, b) (n_cache s) \/ In (d, b) (n_chain s).
Proof. unfold local. destruct (lookup d (n_cache s)) eqn:E; [intros [= <-]; left; apply lookup_in; exact E|right; apply lookup_in; assumption]. Qed.
Lemma local_none s d : local s d = None <-> ~ In d (map fst (n_cache s)) /\ ~ In d (map fst (n_chain s)).
Proof.
  unfold local. destruct (lookup d (n_cache s)) eqn:E.
  - split; [discriminate|]. intros [N _]. apply lookup_none in N. congruence.
  - rewrite lookup_none. apply lookup_none in E. tauto.
Qed.
Lemma local_some s d : local s d <> None <-> In d (map fst (n_cache s)) \/ In d (map fst (n_chain s)).
Proof.
  destruct (local s d) eqn:E.
  - split; [|discriminate]. intros _. apply local_in in E. destruct E as [E|E]; [left|right]; apply (in_map fst) in E; exact E.
  - apply local_none in E. split; [congruence|]. tauto.
Qed.

Section P.
Variable H : bytes -> bytes.
Variable recover : bytes -> option tx.
Notation digest := (BatModel.digest H).

(* ---------- asking ---------- *)
Lemma read_sync_sound req : forall fs acc got,
  NoDup (map fst acc) -> Forall (fun e => fst e = digest (snd e) /\ In (fst e) req) acc ->
  read_sync H req fs acc = Some got ->
  NoDup (map fst got) /\ Forall (fun e => fst e = digest (snd e) /\ In (fst e) req) got.
Proof.
  induction fs as [|f fs IH]; cbn [read_sync]; intros acc got Nd F E; [discriminate|].
  destruct f as [bs| |]; [|injection E as <-; auto|discriminate].
  destruct (Nat.leb _ _); [discriminate|]. destruct (from_bytes get_batch bs) as [b|]; [|discriminate].
  destruct (mem (digest b) req) eqn:M; cbn [negb] in E; [|discriminate].
  destruct (mem (digest b) (map fst acc)) eqn:M2; [discriminate|].
  apply mem_In in M. apply mem_nIn in M2. apply IH in E; [exact E| |].
  - rewrite map_app. cbn. apply NoDup_app_intro; [exact Nd|constructor; [intros []|constructor]|]. intros x I [<-|[]]. contradiction.
  - rewrite Forall_app. split; [exact F|]. constructor; [|constructor]. cbn. auto.
Qed.

Definition J (orig req : list bytes) (acc : list (bytes * batch)) : Prop :=
  (forall d, In d orig <-> In d req \/ In d (map fst acc)) /\ Forall (fun e => fst e = digest (snd e)) acc /\
  (forall d, In d req -> ~ In d (map fst acc)) /\ NoDup (map fst acc).
Lemma take_new_J orig : forall got req acc req' acc', Forall (fun e => fst e = digest (snd e)) got ->
  J orig req acc -> take_new got req acc = (req', acc') -> J orig req' acc'.
Proof.
  induction got as [|[d b] got IH]; cbn [take_new]; intros req acc req' acc' F Hj E; [injection E as <- <-; exact Hj|].
  inversion F as [|? ? Fd F']; subst. destruct (mem d req) eqn:M; [|eapply IH; eauto].
  apply mem_In in M. eapply IH; [exact F'| |exact E]. destruct Hj as (A & B & C & D).
  split; [|split; [|split]].
  - intros x. rewrite A, remove_d_In, map_app, in_app_iff. cbn. destruct (list_eq_dec N.eq_dec x d) as [->|Nx]; [tauto|]. intuition congruence.
  - rewrite Forall_app. auto.
  - intros x I. apply remove_d_In in I. destruct I as [I Nx]. rewrite map_app, in_app_iff. cbn. intros [Q|[Q|[]]]; [apply (C x I Q)|congruence].
  - rewrite map_app. cbn. apply NoDup_app_intro; [exact D|constructor; [intros []|constructor]|]. intros x I [<-|[]]. apply (C d M I).
Qed.
Lemma ask_peers_J orig : forall peers req acc req' acc', J orig req acc -> ask_peers H peers req acc = (req', acc') -> J orig req' acc'.
Proof.
  induction peers as [|p t IH]; cbn [ask_peers]; intros req acc req' acc' Hj E; [injection E as <- <-; exact Hj|].
  destruct req as [|r0 r]; [injection E as <- <-; exact Hj|].
  destruct (p _) as [fs|]; [|eapply IH; eauto]. destruct (read_sync _ _ _ _) as [got|] eqn:R; [|eapply IH; eauto].
  destruct (take_new got (r0 :: r) acc) as [rq ac] eqn:T. eapply IH; [|exact E].
  eapply take_new_J; [|exact Hj|exact T]. apply read_sync_sound in R; [|constructor|constructor].
  destruct R as [_ R]. eapply Forall_impl; [|exact R]. cbn. tauto.
Qed.
Lemma request_go_J orig : forall k passes req acc o rest, J orig req acc -> acc = [] -> request_go H k passes req acc = (o, rest) ->
  match o with Some got => J orig rest got | None => forall d, In d orig <-> In d rest end.
Proof.
  induction k as [|k IH]; cbn [request_go]; intros passes req acc o rest Hj Ea E.
  - subst acc. destruct req; injection E as <- <-; [exact Hj|]. destruct Hj as [A _]. intros d. rewrite A. cbn. tauto.
  - destruct passes as [|peers t].
    + injection E as <- <-. subst acc. destruct Hj as [A _]. intros d. rewrite A. cbn. tauto.
    + destruct peers as [|p ps]; [injection E as <- <-; exact Hj|].
      destruct (ask_peers H (p :: ps) req acc) as [req' acc'] eqn:Q. apply ask_peers_J with (orig := orig) in Q; [|exact Hj].
      destruct acc' as [|a0 acc'].
      * destruct req'; [injection E as <- <-; exact Q|]. eapply IH; [exact Q|reflexivity|exact E].
      * destruct req'; injection E as <- <-; exact Q.
Qed.
Lemma request_J passes req o rest : request_batches H passes req = (o, rest) ->
  match o with Some got => J req rest got | None => forall d, In d req <-> In d rest end.
Proof.
  apply request_go_J; [|reflexivity]. split; [intros; cbn; tauto|]. split; [constructor|]. split; [intros ? _ []|constructor].
Qed.

(* ---------- how the node's store grows ---------- *)
Definition ext (P : bytes * batch -> Prop) (D : bytes * N -> Prop) (s s' : nst) : Prop :=
  (exists new, n_cache s' = new ++ n_cache s /\ Forall P new) /\
  (exists np, n_pay s' = np ++ n_pay s /\ Forall (fun e => D e /\ local s' (fst e) <> None) np) /\
  n_cdur s' = n_cdur s /\ n_pdur s' = n_pdur s /\ n_chain s' = n_chain s /\ n_own s' = n_own s.
Lemma ext_refl P D s : ext P D s s.
Proof. split; [exists []; split; [reflexivity|constructor]|]. split; [exists []; split; [reflexivity|constructor]|]. auto. Qed.
Lemma ext_local P D s s' d : ext P D s s' -> local s d <> None -> local s' d <> None.
Proof.
  clear H recover. intros ((new & C & _) & _ & _ & _ & Ch & _). rewrite !local_some, C, Ch, map_app, in_app_iff. tauto.
Qed.
Lemma ext_trans P D a b c : ext P D a b -> ext P D b c -> ext P D a c.
Proof.
  intros X Y. pose proof (ext_local P D b c) as L. specialize (fun d => L d Y).
  destruct X as ((n1 & C1 & F1) & (p1 & P1 & G1) & X1 & X2 & X3 & X4). destruct Y as ((n2 & C2 & F2) & (p2 & P2 & G2) & Y1 & Y2 & Y3 & Y4).
  split; [exists (n2 ++ n1); rewrite C2, C1, app_assoc, Forall_app; auto|].
  split; [exists (p2 ++ p1); rewrite P2, P1, app_assoc, Forall_app|].
  - split; [reflexivity|]. split; [exact G2|]. eapply Forall_impl; [|exact G1]. cbn. intros e [De Le]. auto.
  - repeat split; congruence.
Qed.
Lemma ext_weaken (P Q : bytes * batch -> Prop) (D E : bytes * N -> Prop) s s' :
  (forall e, P e -> Q e) -> (forall e, D e -> E e) -> ext P D s s' -> ext Q E s s'.
Proof.
  intros PQ DE ((n1 & C1 & F1) & (p1 & P1 & G1) & X). split; [|split; [|exact X]].
  - exists n1. split; [exact C1|]. eapply Forall_impl; [|exact F1]. exact PQ.
  - exists p1. split; [exact P1|]. eapply Forall_impl; [|exact G1]. cbn. intros e [? ?]. auto.
Qed.
Lemma insert_ext (P : bytes * batch -> Prop) D d b s : P (d, b) -> ext P D s (insert_batch d b s).
Proof.
  intros Pd. split; [exists [(d, b)]; split; [reflexivity|constructor; [exact Pd|constructor]]|].
  split; [exists []; split; [reflexivity|constructor]|]. repeat split.
Qed.
Lemma insert_local d b s x : local (insert_batch d b s) x <> None <-> x = d \/ local s x <> None.
Proof. rewrite !local_some. cbn. intuition. Qed.
Lemma payload_ext P (D : bytes * N -> Prop) d w s : D (d, w) -> local s d <> None -> ext P D s (write_payload d w s).
Proof.
  intros Dd L. split; [exists []; split; [reflexivity|constructor]|].
  split; [exists [(d, w)]; split; [reflexivity|constructor; [split; [exact Dd|exact L]|constructor]]|]. repeat split.
Qed.

Section V.
Variable v : validator.
Notation validate := (BatModel.validate H recover v).

(** What may enter the cache: the digest fits, it was asked for, and it was validated unless certified. *)
Definition enter (certified : bool) (A : bytes -> Prop) (e : bytes * batch) : Prop :=
  fst e = digest (snd e) /\ A (fst e) /\ (certified = false -> validate (fst e) (snd e) = None).
Lemma store_synced_ext D certified req : forall got s s' ok, Forall (fun e => fst e = digest (snd e)) got ->
  store_synced H recover v certified req got s = (s', ok) ->
  ext (enter certified (fun d => In d req)) D s s' /\ (ok = true -> forall d, In d (map fst got) -> local s' d <> None).
Proof.
  induction got as [|[d b] t IH]; cbn [store_synced]; intros s s' ok F E.
  - injection E as <- <-. split; [apply ext_refl|]. intros _ ? [].
  - inversion F as [|? ? Fd F']; subst. destruct (negb certified && _) eqn:V.
    { injection E as <- <-. split; [apply ext_refl|discriminate]. }
    destruct (mem d req) eqn:M; [|injection E as <- <-; split; [apply ext_refl|discriminate]].
    apply mem_In in M. apply (IH _ _ _ F') in E. destruct E as [E L].
    assert (X : ext (enter certified (fun d => In d req)) D s (insert_batch d b s)).
    { apply insert_ext. split; [exact Fd|]. split; [exact M|]. intros ->. cbn in V. destruct (validate d b) eqn:Ev; [discriminate|exact Ev]. }
    split; [eapply ext_trans; eassumption|]. intros Ok x [<-|I]; [|apply L; assumption].
    eapply ext_local; [exact E|]. apply insert_local. auto.
Qed.
Lemma synchronize_ext D certified ds passes s s' ok :
  synchronize H recover v certified ds passes s = (s', ok) ->
  ext (enter certified (fun d => In d ds)) D s s' /\ (ok = true -> forall d, In d ds -> local s' d <> None).
Proof.
  unfold synchronize. set (missing := bset_of _).
  assert (Mi : forall d, In d missing <-> In d ds /\ local s d = None).
  { intros d. unfold missing. rewrite bset_of_in, filter_In. destruct (local s d); intuition congruence. }
  destruct missing as [|m0 m] eqn:Em.
  { intros [= <- <-]. split; [apply ext_refl|]. intros _ d I L. destruct (proj2 (Mi d) (conj I L)). }
  rewrite <- Em in *. destruct (request_batches H passes missing) as [[got|] rest] eqn:R.
  2:{ intros [= <- <-]. split; [apply ext_refl|discriminate]. }
  apply request_J in R. destruct R as (A & B & C & Nd).
  destruct (store_synced H recover v certified missing got s) as [s1 ok1] eqn:S. intros [= <- <-].
  apply store_synced_ext with (D := D) in S; [|exact B]. destruct S as [X L]. split.
  - eapply ext_weaken; [| |exact X]; [|auto]. intros e (? & I & ?). split; [assumption|]. split; [|assumption]. apply Mi in I. tauto.
  - intros Ok d I. apply andb_true_iff in Ok. destruct Ok as [Ok Er]. destruct rest; [|discriminate].
    destruct (local s d) eqn:E; [eapply ext_local; [exact X|congruence]|].
    apply L; [exact Ok|]. assert (Im : In d missing) by (apply Mi; auto). apply A in Im. destruct Im as [[]|Im]; exact Im.
Qed.
Lemma write_all_ext P (D : bytes * N -> Prop) w : forall ds s, (forall d, In d ds -> D (d, w) /\ local s d <> None) ->
  ext P D s (write_all w ds s) /\ (forall d, In d ds -> In (d, w) (n_pay (write_all w ds s))).
Proof.
  induction ds as [|d t IH]; cbn [write_all]; intros s F; [split; [apply ext_refl|intros ? []]|].
  destruct (F d (or_introl eq_refl)) as [Dd Ld].
  destruct (IH (write_payload d w s)) as [X I]. { intros x Ix. split; [apply F; right; exact Ix|]. apply (F x). right. exact Ix. }
  split; [eapply ext_trans; [exact (payload_ext P D d w s Dd Ld)|exact X]|].
  intros x [<-|Ix]; [|apply I; exact Ix]. destruct X as (_ & (np & P1 & _) & _). rewrite P1. apply in_app_iff. right. left. reflexivity.
Qed.
Lemma sync_group_ext certified w ds dies : forall tries s s' ok,
  sync_group H recover v certified w ds tries dies s = (s', ok) ->
  ext (enter certified (fun d => In d ds)) (fun e => snd e = w /\ In (fst e) ds) s s' /\
  (ok = true -> forall d, In d ds -> In (d, w) (n_pay s')).
Proof.
  induction tries as [|p t IH]; cbn [sync_group]; intros s s' ok E; [injection E as <- <-; split; [apply ext_refl|discriminate]|].
  destruct (synchronize H recover v certified ds p s) as [s1 ok1] eqn:S.
  apply synchronize_ext with (D := fun e => snd e = w /\ In (fst e) ds) in S. destruct S as [X L].
  destruct ok1.
  - specialize (L eq_refl). destruct dies as [k|].
    + injection E as <- <-. split; [|discriminate]. eapply ext_trans; [exact X|]. apply write_all_ext.
      intros d I. assert (In d ds) by (rewrite <- (firstn_skipn k ds); apply in_app_iff; auto). cbn. auto.
    + injection E as <- <-.
      destruct (write_all_ext (enter certified (fun d => In d ds)) (fun e => snd e = w /\ In (fst e) ds) w ds s1) as [X2 I2].
      { intros d I. cbn. auto. }
      split; [eapply ext_trans; eassumption|]. intros _. exact I2.
  - apply IH in E. destruct E as [X2 I2]. split; [eapply ext_trans; eassumption|exact I2].
Qed.
Definition in_groups (gs : list (N * list bytes)) (d : bytes) (w : N) : Prop := exists ds, In (w, ds) gs /\ In d ds.
Lemma ext_pay P D s s' e : ext P D s s' -> In e (n_pay s) -> In e (n_pay s').
Proof. intros (_ & (np & -> & _) & _) I. apply in_app_iff. auto. Qed.
Lemma sync_groups_ext certified : forall gs plan s s' ok,
  sync_groups H recover v certified gs plan s = (s', ok) ->
  ext (enter certified (fun d => exists w, in_groups gs d w)) (fun e => in_groups gs (fst e) (snd e)) s s' /\
  (ok = true -> forall d w, in_groups gs d w -> In (d, w) (n_pay s')).
Proof.
  induction gs as [|[w ds] gs IH]; cbn [sync_groups]; intros plan s s' ok E.
  - injection E as <- <-. split; [apply ext_refl|]. intros _ d w (ds & [] & _).
  - destruct plan as [|[tries dies] pt]; [injection E as <- <-; split; [apply ext_refl|discriminate]|].
    destruct (sync_group H recover v certified w ds tries dies s) as [s1 ok1] eqn:S. apply sync_group_ext in S. destruct S as [X L].
    assert (X' : ext (enter certified (fun d => exists w0, in_groups ((w, ds) :: gs) d w0)) (fun e => in_groups ((w, ds) :: gs) (fst e) (snd e)) s s1).
    { eapply ext_weaken; [| |exact X].
      - intros e (A & B & C). split; [exact A|]. split; [|exact C]. exists w, ds. split; [left; reflexivity|exact B].
      - intros e [A B]. exists ds. rewrite A. split; [left; reflexivity|exact B]. }
    destruct ok1; [|injection E as <- <-; split; [exact X'|discriminate]].
    apply IH in E. destruct E as [Y L2].
    assert (Y' : ext (enter certified (fun d => exists w0, in_groups ((w, ds) :: gs) d w0)) (fun e => in_groups ((w, ds) :: gs) (fst e) (snd e)) s1 s').
    { eapply ext_weaken; [| |exact Y].
      - intros e (A & (w0 & ds0 & B1 & B2) & C). split; [exact A|]. split; [|exact C]. exists w0, ds0. split; [right; exact B1|exact B2].
      - intros e (ds0 & B1 & B2). exists ds0. split; [right; exact B1|exact B2]. }
    split; [eapply ext_trans; eassumption|].
    intros Ok d w0 (ds0 & [B|B] & I).
    + injection B as <- <-. eapply ext_pay; [exact Y|]. apply L; auto.
    + apply L2; [exact Ok|]. exists ds0. auto.
Qed.
Lemma add_group_in w d gs d' w' : in_groups (add_group w d gs) d' w' <-> (d' = d /\ w' = w) \/ in_groups gs d' w'.
Proof.
  induction gs as [|[w0 ds0] t IH]; cbn [add_group].
  - unfold in_groups. split.
    + intros (ds & [[= <- <-]|[]] & [<-|[]]). auto.
    + intros [[-> ->]|(ds & [] & _)]. exists [d]. cbn. auto.
  - destruct (N.eqb_spec w0 w) as [->|Nw].
    + unfold in_groups. split.
      * intros (ds & [[= <- <-]|I] & Id); [apply in_app_iff in Id; destruct Id as [Id|[<-|[]]]; [right; exists ds0; cbn; auto|auto]|].
        right. exists ds. cbn. auto.
      * intros [[-> ->]|(ds & [[= <- <-]|I] & Id)].
        -- exists (ds0 ++ [d]). rewrite in_app_iff. cbn. auto.
        -- exists (ds0 ++ [d]). rewrite in_app_iff. cbn. auto.
        -- exists ds. cbn. auto.
    + assert (S : forall g, in_groups ((w0, ds0) :: g) d' w' <-> (w' = w0 /\ In d' ds0) \/ in_groups g d' w').
      { intros g. unfold in_groups. split.
        - intros (ds & [[= <- <-]|I] & Id); [auto|]. right. exists ds. auto.
        - intros [[-> I]|(ds & I & Id)]; [exists ds0; cbn; auto|exists ds; cbn; auto]. }
      rewrite !S, IH. tauto.
Qed.
Lemma contains_payload_iff s d w : contains_payload s d w = true <-> In (d, w) (n_pay s).
Proof.
  unfold contains_payload. rewrite existsb_exists. split.
  - intros ((d' & w') & I & E). cbn in E. apply andb_true_iff in E. destruct E as [E1 E2]. apply N.eqb_eq in E2. subst.
    destruct (beqb_spec d' d) as [->|]; [exact I|discriminate].
  - intros I. exists (d, w). split; [exact I|]. cbn. rewrite N.eqb_refl. destruct (beqb_spec d d); [reflexivity|contradiction].
Qed.
Lemma missing_groups_in s pl d w : in_groups (missing_groups s pl) d w <-> In (d, w) pl /\ ~ In (d, w) (n_pay s).
Proof.
  induction pl as [|[d0 w0] t IH]; cbn [missing_groups].
  - split; [intros (ds & [] & _)|intros [[] _]].
  - destruct (contains_payload s d0 w0) eqn:C.
    + apply contains_payload_iff in C. rewrite IH. cbn. split; [intros [A B]; auto|]. intros [[E|A] B]; [injection E as <- <-; contradiction|auto].
    + assert (~ In (d0, w0) (n_pay s)) by (intros I; apply contains_payload_iff in I; congruence).
      rewrite add_group_in, IH. cbn. split.
      * intros [[-> ->]|[A B]]; auto.
      * intros [[E|A] B]; [injection E as <- <-; auto|auto].
Qed.
Lemma sync_header_ext me certified h plan s s' ok :
  sync_header H recover me v certified h plan s = (s', ok) ->
  ext (enter certified (fun d => In d (map fst (h_payload h)))) (fun e => In e (h_payload h)) s s' /\
  (ok = true -> h_author h <> me -> forall e, In e (h_payload h) -> In e (n_pay s')).
Proof.
  unfold sync_header. destruct (N.eqb_spec (h_author h) me) as [Ea|Na].
  - intros [= <- <-]. split; [apply ext_refl|]. intros _ Na. contradiction.
  - intros E. apply sync_groups_ext in E. destruct E as [X L]. split.
    + eapply ext_weaken; [| |exact X].
      * intros e (A & (w & B) & C). split; [exact A|]. split; [|exact C]. apply missing_groups_in in B. destruct B as [B _].
        apply (in_map fst) in B. exact B.
      * intros [d w] B. apply missing_groups_in in B. tauto.
    + intros Ok _ [d w] I. destruct (contains_payload s d w) eqn:C.
      * apply contains_payload_iff in C. eapply ext_pay; eassumption.
      * apply L; [exact Ok|]. apply missing_groups_in. split; [exact I|]. intros Ip. apply contains_payload_iff in Ip. congruence.
Qed.
Lemma report_ext m d b stop s s' ack : report_batch H recover v m d b stop s = (s', ack) ->
  ext (fun e => e = (d, b) /\ validate d b = None) (fun e => fst e = d) s s' /\
  (validate d b <> None -> s' = s) /\ (ack = true -> m = true /\ validate d b = None /\ local s' d = Some b /\ In (d, v_worker v) (n_pay s')).
Proof.
  unfold report_batch. destruct m; cbn [negb]; [|intros [= <- <-]; split; [apply ext_refl|split; [auto|discriminate]]].
  destruct (validate d b) eqn:V; [intros [= <- <-]; split; [apply ext_refl|split; [auto|discriminate]]|].
  assert (X : ext (fun e => e = (d, b) /\ @None verr = None) (fun e => fst e = d) s (insert_batch d b s)) by (apply insert_ext; auto).
  destruct stop; intros [= <- <-].
  - split; [exact X|]. split; [congruence|discriminate].
  - split; [eapply ext_trans; [exact X|apply payload_ext; [reflexivity|apply insert_local; auto]]|]. split; [congruence|]. intros _.
    split; [reflexivity|]. split; [reflexivity|]. split; [|left; reflexivity].
    unfold local, lookup. cbn. destruct (beqb_spec d d); [reflexivity|contradiction].
Qed.
Lemma prefetch_ext d passes s :
  ext (fun e => fst e = d /\ fst e = digest (snd e) /\ validate (fst e) (snd e) = None) (fun _ => False) s (prefetch H recover v d passes s).
Proof.
  unfold prefetch. destruct (lookup d (n_cache s)); [apply ext_refl|].
  destruct (request_batches H passes [d]) as [[[|[d' b] t]|] rest] eqn:R; try apply ext_refl.
  apply request_J in R. destruct R as (A & B & _). inversion B as [|? ? Bd _]; subst.
  destruct (negb _); [apply ext_refl|]. destruct (validate d' b) eqn:V; [apply ext_refl|].
  apply insert_ext. cbn. split; [|auto]. destruct (proj2 (A d')) as [<-|[]]; [right; left; reflexivity|reflexivity].
Qed.

(* ---------- fetching for the primary ---------- *)
Definition keyed (m : list (bytes * batch)) : Prop := Forall (fun e => fst e = digest (snd e)) m.
Lemma keyed_in m d b : keyed m -> In (d, b) m -> d = digest b.
Proof. intros K I. unfold keyed in K. rewrite Forall_forall in K. exact (K _ I). Qed.
Definition found (m : list (bytes * batch)) (ds : list bytes) : list batch :=
  flat_map (fun d => match lookup d m with Some b => [b] | None => [] end) ds.
Lemma found_in m ds b : In b (found m ds) <-> exists d, In d ds /\ lookup d m = Some b.
Proof.
  unfold found. rewrite in_flat_map. split.
  - intros (d & I & J'). exists d. split; [exact I|]. destruct (lookup d m); [destruct J' as [->|[]]; reflexivity|destruct J'].
  - intros (d & I & E). exists d. split; [exact I|]. rewrite E. left. reflexivity.
Qed.
Lemma found_digests m ds : keyed m -> map digest (found m ds) = filter (fun d => match lookup d m with Some _ => true | None => false end) ds.
Proof.
  intros K. induction ds as [|d t IH]; cbn [found flat_map filter]; [reflexivity|]. fold (found m t). destruct (lookup d m) as [b|] eqn:E; cbn [app map]; rewrite IH; [|reflexivity].
  f_equal. symmetry. eapply keyed_in; [exact K|]. apply lookup_in. exact E.
Qed.
Lemma get_local_digests s ds : keyed (n_cache s) -> keyed (n_chain s) -> NoDup ds ->
  NoDup (map digest (get_batches_local H s ds)) /\
  (forall d, In d (map digest (get_batches_local H s ds)) <-> In d ds /\ local s d <> None) /\
  (forall b, In b (get_batches_local H s ds) -> local s (digest b) = Some b).
Proof.
  intros Kc Kh Nd. unfold get_batches_local. change (flat_map (fun d => match lookup d (n_cache s) with Some b => [b] | None => [] end) ds) with (found (n_cache s) ds).
  assert (Hc : forall l, flat_map (fun d => match lookup d (n_chain s) with Some b => [b] | None => [] end) l = found (n_chain s) l) by reflexivity.
  rewrite !Hc. clear Hc.
  assert (Lc : forall b, In b (found (n_cache s) ds) -> local s (digest b) = Some b).
  { intros b I. apply found_in in I. destruct I as (d & _ & E). assert (d = digest b) by (eapply keyed_in; [exact Kc|apply lookup_in; exact E]). subst d.
    unfold local. rewrite E. reflexivity. }
  pose proof (found_digests (n_cache s) ds Kc) as Dc.
  destruct (found (n_cache s) ds) as [|c0 cs] eqn:Ec.
  - (* nothing cached *)
    cbn [map] in Dc. assert (Nc : forall d, In d ds -> lookup d (n_cache s) = None).
    { intros d I. destruct (lookup d (n_cache s)) eqn:E; [|reflexivity]. exfalso.
      assert (In d (filter (fun d => match lookup d (n_cache s) with Some _ => true | None => false end) ds)) by (apply filter_In; rewrite E; auto).
      rewrite <- Dc in H0. exact H0. }
    rewrite found_digests by exact Kh. split; [apply NoDup_filter; exact Nd|]. split.
    + intros d. rewrite filter_In. unfold local. split.
      * intros [I E]. split; [exact I|]. rewrite (Nc d I). destruct (lookup d (n_chain s)); congruence.
      * intros [I E]. split; [exact I|]. rewrite (Nc d I) in E. destruct (lookup d (n_chain s)); congruence.
    + intros b I. apply found_in in I. destruct I as (d & Id & E). assert (d = digest b) by (eapply keyed_in; [exact Kh|apply lookup_in; exact E]). subst d.
      unfold local. rewrite (Nc _ Id). exact E.
  - rewrite <- Ec in *. set (cached := found (n_cache s) ds) in *. clear Ec.
    destruct (Nat.ltb_spec (length cached) (length ds)) as [Ll|Ll].
    + set (rest := filter (fun d => negb (mem d (map digest cached))) ds).
      assert (Ir : forall d, In d rest <-> In d ds /\ lookup d (n_cache s) = None).
      { intros d. unfold rest. rewrite filter_In, negb_true_iff, mem_nIn, Dc, filter_In. destruct (lookup d (n_cache s)); intuition congruence. }
      assert (Lr : forall b, In b (found (n_chain s) rest) -> In (digest b) rest /\ lookup (digest b) (n_chain s) = Some b).
      { intros b I. apply found_in in I. destruct I as (d & Id & E). assert (d = digest b) by (eapply keyed_in; [exact Kh|apply lookup_in; exact E]). subst d. auto. }
      rewrite map_app. split; [|split].
      * apply NoDup_app_intro.
        -- rewrite Dc. apply NoDup_filter. exact Nd.
        -- rewrite found_digests by exact Kh. apply NoDup_filter. unfold rest. apply NoDup_filter. exact Nd.
        -- intros d I1 I2. apply in_map_iff in I2. destruct I2 as (b & <- & I2). apply Lr in I2. destruct I2 as [I2 _]. unfold rest in I2.
           apply filter_In in I2. destruct I2 as [_ I2]. apply negb_true_iff, mem_nIn in I2. contradiction.
      * intros d. rewrite in_app_iff, Dc, found_digests by exact Kh. rewrite !filter_In, Ir. unfold local.
        destruct (lookup d (n_cache s)); destruct (lookup d (n_chain s)); intuition congruence.
      * intros b I. apply in_app_iff in I. destruct I as [I|I]; [auto|]. apply Lr in I. destruct I as [I E]. apply Ir in I. unfold local. destruct I as [_ ->]. exact E.
    + assert (All : forall d, In d ds -> exists b, lookup d (n_cache s) = Some b).
      { assert (Ef : filter (fun d => match lookup d (n_cache s) with Some _ => true | None => false end) ds = ds).
        { rewrite <- Dc. assert (length (map digest cached) = length ds).
          { apply Nat.le_antisymm; [|rewrite map_length; exact Ll]. rewrite Dc. apply filter_length_le'. }
          clear - Dc H0. rewrite Dc in H0 |- *. clear Dc. induction ds as [|x l IH]; [reflexivity|]. cbn [filter] in *.
          destruct (lookup x (n_cache s)); [f_equal; apply IH; cbn in H0; lia|]. pose proof (filter_length_le' (fun d => match lookup d (n_cache s) with Some _ => true | None => false end) l). cbn in H0. lia. }
        intros d I. rewrite <- Ef in I. apply filter_In in I. destruct I as [_ I]. destruct (lookup d (n_cache s)); [eauto|discriminate]. }
      split; [rewrite Dc; apply NoDup_filter; exact Nd|]. split; [|exact Lc].
      intros d. rewrite Dc, filter_In. unfold local. split.
      * intros [I E]. split; [exact I|]. destruct (lookup d (n_cache s)); [congruence|discriminate].
      * intros [I E]. split; [exact I|]. destruct (All d I) as [b ->]. reflexivity.
Qed.

Lemma store_all_ext (P : bytes * batch -> Prop) D : forall bs s, Forall P bs -> ext P D s (store_all bs s).
Proof.
  induction bs as [|[d b] t IH]; cbn [store_all fold_left]; intros s F; [apply ext_refl|]. inversion F; subst.
  eapply ext_trans; [apply insert_ext; eassumption|]. apply IH. assumption.
Qed.
Lemma get_local_sub s ds b : keyed (n_cache s) -> keyed (n_chain s) -> In b (get_batches_local H s ds) -> In (digest b) ds.
Proof.
  intros Kc Kh. unfold get_batches_local.
  assert (F : forall m l, keyed m -> In b (flat_map (fun d => match lookup d m with Some b => [b] | None => [] end) l) -> In (digest b) l).
  { intros m l K I. apply found_in in I. destruct I as (d & I & E). apply lookup_in in E. rewrite <- (keyed_in m d b K E). exact I. }
  destruct (flat_map _ ds) as [|c0 cs] eqn:Ec; [apply F; exact Kh|]. rewrite <- Ec in *. destruct (Nat.ltb _ _).
  - intros I. apply in_app_iff in I. destruct I as [I|I]; [eapply F; [exact Kc|exact I]|]. apply F in I; [|exact Kh]. apply filter_In in I. tauto.
  - apply F. exact Kc.
Qed.
Definition fetched (ds missing : list bytes) (got : list (bytes * batch)) : Prop :=
  (forall d, In d missing -> In d ds) /\ (forall d, In d ds -> In d missing \/ In d (map fst got)) /\
  Forall (fun e => fst e = digest (snd e) /\ In (fst e) ds) got.
Lemma ext_keyed (P : bytes * batch -> Prop) D s s' : (forall e, P e -> fst e = digest (snd e)) -> ext P D s s' -> keyed (n_cache s) -> keyed (n_chain s) -> keyed (n_cache s') /\ keyed (n_chain s').
Proof.
  intros HP ((new & -> & F) & _ & _ & _ & -> & _) Kc Kh. split; [|exact Kh]. unfold keyed. rewrite Forall_app. split; [|exact Kc].
  eapply Forall_impl; [|exact F]. exact HP.
Qed.
Lemma fetch_local_fetched ds missing got s m1 got1 : keyed (n_cache s) -> keyed (n_chain s) -> fetched ds missing got ->
  fetch_local H s missing got = (m1, got1) ->
  fetched ds m1 got1 /\ (forall d, In d m1 -> In d missing).
Proof.
  intros Kc Kh (A & B & C) E. unfold fetch_local in E. injection E as <- <-.
  set (loc := map (fun b => (digest b, b)) (get_batches_local H s missing)).
  split.
  - split; [intros d I; apply filter_In in I; apply A; tauto|]. split.
    + intros d I. destruct (mem d (map fst (got ++ loc))) eqn:M; [right; apply mem_In; exact M|].
      destruct (B d I) as [Im|Ig]; [left; apply filter_In; rewrite M; auto|]. right. rewrite map_app, in_app_iff. auto.
    + rewrite Forall_app. split; [exact C|]. apply Forall_forall. intros e I. apply in_map_iff in I. destruct I as (b & <- & I). cbn. split; [reflexivity|].
      apply A. eapply get_local_sub; eassumption.
  - intros d I. apply filter_In in I. tauto.
Qed.
Lemma fetch_loop_spec D ds : forall rounds missing got s s' o, keyed (n_cache s) -> keyed (n_chain s) -> fetched ds missing got ->
  fetch_loop H rounds missing got s = (s', o) ->
  ext (enter true (fun d => In d ds)) D s s' /\
  (forall g, o = Some g -> (forall d, In d ds -> In d (map fst g)) /\ Forall (fun e => fst e = digest (snd e) /\ In (fst e) ds) g).
Proof.
  induction rounds as [|p t IH]; intros missing got s s' o Kc Kh Fd E; cbn [fetch_loop] in E.
  - destruct missing; injection E as <- <-; (split; [apply ext_refl|]); [|discriminate].
    intros g [= <-]. destruct Fd as (_ & B & C). split; [|exact C]. intros d I. destruct (B d I) as [[]|]; assumption.
  - destruct missing as [|m0 m].
    { injection E as <- <-. split; [apply ext_refl|]. intros g [= <-]. destruct Fd as (_ & B & C). split; [|exact C]. intros d I. destruct (B d I) as [[]|]; assumption. }
    destruct (fetch_local H s (m0 :: m) got) as [m1 got1] eqn:L. apply (fetch_local_fetched ds) in L; [|exact Kc|exact Kh|exact Fd]. destruct L as [F1 _].
    destruct m1 as [|x m1].
    { injection E as <- <-. split; [apply ext_refl|]. intros g [= <-]. destruct F1 as (_ & B & C). split; [|exact C]. intros d I. destruct (B d I) as [[]|]; assumption. }
    destruct (request_batches H p (x :: m1)) as [[new|] m2] eqn:R; apply request_J in R.
    + destruct R as (A & B & C & _). destruct F1 as (F1 & F2 & F3).
      assert (New : Forall (fun e => fst e = digest (snd e) /\ In (fst e) ds) new).
      { apply Forall_forall. intros e I. rewrite Forall_forall in B. split; [apply B; exact I|]. apply F1. apply A. right. apply (in_map fst). exact I. }
      assert (X : ext (enter true (fun d => In d ds)) D s (store_all new s)).
      { apply store_all_ext. eapply Forall_impl; [|exact New]. cbn. intros e [? ?]. split; [assumption|]. split; [assumption|discriminate]. }
      destruct (ext_keyed _ _ _ _ (fun e (W : enter true (fun d => In d ds) e) => proj1 W) X Kc Kh) as [Kc' Kh'].
      apply IH in E; [|exact Kc'|exact Kh'|].
      2:{ split; [intros d I; apply F1, A; auto|]. split.
          - intros d I. destruct (F2 d I) as [I1|I1]; [apply A in I1; destruct I1 as [I1|I1]; [auto|right; rewrite map_app, in_app_iff; auto]|right; rewrite map_app, in_app_iff; auto].
          - rewrite Forall_app. auto. }
      destruct E as [Y G]. split; [eapply ext_trans; eassumption|exact G].
    + destruct F1 as (F1 & F2 & F3). apply IH in E; [exact E|exact Kc|exact Kh|].
      split; [intros d I; apply F1, R, I|]. split; [|exact F3]. intros d I. destruct (F2 d I) as [I1|I1]; [left; apply R; exact I1|auto].
Qed.
Lemma fetch_spec D rounds ds s s' o : keyed (n_cache s) -> keyed (n_chain s) -> fetch_for_primary H rounds ds s = (s', o) ->
  ext (enter true (fun d => In d ds)) D s s' /\
  (forall g, o = Some g -> (forall d, In d ds -> In d (map fst g)) /\ Forall (fun e => fst e = digest (snd e) /\ In (fst e) ds) g).
Proof.
  intros Kc Kh E. unfold fetch_for_primary in E. apply (fetch_loop_spec D ds) in E; [exact E|exact Kc|exact Kh|].
  split; [intros d I; apply bset_of_in; exact I|]. split; [|constructor]. intros d I. left. apply bset_of_in. exact I.
Qed.
End V.
End P.
