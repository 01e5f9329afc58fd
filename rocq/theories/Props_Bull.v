(* C08-C12, C15, C16, C36: the ordering engine over every reachable state of every node (BullSpec.node): any arrival
   order of the certificates of a DAG, any crash and restart point, any node that starts from a prefix of another's
   chain. *)
From Verif Require Import Util Types CommitteeModel CommitteeProofs CertModel LeaderModel LeaderProofs GasModel BullModel
  BullSpec BullProofs1 BullProofs4 BullProofs5 BullProofs6 BullProofs7 BullProofs8 BullProofs9 Props_Committee Props_Leader.
Local Open Scope N_scope.

(* A correct setting: a committee the code can build, the external functions as documented, parameters in the range
   the configuration accepts (gc_depth is at most 50 there), and the certified DAG of BullSpec.dag_ok. *)
Definition setting_ok (S : setting) (G : header -> Prop) : Prop :=
  built (S_cm S) /\ sqrt_ok (S_sqrt S) /\ choose_ok (S_choose S) /\ S_depth S <= 100 /\ S_pct S <= 33 /\ dag_ok (S_cm S) G.
(* the epoch is past the seed-signature fork *)
Definition past_fork (S : setting) (G : header -> Prop) : Prop := forall h, G h -> S_active S (h_epoch h) = true.
Definition prefix {A} (a b : list A) : Prop := exists t, b = a ++ t.

Lemma node_inv S G s c : setting_ok S G -> node S G s c ->
  Inv (S_sqrt S) (S_root S) (S_cm S) (S_depth S) (S_pct S) G s c /\
  justified (S_sqrt S) (S_choose S) (S_fold S) (S_legacy S) (S_root S) (S_active S) (S_cm S) (S_depth S) (S_num S) (S_pct S) G c.
Proof.
  intros (B & Q & C & D & P & O) H. eapply reach_inv; try eassumption. apply built_wf. exact B.
Qed.

(* C08: two nodes never disagree: one committed chain extends the other. *)
Theorem C08_commit_sequences_agree :
  forall S G, setting_ok S G -> past_fork S G ->
  forall s1 c1 s2 c2, node S G s1 c1 -> node S G s2 c2 -> prefix c1 c2 \/ prefix c2 c1.
Proof.
  intros S G OK F s1 c1 s2 c2 H1 H2. pose proof (node_inv _ _ _ _ OK H1) as [_ J1]. pose proof (node_inv _ _ _ _ OK H2) as [_ J2].
  destruct OK as (B & Q & C & D & P & O).
  assert (A : forall k, (k <= length c1)%nat -> (k <= length c2)%nat -> firstn k c1 = firstn k c2).
  { eapply agree_exact; try eassumption. apply built_wf. exact B. }
  destruct (Nat.le_ge_cases (length c1) (length c2)) as [L|L].
  - left. exists (skipn (length c1) c2). rewrite <- (firstn_skipn (length c1) c2) at 1. rewrite <- A by lia.
    rewrite firstn_all. reflexivity.
  - right. exists (skipn (length c2) c1). rewrite <- (firstn_skipn (length c2) c1) at 1. rewrite A by lia.
    rewrite firstn_all. reflexivity.
Qed.
Print Assumptions C08_commit_sequences_agree.

(* before the fork too, except for the randomness (an aggregate signature is not unique per header) *)
Theorem C08_order_agrees_before_the_fork :
  forall S G, setting_ok S G ->
  forall s1 c1 s2 c2, node S G s1 c1 -> node S G s2 c2 ->
  forall i d1 d2, nth_error c1 i = Some d1 -> nth_error c2 i = Some d2 ->
  sd_headers d1 = sd_headers d2 /\ sd_scores d1 = sd_scores d2 /\ sd_ts d1 = sd_ts d2.
Proof.
  intros S G OK s1 c1 s2 c2 H1 H2 i d1 d2 N1 N2. pose proof (node_inv _ _ _ _ OK H1) as [_ J1]. pose proof (node_inv _ _ _ _ OK H2) as [_ J2].
  destruct OK as (B & Q & C & D & P & O).
  assert (L1 : (i < length c1)%nat) by (apply nth_error_Some; congruence).
  assert (L2 : (i < length c2)%nat) by (apply nth_error_Some; congruence).
  assert (A : map erase (firstn (Datatypes.S i) c1) = map erase (firstn (Datatypes.S i) c2)).
  { eapply agree_erased; try eassumption; try lia. apply built_wf. exact B. }
  apply (f_equal (fun l => nth_error l i)) in A. rewrite !nth_error_map in A.
  assert (X : forall (c : list subdag) d, nth_error c i = Some d -> nth_error (firstn (Datatypes.S i) c) i = Some d).
  { clear. intros c. revert i. induction c as [|a c IH]; intros i d H; [destruct i; discriminate|].
    destruct i as [|i]; [exact H|]. cbn. apply IH. exact H. }
  rewrite (X _ _ N1), (X _ _ N2) in A. cbn in A. unfold erase in A. inversion A. auto.
Qed.
Print Assumptions C08_order_agrees_before_the_fork.

(* C09: no certificate is committed twice, and per author the committed rounds only move forward. *)
Theorem C09_no_certificate_twice :
  forall S G, setting_ok S G -> forall s c, node S G s c -> NoDup (map h_digest (flat_map sd_headers c)).
Proof.
  intros S G OK s c H. pose proof (node_inv _ _ _ _ OK H) as [_ J]. destruct OK as (B & Q & C & D & P & O).
  eapply no_dup; try eassumption. apply built_wf. exact B.
Qed.
Print Assumptions C09_no_certificate_twice.
Theorem C09_rounds_move_forward :
  forall S G, setting_ok S G -> forall s c, node S G s c ->
  forall i j d e h g, (i < j)%nat -> nth_error c i = Some d -> nth_error c j = Some e ->
  In h (sd_headers d) -> In g (sd_headers e) -> h_author h = h_author g -> h_round h < h_round g.
Proof.
  intros S G OK s c H. pose proof (node_inv _ _ _ _ OK H) as [_ J]. destruct OK as (B & Q & C & D & P & O).
  eapply rounds_forward; try eassumption. apply built_wf. exact B.
Qed.
Print Assumptions C09_rounds_move_forward.

(* C10: the leader is last and alone in its round, rounds are sorted, everything is in the leader's history, *)
Theorem C10_subdag_shape :
  forall S G, setting_ok S G -> forall s c, node S G s c -> forall d, In d c ->
  (exists pre, sd_headers d = pre ++ [sd_leader d] /\ forall h, In h pre -> h_round h < sd_round d) /\
  StronglySorted (fun h g => h_round h <= h_round g) (sd_headers d) /\
  (forall h, In h (sd_headers d) -> G h) /\
  (forall h, In h (sd_headers d) -> hpath (fun p => In p (sd_headers d)) (sd_leader d) h).
Proof.
  intros S G OK s c H d Hd. pose proof (node_inv _ _ _ _ OK H) as [I J]. destruct OK as (B & Q & C & D & P & O).
  pose proof (built_wf _ B) as wf.
  pose proof (i_shape _ _ _ _ _ _ _ _ I) as F. rewrite Forall_forall in F. specialize (F d Hd).
  apply In_nth_error in Hd as (k & N).
  split. { destruct (sh_last _ _ F) as (pre & l & E & HP). exists pre. unfold sd_round, sd_leader. rewrite E, last_last. auto. }
  split; [apply (sh_sorted _ _ F)|]. split.
  - intros h Hh. eapply commit_above; try eassumption.
  - eapply commit_history; try eassumption.
Qed.
Print Assumptions C10_subdag_shape.
(* and nothing below a committed certificate is left out: each parent it names, above the gc horizon, is in the same
   sub-dag, or an earlier sub-dag already holds a certificate of that author from that round or a later one. *)
Theorem C10_parents_accounted_for :
  forall S G, setting_ok S G -> forall s c, node S G s c ->
  forall k d h p, nth_error c k = Some d -> In h (sd_headers d) -> sd_round d - S_depth S + 1 < h_round h -> In p (h_parents h) ->
  exists q, G q /\ h_digest q = p /\ refers h q /\
    (In q (sd_headers d) \/
     exists i e g, (i < k)%nat /\ nth_error c i = Some e /\ In g (sd_headers e) /\ h_author g = h_author q /\ h_round q <= h_round g).
Proof.
  intros S G OK s c H k d h p N Hh Hr Hp. pose proof (node_inv _ _ _ _ OK H) as [_ J]. destruct OK as (B & Q & C & D & P & O).
  pose proof (built_wf _ B) as wf.
  pose proof (commit_history (S_sqrt S) (S_choose S) (S_fold S) (S_legacy S) (S_root S) (S_active S) (S_cm S) (S_depth S) (S_num S) (S_pct S) G
    wf O Q P C D c J k d N) as [_ X].
  destruct (X h p Hh Hr Hp) as (q & X1 & X2 & X3 & X4). exists q. split; [assumption|]. split; [assumption|]. split; [|assumption].
  split; [assumption|]. rewrite X2. exact Hp.
Qed.
Print Assumptions C10_parents_accounted_for.

(* C11: rounds strictly increase and are even; commit timestamps never go back nor before the leader's creation. *)
Theorem C11_monotone_commits :
  forall S G, setting_ok S G -> forall s c, node S G s c ->
  (forall d, In d c -> sd_round d mod 2 = 0 /\ 2 <= sd_round d /\ h_created (sd_leader d) <= commit_timestamp d) /\
  (forall i j d e, (i < j)%nat -> nth_error c i = Some d -> nth_error c j = Some e ->
     sd_round d < sd_round e /\ commit_timestamp d <= commit_timestamp e).
Proof.
  intros S G OK s c H. pose proof (node_inv _ _ _ _ OK H) as [I J]. destruct OK as (B & Q & C & D & P & O).
  pose proof (built_wf _ B) as wf. pose proof (i_shape _ _ _ _ _ _ _ _ I) as F. rewrite Forall_forall in F.
  assert (TS : forall k d, nth_error c k = Some d -> commit_timestamp d = sd_ts d /\ h_created (sd_leader d) <= sd_ts d).
  { intros k d N. assert (h_created (sd_leader d) <= sd_ts d).
    { erewrite commit_ts; try eassumption. apply N.le_max_r. }
    split; [|assumption]. unfold commit_timestamp. destruct (N.eqb_spec (sd_ts d) 0); [lia|reflexivity]. }
  split.
  - intros d Hd. split; [apply (sh_even _ _ (F d Hd))|]. split; [apply (sh_pos _ _ (F d Hd))|].
    apply In_nth_error in Hd as (k & N). destruct (TS k d N) as [-> X]. exact X.
  - intros i j d e L Ni Nj. destruct (TS i d Ni) as [-> _], (TS j e Nj) as [-> _]. split.
    + pose proof (i_up _ _ _ _ _ _ _ _ I) as U. clear - U L Ni Nj. revert i j L Ni Nj.
      induction U as [|x l U IH FF]; intros i j L Ni Nj; [destruct i; discriminate|].
      destruct j as [|j]; [lia|]. destruct i as [|i].
      * inversion Ni; subst. rewrite Forall_forall in FF. apply FF. eapply nth_error_In. exact Nj.
      * apply (IH i j); [lia|exact Ni|exact Nj].
    + eapply commit_ts_mono; eassumption.
Qed.
Print Assumptions C11_monotone_commits.

(* C12: a committed leader is the scheduled one of its round, and some scheduled leader at or above it, from which it
   can be reached, is referenced by certificates of the next round worth the validity threshold. *)
Theorem C12_leader_has_support :
  forall S G, setting_ok S G -> forall s c, node S G s c ->
  forall k d, nth_error c k = Some d ->
  exists t X, schedule_after S (firstn k c) = Some t /\ scheduled S t (sd_leader d) /\
    G X /\ scheduled S t X /\ h_round X mod 2 = 0 /\ sd_round d <= h_round X /\ hpath G X (sd_leader d) /\
    exists Q, NoDup (map h_author Q) /\ cm_validity (S_cm S) <= group_power (S_cm S) (map h_author Q) /\
              forall q, In q Q -> G q /\ refers q X.
Proof.
  intros S G OK s c H k d N. pose proof (node_inv _ _ _ _ OK H) as [_ J]. destruct OK as (B & Q & C & D & P & O).
  pose proof (built_wf _ B) as wf.
  destruct (commit_support (S_sqrt S) (S_choose S) (S_fold S) (S_legacy S) (S_root S) (S_active S) (S_cm S) (S_depth S) (S_num S) (S_pct S) G
    wf O Q P C D c J k d N) as (t & X & A1 & A2 & A3 & A4 & A5 & A6 & A7 & A8).
  exists t, X. split; [exact A1|]. split; [exact A2|]. split; [exact A3|]. split; [exact A6|]. split; [exact A5|]. auto.
Qed.
Print Assumptions C12_leader_has_support.

(* C15: the scores of every commit cover exactly the committee and count exactly the references to the previous leader. *)
Theorem C15_scores_are_exact :
  forall S G, setting_ok S G -> forall s c, node S G s c ->
  forall k d, nth_error c k = Some d ->
  map fst (sc_map (sd_scores d)) = member_ids (S_cm S) /\
  sc_final (sd_scores d) = ((nonce (h_epoch (sd_leader d)) (sd_round d) / 2 + 1) mod S_num S =? 0) /\
  forall a, score_of (sd_scores d) a =
    match k with
    | O => 0
    | Datatypes.S j => match nth_error c j with
             | None => 0
             | Some p => (if nonce (h_epoch (sd_leader d)) (sd_round d) / 2 mod S_num S =? 0 then 0
                          else score_of (sd_scores p) a) + credits p d a
             end
    end.
Proof.
  intros S G OK s c H k d N. pose proof (node_inv _ _ _ _ OK H) as [I J]. destruct OK as (B & Q & C & D & P & O).
  pose proof (built_wf _ B) as wf. pose proof (i_shape _ _ _ _ _ _ _ _ I) as F. rewrite Forall_forall in F.
  pose proof (sh_scores _ _ (F d (nth_error_In _ _ N))) as [_ K]. split; [exact K|].
  assert (SC := fun a => commit_scores (S_sqrt S) (S_choose S) (S_fold S) (S_legacy S) (S_root S) (S_active S) (S_cm S) (S_depth S) (S_num S) (S_pct S) G
    wf O Q P C D c J k d N a).
  split; [apply (SC 0)|]. intros a. destruct (SC a) as [-> _]. destruct k as [|j]; [reflexivity|].
  destruct (nth_error c j) as [p|] eqn:Np.
  - rewrite (chain_last_firstn c j p Np). reflexivity.
  - exfalso. apply nth_error_None in Np. assert (Datatypes.S j < length c)%nat by (apply nth_error_Some; congruence). lia.
Qed.
Print Assumptions C15_scores_are_exact.

(* C16: the randomness of each commit is the seed chain over the commits up to it, whatever restarts happened *)
Theorem C16_randomness_is_the_fold :
  forall S G, setting_ok S G -> past_fork S G -> forall s c, node S G s c ->
  (forall k d, nth_error c k = Some d -> sd_rand d = seed_chain S (firstn (Datatypes.S k) c)) /\ b_seed s = seed_chain S c.
Proof.
  intros S G OK F s c H. pose proof (node_inv _ _ _ _ OK H) as [I J]. destruct OK as (B & Q & C & D & P & O).
  pose proof (built_wf _ B) as wf.
  assert (X : forall c', justified (S_sqrt S) (S_choose S) (S_fold S) (S_legacy S) (S_root S) (S_active S) (S_cm S) (S_depth S) (S_num S) (S_pct S) G c' ->
     chain_seed (S_root S) (S_cm S) c' = seed_chain S c').
  { intros c' J'. eapply commit_rand; eassumption. }
  split.
  - intros k d N. rewrite <- X by (apply justified_firstn; assumption). unfold chain_seed. rewrite (chain_last_firstn c k d N). reflexivity.
  - rewrite (i_seed _ _ _ _ _ _ _ _ I). apply X. exact J.
Qed.
Print Assumptions C16_randomness_is_the_fold.
(* a restart from any prefix of any node's chain finds its anchor, and it is the value the chain had there *)
Theorem C16_restart_keeps_the_chain :
  forall S G, setting_ok S G -> past_fork S G -> forall s c k certs, node S G s c ->
  store_ok G (chain_round (firstn k c) - S_depth S) certs -> final_in_window (firstn k c) ->
  exists s', restart S (firstn k c) certs = Some s' /\ b_seed s' = seed_chain S (firstn k c) /\
             b_committed s' = chain_round (firstn k c) /\
             schedule_after S (firstn k c) = Some (b_table s').
Proof.
  intros S G OK F s c k certs H ST FW. pose proof (node_inv _ _ _ _ OK H) as [I J].
  pose proof OK as OK0. destruct OK as (B & Q & C & D & P & O). pose proof (built_wf _ B) as wf.
  destruct (recover_ok (S_sqrt S) (S_choose S) (S_fold S) (S_legacy S) (S_root S) (S_active S) (S_cm S) (S_depth S) (S_pct S) G) with (chain := firstn k c) (certs := certs)
    as (s' & E & I'); try assumption.
  { apply firstn_Forall. apply I. }
  { apply firstn_SS. apply I. }
  exists s'. split; [exact E|].
  assert (N' : node S G s' (firstn k c)) by (eapply r_restart; eassumption).
  destruct (C16_randomness_is_the_fold S G OK0 F s' _ N') as [_ X]. split; [exact X|].
  split; [apply (i_committed _ _ _ _ _ _ _ _ I')|apply (i_table _ _ _ _ _ _ _ _ I')].
Qed.
Print Assumptions C16_restart_keeps_the_chain.
(* disagreeing cursors are an error, never a re-root *)
Theorem C16_cursor_mismatch_is_an_error :
  forall root latest round epoch v, resolve_anchor root latest round epoch = Ok v ->
  (latest = None /\ round = 0 /\ v = root epoch) \/
  (exists d, latest = Some d /\ 0 < round /\ sd_round d = round /\ v = sd_rand d).
Proof.
  intros root latest round epoch v. unfold resolve_anchor.
  destruct latest as [d|], (N.ltb_spec 0 round) as [L|L]; try discriminate.
  - destruct (N.eqb_spec (sd_round d) round); [|discriminate]. intros E. inversion E. right. exists d. auto.
  - intros E. inversion E. left. split; [reflexivity|]. split; [lia|reflexivity].
Qed.
Print Assumptions C16_cursor_mismatch_is_an_error.

(* C36: whatever certificate of the DAG is fed to whatever reachable state, the engine either answers or refuses it for
   a missing parent: no equivocation report, no broken invariant, no panic, and every loop ends. *)
Theorem C36_only_missing_parents_are_refused :
  forall S G, setting_ok S G -> forall s c x, node S G s c -> G (c_header x) ->
  match feed S s x with
  | Ok (s', ds) => node S G s' (c ++ ds)
  | Err e => e = EMissingParent \/ e = EMissingParentRound
  end.
Proof.
  intros S G OK s c x H Gx. pose proof (node_inv _ _ _ _ OK H) as [I J]. destruct OK as (B & Q & C & D & P & O).
  pose proof (built_wf _ B) as wf.
  pose proof (new_certificate_spec (S_sqrt S) (S_choose S) (S_fold S) (S_legacy S) (S_root S) (S_active S) (S_cm S) (S_depth S) (S_num S) (S_pct S) G
    wf O Q P C s c x I Gx) as N.
  unfold feed. destruct (new_certificate _ _ _ _ _ _ _ _ _ s x) as [[s' ds]|e] eqn:E; [|exact N].
  eapply r_cert; eassumption.
Qed.
Print Assumptions C36_only_missing_parents_are_refused.

(* C37: after a certificate of an odd round is accepted, the even round below it is settled: it is at or below the last
   committed round, or its scheduled leader (schedule in force after the call) still lacks f+1 support in the local DAG. *)
Theorem C37_supported_leader_is_committed :
  forall S G, setting_ok S G -> forall s c x s' ds, node S G s c -> G (c_header x) -> c_epoch x = cm_epoch (S_cm S) ->
  feed S s x = Ok (s', ds) -> (c_round x - 1) mod 2 = 0 -> 2 <= c_round x - 1 ->
  c_round x - 1 <= b_committed s' \/
  forall X, In X (b_dag s') -> c_round X = c_round x - 1 -> scheduled S (b_table s') (c_header X) ->
    group_power (S_cm S) (map c_origin (filter (fun y => (c_round y =? c_round X + 1) && memN (c_digest X) (c_parents y)) (b_dag s')))
      < cm_validity (S_cm S).
Proof.
  intros S G OK s c x s' ds H Gx Ep E Ev R2. pose proof (node_inv _ _ _ _ OK H) as [I J]. destruct OK as (B & Q & C & D & P & O).
  pose proof (built_wf _ B) as wf.
  pose proof (new_certificate_settled (S_sqrt S) (S_choose S) (S_fold S) (S_legacy S) (S_root S) (S_active S) (S_cm S) (S_depth S) (S_num S) (S_pct S) G
    wf O Q P C s c x s' ds I Gx Ep E Ev R2) as ST.
  destruct ST as [ST|ST]; [left; exact ST|right]. intros X HX Xr SC.
  replace (filter (fun y => (c_round y =? c_round X + 1) && memN (c_digest X) (c_parents y)) (b_dag s'))
    with (supporters (b_dag s') (c_round x - 1 + 1) (c_digest X)).
  - apply ST; [exact HX|exact Xr|]. destruct SC as (a & A1 & A2). exists a. change (h_round (c_header X)) with (c_round X) in A1.
    rewrite Xr in A1. auto.
  - unfold supporters, round_table. rewrite <- Xr. clear. induction (b_dag s') as [|y l IH]; [reflexivity|]. cbn [filter].
    destruct (c_round y =? c_round X + 1); cbn [filter andb]; rewrite IH; reflexivity.
Qed.
Print Assumptions C37_supported_leader_is_committed.

(* ---- a concrete DAG: seven members, seven rounds ---- *)
Fixpoint feed_all (S : setting) (s : bstate) (xs : list cert) : option (bstate * list subdag) :=
  match xs with
  | [] => Some (s, [])
  | x :: xs => match feed S s x with
               | Ok (s', ds) => match feed_all S s' xs with Some (s'', es) => Some (s'', ds ++ es) | None => None end
               | Err _ => None
               end
  end.
Lemma feed_all_node S G xs : forall s c s' ds, node S G s c -> (forall x, In x xs -> G (c_header x)) ->
  feed_all S s xs = Some (s', ds) -> node S G s' (c ++ ds).
Proof.
  induction xs as [|x xs IH]; intros s c s' ds H HG E; cbn [feed_all] in E; [inversion E; subst; rewrite app_nil_r; exact H|].
  destruct (feed S s x) as [[s1 d1]|] eqn:F; [|discriminate]. destruct (feed_all S s1 xs) as [[s2 d2]|] eqn:E2; [|discriminate].
  inversion E; subst. rewrite app_assoc. eapply IH; [|intros; apply HG; right; assumption|exact E2].
  eapply r_cert; [exact H|apply HG; left; reflexivity|exact F].
Qed.
Fixpoint nodupb (l : list N) : bool := match l with [] => true | x :: l => negb (memN x l) && nodupb l end.
Lemma nodupb_ok l : nodupb l = true -> NoDup l.
Proof.
  induction l as [|x l IH]; cbn [nodupb]; intros H; constructor; apply andb_true_iff in H as [H1 H2].
  - apply memN_nIn. apply negb_true_iff. exact H1.
  - apply IH. exact H2.
Qed.
Definition parents_in (hs : list header) (h : header) : list header :=
  filter (fun p => (h_round p + 1 =? h_round h) && memN (h_digest p) (h_parents h)) hs.
Definition dag_okb (c : committee) (hs : list header) : bool :=
  forallb (fun h => memN (h_author h) (member_ids c)) hs && nodupb (map h_digest hs) &&
  nodupb (map (fun h => h_round h * 1000 + h_author h) hs) && forallb (fun h => h_author h <? 1000) hs &&
  forallb (fun h => (h_round h <? 2) || (nodupb (map h_author (parents_in hs h)) &&
                                          (cm_quorum c <=? group_power c (map h_author (parents_in hs h))))) hs.
Lemma map_inj_in {A B} (f : A -> B) l x y : NoDup (map f l) -> In x l -> In y l -> f x = f y -> x = y.
Proof.
  induction l as [|a l IH]; cbn [map]; intros ND Hx Hy E; [contradiction|]. inversion ND as [|? ? Hn ND']; subst.
  destruct Hx as [<-|Hx], Hy as [<-|Hy]; [reflexivity| | |apply IH; assumption]; exfalso; apply Hn.
  - rewrite E. apply in_map. assumption.
  - rewrite <- E. apply in_map. assumption.
Qed.
Lemma dag_okb_ok c hs : dag_okb c hs = true -> dag_ok c (fun h => In h hs).
Proof.
  unfold dag_okb. intros H. repeat rewrite andb_true_iff in H. destruct H as [[[[H1 H2] H3] H4] H5].
  rewrite forallb_forall in H1, H4, H5. apply nodupb_ok in H2, H3. constructor.
  - intros h Hh. apply memN_In. apply H1. exact Hh.
  - intros h1 h2 G1 G2 E. exact (map_inj_in h_digest hs h1 h2 H2 G1 G2 E).
  - intros h1 h2 G1 G2 E1 E2. eapply (map_inj_in _ _ _ _ H3); try assumption. cbn beta. rewrite E1, E2. reflexivity.
  - intros h Gh R. specialize (H5 h Gh). apply orb_true_iff in H5 as [H5|H5]; [apply N.ltb_lt in H5; lia|].
    apply andb_true_iff in H5 as [A B]. exists (parents_in hs h). split; [apply nodupb_ok; exact A|].
    split; [apply N.leb_le; exact B|]. intros p Hp. unfold parents_in in Hp. apply filter_In in Hp as [P1 P2].
    apply andb_true_iff in P2 as [P2 P3]. apply N.eqb_eq in P2. apply memN_In in P3. auto.
Qed.

Definition eb_c : committee := match build ex_idof 3 ex_entries with Some c => c | None => mkCommittee 0 [] [] 0 0 end.
Lemma eb_c_built : built eb_c.
Proof. exists ex_idof, 3, ex_entries. vm_compute. reflexivity. Qed.
Definition eb_id (i : N) : N := nth (N.to_nat i) [8;16;39;47;70;78;86] 0.
Definition eb_dig (r i : N) : N := r * 10 + i + 1.
Definition eb_hdr (r i : N) (ps : list N) : header :=
  mkHeader (eb_id i) r 3 (100 + r) [] (map (eb_dig (r - 1)) ps) 0 0 (r + i) (eb_dig r i).
(* member 6 stops after round 2.  Its round-2 header is referenced by member 1 in round 3 only; member 1's round-4
   header (the leader of round 4) does not reference member 1's own round-3 header; all the others do. *)
Definition eb_headers : list header :=
  map (fun i => eb_hdr 1 i []) [0;1;2;3;4;5;6] ++
  map (fun i => eb_hdr 2 i [0;1;2;3;4;5;6]) [0;1;2;3;4;5;6] ++
  map (fun i => eb_hdr 3 i (if i =? 1 then [0;1;2;3;6] else [0;1;2;3;4;5])) [0;1;2;3;4;5] ++
  map (fun i => eb_hdr 4 i (if i =? 1 then [0;2;3;4;5] else [0;1;2;3;4;5])) [0;1;2;3;4;5] ++
  flat_map (fun r => map (fun i => eb_hdr r i [0;1;2;3;4;5]) [0;1;2;3;4;5]) [5;6;7].
Definition eb_cert (h : header) : cert := mkCert h (VerifiedDirectly 7) [].
Definition eb_S : setting :=
  mkSetting N.sqrt (fun l _ => hd_error l) (fun v r g => v * 31 + r * 7 + g) (fun g => g) (fun e => e + 1) (fun e => 2 <=? e)
            eb_c 50 60 33.
Definition eb_G (h : header) : Prop := In h eb_headers.
Lemma eb_ok : setting_ok eb_S eb_G /\ past_fork eb_S eb_G.
Proof.
  split.
  - split; [exact eb_c_built|]. split; [reflexivity|]. split; [intros [|a l] r H; [contradiction|exists a; simpl; auto]|].
    split; [vm_compute; discriminate|]. split; [vm_compute; discriminate|].
    apply (dag_okb_ok eb_c eb_headers). vm_compute. reflexivity.
  - intros h Hh. assert (X : forallb (fun h => 2 <=? h_epoch h) eb_headers = true) by (vm_compute; reflexivity).
    rewrite forallb_forall in X. exact (X h Hh).
Qed.
Definition eb_start : bstate := mkB 0 0 [] None [] (S_root eb_S 3) table_default.
Lemma eb_node0 : node eb_S eb_G eb_start [].
Proof.
  apply r_start with (certs := []); [split; intros x []|]. vm_compute. reflexivity.
Qed.
(* a full run: three commits, all in the same order on any other node; also after a restart from the first commit *)
Notation eb_run := (feed_all eb_S eb_start (map eb_cert eb_headers)).
Lemma eb_HG : forall x, In x (map eb_cert eb_headers) -> eb_G (c_header x).
Proof. intros x Hx. apply in_map_iff in Hx as (h & <- & Hh). exact Hh. Qed.
(* what the run looks like, by evaluation *)
Definition eb_facts (r : option (bstate * list subdag)) : bool :=
  match r with
  | Some (s, c) =>
      forallb (fun p => fst p =? snd p) (combine (map sd_round c) [2; 4; 6]) && (length c =? 3)%nat &&
      forallb (fun p => fst p =? snd p) (combine (map (fun d => N.of_nat (length (sd_headers d))) c) [8; 11; 12]) &&
      match nth_error c 2 with Some d => h_digest (sd_leader d) =? eb_dig 6 2 | None => false end &&
      forallb (fun g => negb (h_author g =? eb_id 6) || (h_round g <? 2)) (flat_map sd_headers c)
  | None => false
  end.
Lemma eb_run_facts : eb_facts eb_run = true.
Proof. vm_compute. reflexivity. Qed.
Lemma eb_run_node s c : eb_run = Some (s, c) -> node eb_S eb_G s c.
Proof.
  intros E. change c with ([] ++ c).
  exact (feed_all_node eb_S eb_G (map eb_cert eb_headers) eb_start [] s c eb_node0 eb_HG E).
Qed.
Lemma eb_exists : exists s c, eb_facts (Some (s, c)) = true /\ node eb_S eb_G s c.
Proof.
  pose proof eb_run_facts as F. destruct eb_run as [[s c]|] eqn:E; [|discriminate F].
  exists s, c. split; [exact F|exact (eb_run_node s c E)].
Qed.
Lemma combine_eq (l m : list N) : length l = length m -> forallb (fun p => fst p =? snd p) (combine l m) = true -> l = m.
Proof.
  revert m. induction l as [|x l IH]; intros [|y m] L F; try discriminate; [reflexivity|].
  cbn in L, F. apply andb_true_iff in F as [F1 F2]. apply N.eqb_eq in F1. f_equal; [exact F1|].
  apply IH; [injection L; auto|exact F2].
Qed.
Lemma eb_store : store_ok eb_G 0 (map eb_cert eb_headers).
Proof.
  split; [exact eb_HG|].
  assert (X : forallb (fun h => (h_round h <=? 1) || forallb (fun p => existsb (fun q => (h_round q + 1 =? h_round h) && (h_digest q =? p)) eb_headers) (h_parents h)) eb_headers = true)
    by (vm_compute; reflexivity).
  rewrite forallb_forall in X. intros x Hx Hr p Hp. apply in_map_iff in Hx as (h & <- & Hh). specialize (X h Hh).
  change (c_round (eb_cert h)) with (h_round h) in Hr |- *. change (c_parents (eb_cert h)) with (h_parents h) in Hp.
  apply orb_true_iff in X as [X|X]; [apply N.leb_le in X; lia|]. rewrite forallb_forall in X. specialize (X p Hp).
  apply existsb_exists in X as (q & Hq & Eq). apply andb_true_iff in Eq as [E1 E2]. apply N.eqb_eq in E1, E2.
  exists (eb_cert q). split; [apply in_map; exact Hq|]. split; assumption.
Qed.
Example C08_example :
  exists s c, node eb_S eb_G s c /\ map sd_round c = [2; 4; 6] /\
    map (fun d => N.of_nat (length (sd_headers d))) c = [8; 11; 12] /\
    exists s', node eb_S eb_G s' (firstn 1 c) /\ restart eb_S (firstn 1 c) (map eb_cert eb_headers) = Some s'.
Proof.
  destruct eb_exists as (s & c & F & ND). exists s, c. split; [exact ND|].
  cbn [eb_facts] in F. repeat rewrite andb_true_iff in F. destruct F as [[[[F1 F2] F3] F4] F5]. apply Nat.eqb_eq in F2.
  assert (ER : map sd_round c = [2; 4; 6]) by (apply combine_eq; [rewrite map_length; exact F2|exact F1]).
  split; [exact ER|]. split; [apply combine_eq; [rewrite map_length; exact F2|exact F3]|].
  assert (ST : store_ok eb_G (chain_round (firstn 1 c) - S_depth eb_S) (map eb_cert eb_headers)).
  { replace (chain_round (firstn 1 c) - S_depth eb_S) with 0; [exact eb_store|].
    destruct c as [|d0 c]; [discriminate F2|]. cbn [map] in ER. injection ER as ER0 _.
    cbn [firstn]. unfold chain_round. cbn [rev app]. rewrite ER0. vm_compute. reflexivity. }
  assert (FW : final_in_window (firstn 1 c)).
  { unfold final_in_window. rewrite firstn_all2; [reflexivity|]. rewrite rev_length, firstn_length. unfold FINAL_WINDOW. lia. }
  destruct (C16_restart_keeps_the_chain eb_S eb_G (proj1 eb_ok) (proj2 eb_ok) _ _ 1 _ ND ST FW) as (s' & R & _).
  exists s'. split; [|exact R]. eapply r_restart; [exact ND|exact ST|exact FW|exact R].
Qed.

(* The full completeness claim of C10 ("every certificate in the leader's causal history above the gc horizon is in the
   sub-dag or at or below its author's committed round") is FALSE of the code: member 6's round-2 header is in the
   history of the third leader, its author's committed round is 1, and it is not in any commit: the traversal does not
   go through member 1's round-3 header, which was skipped because member 1's round-4 header was committed before. *)
Theorem C10_complete_history_refuted :
  exists S G s c d z, setting_ok S G /\ node S G s c /\ nth_error c 2 = Some d /\ G z /\
    hpath G (sd_leader d) z /\ sd_round d - S_depth S < h_round z /\
    ~ In z (flat_map sd_headers c) /\
    (forall g, In g (flat_map sd_headers c) -> h_author g = h_author z -> h_round g < h_round z).
Proof.
  destruct eb_exists as (s & c & F & ND).
  cbn [eb_facts] in F. repeat rewrite andb_true_iff in F. destruct F as [[[[F1 F2] F3] F4] F5]. apply Nat.eqb_eq in F2.
  destruct (nth_error c 2) as [d|] eqn:Ed; [|discriminate F4]. apply N.eqb_eq in F4.
  assert (GI : forall k h, nth_error eb_headers k = Some h -> eb_G h) by (intros k h E; exact (nth_error_In _ _ E)).
  assert (GL : eb_G (eb_hdr 6 2 [0;1;2;3;4;5])) by (apply (GI 34%nat); vm_compute; reflexivity).
  assert (EL : sd_leader d = eb_hdr 6 2 [0;1;2;3;4;5]).
  { destruct eb_ok as [(_ & _ & _ & _ & _ & OK) _]. destruct OK as [_ OKd _ _].
    apply OKd; [|exact GL|rewrite F4; vm_compute; reflexivity].
    destruct (C10_subdag_shape eb_S eb_G (proj1 eb_ok) s c ND d (nth_error_In _ _ Ed)) as ((pre & E & _) & _ & IG & _).
    apply IG. rewrite E. apply in_or_app. right. left. reflexivity. }
  assert (RF : forall h p, (h_round p + 1 =? h_round h) && memN (h_digest p) (h_parents h) = true -> refers h p).
  { intros h p H. apply andb_true_iff in H as [H1 H2]. split; [apply N.eqb_eq; exact H1|apply memN_In; exact H2]. }
  assert (ALL : forall g, In g (flat_map sd_headers c) -> h_author g = eb_id 6 -> h_round g < 2).
  { intros g Hg Ea. rewrite forallb_forall in F5. specialize (F5 g Hg). cbv beta in F5. rewrite Ea, N.eqb_refl in F5.
    apply N.ltb_lt. exact F5. }
  exists eb_S, eb_G, s, c, d, (eb_hdr 2 6 [0;1;2;3;4;5;6]). split; [apply eb_ok|]. split; [exact ND|].
  split; [exact Ed|]. split; [apply (GI 13%nat); vm_compute; reflexivity|].
  split.
  { rewrite EL. apply hp_step with (p := eb_hdr 5 0 [0;1;2;3;4;5]); [apply (GI 26%nat); vm_compute; reflexivity|apply RF; vm_compute; reflexivity|].
    apply hp_step with (p := eb_hdr 4 0 [0;1;2;3;4;5]); [apply (GI 20%nat); vm_compute; reflexivity|apply RF; vm_compute; reflexivity|].
    apply hp_step with (p := eb_hdr 3 1 [0;1;2;3;6]); [apply (GI 15%nat); vm_compute; reflexivity|apply RF; vm_compute; reflexivity|].
    apply hp_step with (p := eb_hdr 2 6 [0;1;2;3;4;5;6]); [apply (GI 13%nat); vm_compute; reflexivity|apply RF; vm_compute; reflexivity|apply hp_refl]. }
  split; [unfold sd_round; rewrite EL; vm_compute; reflexivity|]. split; [|exact ALL].
  intros H. pose proof (ALL _ H eq_refl) as L. exact (N.lt_irrefl _ L).
Qed.
Print Assumptions C10_complete_history_refuted.
