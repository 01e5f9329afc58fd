(** C59: the certificate store and catching up on missing certificates. *)
From Verif Require Import Util CfModel CfSpec CfStore CfColl CfRest.
Local Open Scope N_scope.

(** After any history of transactions every query answers from exactly the certificates that survive it. *)
Theorem C59_store : forall ops, one_per_slot ops -> rounds_fit ops ->
  let s := run_ops ops in
  (forall d c, cs_read d s = Some c <-> stored ops c /\ f_dig c = d) /\
  (forall d, cs_contains d s = true <-> exists c, stored ops c /\ f_dig c = d) /\
  (forall o r c, cs_read_by_index o r s = Some c <-> stored ops c /\ f_origin c = o /\ f_round c = r) /\
  (forall r, exists l, cs_after_round r s = Some l /\ StronglySorted slot_lt l /\
     forall c, In c l <-> stored ops c /\ r <= f_round c) /\
  (forall round r o, In (r, o) (cs_origins_after round s) <->
     round <= r /\ exists c, stored ops c /\ f_round c = r /\ f_origin c = o) /\
  (exists l, cs_last_two s = Some l /\ StronglySorted (fun a b => slot_lt b a) l /\
     forall c, In c l <-> stored ops c /\ forall c', stored ops c' -> f_round c' <= f_round c + 1) /\
  (forall o, match cs_last_round o s with
     | Some c => stored ops c /\ f_origin c = o /\ cs_last_number o s = Some (f_round c) /\
                 forall c', stored ops c' -> f_origin c' = o -> f_round c' <= f_round c
     | None => cs_last_number o s = None /\ forall c, stored ops c -> f_origin c <> o
     end) /\
  (forall o r, r < U32MAX -> match cs_next_number o r s with
     | Some r' => r < r' /\ (exists c, stored ops c /\ f_origin c = o /\ f_round c = r') /\
                  forall c, stored ops c -> f_origin c = o -> r < f_round c -> r' <= f_round c
     | None => forall c, stored ops c -> f_origin c = o -> f_round c <= r
     end) /\
  (forall c, stored ops c -> f_round c <= cs_highest s) /\
  ((exists c, stored ops c /\ f_round c = cs_highest s) \/ (forall c, ~ stored ops c) /\ cs_highest s = 0).
Proof.
  intros ops Hu Hf. cbn zeta. pose proof (run_ops_Inv ops Hu Hf) as HI. set (s := run_ops ops) in *.
  destruct (q_highest s _ HI) as [Hh1 Hh2].
  split; [intros; apply q_read; auto|]. split; [intros; apply q_contains; auto|].
  split; [intros; apply q_by_index; auto|]. split; [intros; apply q_after_round; auto|].
  split; [intros; apply q_origins; auto|]. split; [|split; [|split; [|split; auto]]].
  - destruct (q_last_two s _ HI) as [l [E [Hs Hm]]]. exists l. split; auto. split; auto. intros c. rewrite Hm.
    split; intros [A B]; split; auto.
    + intros c' Hc'. specialize (Hh1 c' Hc'). lia.
    + destruct Hh2 as [[c' [Hc' E']]|[Hn _]]; [specialize (B c' Hc'); lia|destruct (Hn c A)].
  - intros o. pose proof (q_last_round s _ HI o) as H1. pose proof (q_last_number s _ HI o) as H2.
    destruct (cs_last_round o s) as [c|].
    + destruct H1 as [A [B C]]. split; auto. split; auto. split; auto. destruct (cs_last_number o s) as [r|].
      * destruct H2 as [[c' [D [E F]]] G]. specialize (G c A B). specialize (C c' D E). f_equal. lia.
      * destruct (H2 c A B).
    + split; auto. destruct (cs_last_number o s) as [r|]; auto. destruct H2 as [[c' [D [E F]]] G]. destruct (H1 c' D E).
  - intros o r Hr. apply q_next; auto.
Qed.

(** [write] and [write_all] are such transactions *)
Theorem C59_writes : forall s,
  (forall c, cs_write c s = fold_left run_op [OSave c; OGc (f_round c)] s) /\
  (forall l, cs_write_all l s = fold_left run_op (map OSave l ++ [OGc (max_round l)]) s) /\
  (forall l c, In c l -> f_round c <= max_round l) /\
  (forall l, l <> [] -> exists c, In c l /\ f_round c = max_round l).
Proof.
  intros s. split; [reflexivity|]. split; [intros l; rewrite fold_left_app; apply write_all_is_ops|].
  assert (G : forall l m, let x := fold_left (fun r c => N.max r (f_round c)) l m in
    m <= x /\ (forall c, In c l -> f_round c <= x) /\ (x = m \/ exists c, In c l /\ f_round c = x)).
  { induction l as [|a l IH]; intros m; cbn [fold_left]; [cbn zeta; split; [lia|]; split; [intros c []|auto]|].
    destruct (IH (N.max m (f_round a))) as [A [B C]]. cbn zeta in *. split; [lia|]. split.
    - intros c [<-|Hc]; [lia|auto].
    - destruct C as [C|[c [C1 C2]]].
      + destruct (N.max_spec m (f_round a)) as [[_ E]|[_ E]]; rewrite E in C at 2.
        * right. exists a. split; [left; auto|auto].
        * left. auto.
      + right. exists c. split; [right; auto|auto]. }
  unfold max_round. split.
  - intros l c Hc. apply (G l 0); auto.
  - intros [|a l] Hn; [congruence|]. destruct (G (a :: l) 0) as [_ [B [C|C]]]; auto. cbn zeta in *.
    exists a. split; [left; auto|]. specialize (B a (or_introl eq_refl)). lia.
Qed.

(** The response, whatever the store does between reads and whenever the time runs out: each certificate was stored when it
    was read and was asked for, and the order is by round, then author. *)
Theorem C59_response_sound : forall deser ops0 max_skip max_auth q k sched,
  one_per_slot ops0 -> rounds_fit ops0 -> rq_bound q < U32MAX ->
  Forall (fun e => one_per_slot (fst e) /\ rounds_fit (fst e)) sched ->
  coll_new deser (run_ops ops0) max_skip max_auth q = Some k ->
  exists sk, get_bounds deser max_skip max_auth q = Some (rq_bound q, sk) /\
  let out := coll_run (map (fun e => (run_ops (fst e), snd e)) sched) k in
  StronglySorted slot_lt out /\ (length out <= length sched)%nat /\
  Forall2 (fun c e => wanted (stored (fst e)) (rq_bound q) (fun o => bm_lookup o sk) c) out (firstn (length out) sched).
Proof.
  intros deser ops0 ms ma q k sched Hu Hf Hb HS Hk. unfold coll_new in Hk.
  destruct (get_bounds deser ms ma q) as [[bound sk]|] eqn:E; [|discriminate Hk].
  pose proof (bounds_limits _ _ _ _ _ _ E) as [-> [_ [Hs _]]].
  destruct (existsb _ sk); [discriminate Hk|]. injection Hk as <-.
  pose proof (run_ops_Inv ops0 Hu Hf) as HI.
  destruct (init_QI (run_ops ops0) _ (rq_bound q) sk HI Hb Hs) as [HQ _].
  exists sk. split; auto. cbn zeta.
  assert (HF : Forall2 (fun e P => Inv (fst e) P) (map (fun e => (run_ops (fst e), snd e)) sched)
                 (map (fun e => stored (fst e)) sched)).
  { clear -HS. induction HS as [|[a b] l [H1 H2] _ IH]; cbn; constructor; auto. cbn. apply run_ops_Inv; auto. }
  destruct (coll_run_sound (rq_bound q) _ _ _ None HQ HF) as [A [_ [B C]]]. cbn zeta in *. cbn [k_skip] in C.
  split; auto. rewrite map_length in B. split; auto.
  remember (coll_run (map (fun e => (run_ops (fst e), snd e)) sched) (mkColl (init_queue (run_ops ops0) (rq_bound q) sk) sk)) as out.
  clear -C B. rewrite firstn_map in C.
  assert (G : forall (o : list fcert) (l : list (list cs_op * bool)) (R : fcert -> (fcert -> Prop) -> Prop),
    Forall2 R o (map (fun e => stored (fst e)) l) -> Forall2 (fun c e => R c (stored (fst e))) o l).
  { induction o as [|c o IH]; intros [|e l] R H; inversion H; subst; constructor; auto. }
  apply G in C. exact C.
Qed.

(** As long as certificates are only added while the response is read, nothing that was there at the start and was asked for
    is left out of a response that ended on its own. *)
Theorem C59_response_complete : forall deser ops0 max_skip max_auth q k hist sk,
  one_per_slot ops0 -> rounds_fit ops0 -> rq_bound q < U32MAX ->
  Forall (fun ops => one_per_slot ops /\ rounds_fit ops) hist ->
  growing (stored ops0) (map stored hist) ->
  coll_new deser (run_ops ops0) max_skip max_auth q = Some k ->
  get_bounds deser max_skip max_auth q = Some (rq_bound q, sk) ->
  let out := coll_run (map (fun ops => (run_ops ops, false)) hist) k in
  (length out < length hist)%nat ->
  forall c, wanted (stored ops0) (rq_bound q) (fun o => bm_lookup o sk) c ->
  exists c', In c' out /\ f_origin c' = f_origin c /\ f_round c' = f_round c.
Proof.
  intros deser ops0 ms ma q k hist sk Hu Hf Hb HS HG Hk E. cbn zeta. intros Hlen c Hw.
  rewrite (coll_new_ok deser (run_ops ops0) ms ma q _ _ E) in Hk. injection Hk as <-.
  pose proof (bounds_limits _ _ _ _ _ _ E) as [_ [_ [Hs _]]].
  pose proof (run_ops_Inv ops0 Hu Hf) as HI.
  destruct (init_QI (run_ops ops0) _ (rq_bound q) sk HI Hb Hs) as [HQ [HR Hrem]].
  apply (coll_run_complete (rq_bound q) _ (map stored hist) (stored ops0) _ None HQ); auto.
  - clear -HS. induction HS as [|a l [H1 H2] _ IH]; cbn; constructor; auto. cbn. apply run_ops_Inv; auto.
  - clear. induction hist; cbn; constructor; auto.
  - rewrite map_length. exact Hlen.
  - exists c. destruct Hw as [A _]. auto.
Qed.

(** With the store at rest and time enough: exactly what was asked for. *)
Theorem C59_response_exact : forall deser ops max_skip max_auth q k sk n,
  one_per_slot ops -> rounds_fit ops -> rq_bound q < U32MAX ->
  coll_new deser (run_ops ops) max_skip max_auth q = Some k ->
  get_bounds deser max_skip max_auth q = Some (rq_bound q, sk) ->
  (length (cs_certs (run_ops ops)) < n)%nat ->
  let out := coll_run (repeat (run_ops ops, false) n) k in
  StronglySorted slot_lt out /\
  forall c, In c out <-> wanted (stored ops) (rq_bound q) (fun o => bm_lookup o sk) c.
Proof.
  intros deser ops ms ma q k sk n Hu Hf Hb Hk E Hn. cbn zeta.
  assert (Hmap1 : forall m, repeat (run_ops ops, false) m = map (fun e => (run_ops (fst e), snd e)) (repeat (ops, false) m)).
  { intros m. induction m as [|m IHm]; [reflexivity|]. cbn [repeat map fst snd]. rewrite <- IHm. reflexivity. }
  assert (Hmap2 : forall m, repeat (run_ops ops, false) m = map (fun o => (run_ops o, false)) (repeat ops m)).
  { intros m. induction m as [|m IHm]; [reflexivity|]. cbn [repeat map fst snd]. rewrite <- IHm. reflexivity. }
  destruct (C59_response_sound deser ops ms ma q k (repeat (ops, false) n) Hu Hf Hb) as [sk' [E' [A [B C]]]]; auto.
  { clear -Hu Hf. induction n; cbn; constructor; auto. }
  rewrite E in E'. injection E' as <-. rewrite <- Hmap1 in *. set (out := coll_run (repeat (run_ops ops, false) n) k) in *.
  assert (HW : forall c, In c out -> wanted (stored ops) (rq_bound q) (fun o => bm_lookup o sk) c).
  { assert (G : forall m o, Forall2 (fun c (e : list cs_op * bool) => wanted (stored (fst e)) (rq_bound q) (fun x => bm_lookup x sk) c)
        o (firstn m (repeat (ops, false) n)) -> forall c, In c o -> wanted (stored ops) (rq_bound q) (fun x => bm_lookup x sk) c).
    { intros m o H c Hc.
      assert (Hall : Forall (fun e => e = (ops, false)) (firstn m (repeat (ops, false) n))).
      { apply Forall_forall. intros e He. assert (Hx : In e (repeat (ops, false) n)).
        { rewrite <- (firstn_skipn m). apply in_app_iff. auto. }
        apply repeat_spec in Hx. auto. }
      revert Hc. induction H as [|c0 e0 o l0 H0 H IH]; intros Hc; [destruct Hc|]. inversion Hall; subst.
      destruct Hc as [<-|Hc]; auto. }
    intros c Hc. apply (G _ _ C c Hc). }
  split; auto. intros c. split; [apply HW|]. intros Hw.
  assert (Hlen : (length out < length (repeat ops n))%nat).
  { rewrite repeat_length. eapply Nat.le_lt_trans; [|exact Hn].
    assert (HN : NoDup out).
    { clear -A. induction A as [|x l Hs IH Hfa]; constructor; auto. intros Hi. rewrite Forall_forall in Hfa.
      specialize (Hfa x Hi). unfold slot_lt in Hfa. lia. }
    rewrite <- (map_length (fun c => (f_dig c, c)) out). apply NoDup_incl_length.
    - apply NoDup_map_intro; auto. intros x y _ _ [= _ Exy]. auto.
    - intros x Hx. apply in_map_iff in Hx as [c0 [<- Hc0]]. apply HW in Hc0 as [Hst _].
      apply (i_c _ _ (run_ops_Inv ops Hu Hf)). auto. }
  destruct (C59_response_complete deser ops ms ma q k (repeat ops n) sk Hu Hf Hb) with (c := c) as [c' [H1 [H2 H3]]]; auto.
  - clear -Hu Hf. induction n; cbn; constructor; auto.
  - clear. induction n; cbn; auto.
  - rewrite <- Hmap2. exact Hlen.
  - rewrite <- Hmap2 in H1. fold out in H1. assert (c' = c); [|subst; auto].
    pose proof (run_ops_Inv ops Hu Hf) as HI. apply (i_eq _ _ HI).
    + apply HW; auto.
    + apply Hw.
    + apply (i_u _ _ HI); [apply HW; auto|apply Hw|split; auto].
Qed.

(** Hence parents come before their children. *)
Theorem C59_causal : forall l, StronglySorted slot_lt l ->
  forall before c after p, l = before ++ c :: after -> In p l -> f_round p < f_round c -> In p before.
Proof.
  intros l Hs before c after p -> Hi Hr. apply in_app_iff in Hi as [Hi|[->|Hi]]; auto; [lia|]. exfalso.
  induction before as [|x b IH]; cbn [app] in Hs; inversion Hs as [|? ? Hs' Hf]; subst; auto.
  rewrite Forall_forall in Hf. specialize (Hf p Hi). unfold slot_lt in Hf. lia.
Qed.

(** The request carries exactly what the requester has, and an oversized one is refused. *)
Theorem C59_request : forall ser deser committee ops gc max_skip max_auth,
  roaring_ok ser deser -> one_per_slot ops -> rounds_fit ops ->
  let w := written_rounds committee gc (run_ops ops) in
  N.of_nat (length w) <= max_auth -> (forall o l, In (o, l) w -> N.of_nat (length l) <= max_skip) ->
  get_bounds deser max_skip max_auth (set_bounds ser gc w) = Some (gc, w) /\
  forall o, match bm_lookup o w with
    | Some l => (forall r, In r l <-> gc < r /\ exists c, stored ops c /\ f_origin c = o /\ f_round c = r) /\
                (In o committee \/ exists c, stored ops c /\ f_origin c = o /\ gc < f_round c)
    | None => ~ In o committee /\ forall c, stored ops c -> f_origin c = o -> f_round c <= gc
    end.
Proof.
  intros ser deser committee ops gc ms ma HR Hu Hf w Hn Hl. pose proof (run_ops_Inv ops Hu Hf) as HI.
  split; [apply bounds_round_trip; auto; apply (written_above _ _ committee gc HI)|].
  intros o. pose proof (written_lookup _ _ committee gc HI o) as H. fold w in H. destruct (bm_lookup o w) as [l|].
  - destruct H as [_ [A B]]. split; auto. destruct B as [B|[r [B1 [c [B2 [B3 B4]]]]]]; auto. right. exists c.
    split; auto. split; auto. lia.
  - destruct H as [A B]. split; auto. intros c Hc Ho. destruct (N.le_gt_cases (f_round c) gc) as [|Hgt]; auto.
    destruct (B (f_round c) Hgt). exists c. auto.
Qed.
Theorem C59_request_limits : forall deser max_skip max_auth q bound sk,
  Forall (fun e => bytes (snd e)) (rq_skip q) -> get_bounds deser max_skip max_auth q = Some (bound, sk) ->
  bound = rq_bound q /\ N.of_nat (length (rq_skip q)) <= max_auth /\
  forall o l, bm_lookup o sk = Some l ->
    N.of_nat (length l) <= max_skip /\ Forall (fun r => bound <= r /\ r <= U32MAX) l /\
    exists b n, In (o, b) (rq_skip q) /\ header_says b n /\ n <= max_skip.
Proof.
  intros deser ms ma q bound sk HB E. pose proof (bounds_limits _ _ _ _ _ _ E) as [A [B [C D]]].
  split; auto. split; auto. intros o l Hl. apply bm_lookup_In in Hl; auto. destruct (D o l Hl) as [D1 D2].
  split; auto. split; auto. unfold get_bounds in E. destruct (_ <=? _); [|discriminate E].
  destruct (all_some _ _) as [es|] eqn:Ea; [|discriminate E]. injection E as <- <-.
  apply bm_of_list_In in Hl. destruct (all_some_In _ _ _ _ Ea Hl) as [[o1 b] [Hi Hd]]. unfold decode_entry in Hd. cbn [fst snd] in Hd.
  destruct (container_count b) as [n|] eqn:Ec; [|discriminate Hd]. destruct (N.leb_spec n ms); [|discriminate Hd].
  destruct (deser b) as [vs|]; [|discriminate Hd]. destruct (_ <=? _); [|discriminate Hd].
  destruct (all_some (checked_add (rq_bound q)) vs); [|discriminate Hd]. injection Hd as -> _. exists b, n. split; auto. split; auto.
  apply header_complete; auto. rewrite Forall_forall in HB. apply (HB (o, b)); auto.
Qed.

(** Frames: an honest response within the certificate size limit is accepted and arrives as a prefix, cut only at the cap;
    whatever arrives, no more than the accepted size is kept. *)
Theorem C59_frames : forall l, Forall (fun c => f_size c <= 262134) l ->
  exists out rest, read_certs 0 (send_certs l) = Some out /\ l = out ++ rest /\
    (rest = [] \/ 67108864 <= sizes out).
Proof.
  intros l Hl. destruct (scan_cap_prefix l 0) as [t [E H]]. exists (scan_cap 0 l), t.
  split; [apply honest_response; auto|]. split; auto.
Qed.
Theorem C59_frames_bounded : forall frames out, read_certs 0 frames = Some out ->
  sizes out <= 67108864 + 524288 /\ out = concat frames /\ Forall (fun b => frame_len b <= 524288) frames.
Proof. intros frames out H. apply (read_certs_bound frames 0 out) in H; [exact H|discriminate]. Qed.

(** Asking the peers: the first usable answer is returned; failure means every peer was asked and answered, none usefully. *)
Theorem C59_fan_out : forall n evs, (1 <= n)%nat -> fan_ok n 1 [] evs ->
  match fan_run n evs with
  | FGot l => exists pre p post, evs = pre ++ FResult p (Some l) :: post /\
                l <> [] /\ Forall (fun c => f_signed c = true) l /\
                (forall p' r', In (FResult p' (Some r')) pre -> r' = [] \/ exists c, In c r' /\ f_signed c = false)
  | FFail => forall p, (p < n)%nat -> exists r, In (FResult p r) evs /\
                match r with Some l => l = [] \/ exists c, In c l /\ f_signed c = false | None => True end
  | FWait asked received =>
      (1 <= asked <= n)%nat /\ received = length (reported evs) /\ ~ (asked = n /\ received = n) /\
      (asked = n \/ asked = 1 + (length evs - length (reported evs)))%nat
  end.
Proof.
  intros n evs Hn Hok. unfold fan_run, fan_start. destruct (Nat.eqb_spec n 0); [lia|].
  pose proof (fan_gen n evs 1 [] ltac:(lia) (NoDup_nil _) ltac:(intros p []) Hok ltac:(cbn; lia)) as H. cbn [length] in H.
  assert (Hbad : forall l, valid_response l = false -> l = [] \/ exists c, In c l /\ f_signed c = false).
  { intros [|x l] Hv; auto. right. unfold valid_response in Hv. cbn [length Nat.eqb negb andb] in Hv.
    destruct (forallb f_signed (x :: l)) eqn:Ef; [discriminate Hv|].
    clear -Ef. induction (x :: l) as [|y m IH]; [discriminate Ef|]. cbn in Ef. destruct (f_signed y) eqn:Ey.
    - destruct (IH Ef) as [c [A B]]. exists c. split; auto. right; auto.
    - exists y. split; auto. left; auto. }
  destruct (fold_left (fan_step n) evs (FWait 1 0)) as [a r|l|].
  - destruct H as [A [B [C [D E]]]]. split; [lia|]. split; auto. split; auto.
    assert (length (reported evs) <= length evs)%nat.
    { clear. unfold reported. induction evs as [|[|p r] evs IH]; cbn in *; lia. }
    lia.
  - destruct H as [pre [p [post [E [V W]]]]]. exists pre, p, post. split; auto. unfold valid_response in V.
    apply andb_true_iff in V as [V1 V2]. split; [intros ->; discriminate V1|]. split.
    + apply Forall_forall. rewrite forallb_forall in V2. auto.
    + intros p' r' Hi. apply Hbad. apply (W p' (Some r') Hi).
  - intros p Hp. destruct (H p Hp) as [[]|[r [A B]]]. exists r. split; auto. destruct r; auto.
Qed.

(** The fetcher over any history: requests to catch up are kept until settled, and while any is open a task is running. *)
Record moment := mkMo { mo_ops : list cs_op; mo_committed : N; mo_depth : N }.
Definition env_of (m : moment) : fenv := mkFE (run_ops (mo_ops m)) (mo_committed m) (mo_depth m).
Definition caught_up (m : moment) (a t : N) : Prop :=
  t <= mo_committed m - mo_depth m \/ exists c, stored (mo_ops m) c /\ f_origin c = a /\ t <= f_round c.
Theorem C59_fetcher : forall ser committee epoch (evs : list (moment * fetch_ev)),
  Forall (fun e => one_per_slot (mo_ops (fst e)) /\ rounds_fit (mo_ops (fst e))) evs ->
  let f := fetch_run ser committee epoch (map (fun e => (env_of (fst e), snd e)) evs) in
  (ft_targets f <> [] -> ft_task f <> None) /\
  (forall pre m c post, evs = pre ++ (m, EAncestors c) :: post -> f_epoch c = epoch ->
     (exists t, f_round c <= t /\ bm_lookup (f_origin c) (ft_targets f) = Some t) \/
     exists m' ev', In (m', ev') ((m, EAncestors c) :: post) /\ caught_up m' (f_origin c) (f_round c)).
Proof.
  intros ser committee epoch evs HF. cbn zeta. unfold fetch_run.
  assert (G : forall l f, awake f -> bm_sorted (ft_targets f) ->
    awake (fold_left (fetch_step ser committee epoch) l f) /\ bm_sorted (ft_targets (fold_left (fetch_step ser committee epoch) l f))).
  { induction l as [|e l IH]; intros f A B; cbn [fold_left]; auto. apply IH; [apply step_awake; auto|apply step_sorted; auto]. }
  assert (K : forall l f a t, Forall (fun e => one_per_slot (mo_ops (fst e)) /\ rounds_fit (mo_ops (fst e))) l ->
    bm_sorted (ft_targets f) -> bm_lookup a (ft_targets f) = Some t ->
    (exists t', t <= t' /\ bm_lookup a (ft_targets (fold_left (fetch_step ser committee epoch)
        (map (fun e => (env_of (fst e), snd e)) l) f)) = Some t') \/
    exists m ev, In (m, ev) l /\ caught_up m a t).
  { induction l as [|[m ev] l IH]; intros f a t HL Hs Hl; [left; exists t; split; [lia|auto]|].
    inversion HL as [|? ? [Hu Hf] HL']; subst. cbn [fst snd map fold_left] in *.
    destruct (step_targets ser committee epoch f (env_of m) ev (stored (mo_ops m)) a t) as [[t1 [H1 H2]]|H1]; auto.
    { apply run_ops_Inv; auto. }
    - destruct (IH (fetch_step ser committee epoch f (env_of m, ev)) a t1 HL' (step_sorted _ _ _ _ _ Hs) H2) as [[t2 [A B]]|[m1 [e1 [A B]]]].
      + left. exists t2. split; [lia|auto].
      + right. exists m1, e1. split; [right; auto|]. destruct B as [B|[c [B1 [B2 B3]]]]; [left; lia|right; exists c; split; auto; split; auto; lia].
    - right. exists m, ev. split; [left; auto|]. exact H1. }
  split.
  - apply (G _ (mkF [] None)).
    + intros X; cbn in X. congruence.
    + constructor.
  - intros pre m c post -> He. rewrite map_app, fold_left_app. cbn [map fold_left fst snd].
    apply Forall_app in HF as [HF1 HF2]. inversion HF2 as [|? ? [Hu Hf] HF3]; subst. cbn [fst] in *.
    set (f0 := fold_left (fetch_step ser committee (f_epoch c)) (map (fun e => (env_of (fst e), snd e)) pre) (mkF [] None)).
    assert (Hs0 : bm_sorted (ft_targets f0)).
    { apply (G _ (mkF [] None)); [intros X; cbn in X; congruence|constructor]. }
    destruct (step_ancestors ser committee (f_epoch c) f0 (env_of m) (stored (mo_ops m)) c) as [[t1 [H1 H2]]|H1]; auto.
    { apply run_ops_Inv; auto. }
    + destruct (K post _ _ _ HF3 (step_sorted _ _ _ _ _ Hs0) H2) as [[t2 [A B]]|[m1 [e1 [A B]]]].
      * left. exists t2. split; [lia|auto].
      * right. exists m1, e1. split; [right; auto|].
        destruct B as [B|[c0 [B1 [B2 B3]]]]; [left; lia|right; exists c0; split; auto; split; auto; lia].
    + right. exists m, (EAncestors c). split; [left; auto|]. exact H1.
Qed.
(** One task at a time: a running request is replaced only after it reported, and then by one built from the store. *)
Theorem C59_one_task : forall ser committee epoch evs m ev,
  let f := fetch_run ser committee epoch (map (fun e => (env_of (fst e), snd e)) evs) in
  let f' := fetch_step ser committee epoch f (env_of m, ev) in
  ft_task f' = ft_task f \/
  ((ft_task f = None \/ ev = EDone) /\
   (ft_task f' = None \/ ft_task f' = Some (set_bounds ser (mo_committed m - mo_depth m)
       (written_rounds committee (mo_committed m - mo_depth m) (run_ops (mo_ops m)))))).
Proof.
  intros ser committee epoch evs m ev. cbn zeta. apply step_task. unfold fetch_run.
  assert (G : forall l f, awake f -> awake (fold_left (fetch_step ser committee epoch) l f)).
  { induction l as [|e l IH]; intros f A; cbn [fold_left]; auto. apply IH, step_awake; auto. }
  apply G. intros X; cbn in X. congruence.
Qed.

(** The whole exchange: from the request the fetcher builds, a responder at rest returns exactly the certificates above the
    requester's collection round that the requester lacks; writing them settles every target the responder could settle. *)
Theorem C59_catch_up : forall ser deser committee mine theirs gc max_skip max_auth n,
  roaring_ok ser deser -> one_per_slot (mine ++ theirs) -> rounds_fit (mine ++ theirs) -> gc < U32MAX ->
  let w := written_rounds committee gc (run_ops mine) in
  N.of_nat (length w) <= max_auth -> (forall o l, In (o, l) w -> N.of_nat (length l) <= max_skip) ->
  (length (cs_certs (run_ops theirs)) < n)%nat ->
  (forall c, stored theirs c -> 0 < f_size c /\ f_size c <= 262134) ->
  exists k all, coll_new deser (run_ops theirs) max_skip max_auth (set_bounds ser gc w) = Some k /\
  all = coll_run (repeat (run_ops theirs, false) n) k /\
  StronglySorted slot_lt all /\
  (forall c, In c all <-> stored theirs c /\ gc < f_round c /\
     (In (f_origin c) committee \/ exists c', stored mine c' /\ f_origin c' = f_origin c /\ gc < f_round c') /\
     ~ (exists c', stored mine c' /\ f_origin c' = f_origin c /\ f_round c' = f_round c)) /\
  (sizes all <= 67108864 -> read_certs 0 (send_certs all) = Some all) /\
  forall targets a t c, bm_sorted targets -> bm_lookup a targets = Some t ->
    In a committee -> stored theirs c -> f_origin c = a -> t <= f_round c ->
    max_round all <= f_round c + 64 ->
    bm_lookup a (update_targets gc (written_rounds committee gc (cs_write_all all (run_ops mine))) targets) = None.
Proof.
  intros ser deser committee mine theirs gc ms ma n HR Hu Hf Hgc w Hn Hl Hlen Hsz.
  assert (Hu1 : one_per_slot mine) by (intros c c' H1 H2; apply Hu; apply in_app_iff; auto).
  assert (Hf1 : rounds_fit mine) by (intros c H1; apply Hf; apply in_app_iff; auto).
  assert (Hu2 : one_per_slot theirs) by (intros c c' H1 H2; apply Hu; apply in_app_iff; auto).
  assert (Hf2 : rounds_fit theirs) by (intros c H1; apply Hf; apply in_app_iff; auto).
  destruct (C59_request ser deser committee mine gc ms ma HR Hu1 Hf1 Hn Hl) as [Hget Hw]. fold w in Hget, Hw.
  pose proof (coll_new_ok deser (run_ops theirs) ms ma _ _ _ Hget) as Hk.
  set (k := mkColl (init_queue (run_ops theirs) gc w) w) in *.
  set (all := coll_run (repeat (run_ops theirs, false) n) k).
  destruct (C59_response_exact deser theirs ms ma (set_bounds ser gc w) k w n Hu2 Hf2 Hgc Hk Hget Hlen) as [Hs Hm].
  cbn zeta in *. fold all in Hs, Hm. change (rq_bound (set_bounds ser gc w)) with gc in Hm.
  assert (Hm' : forall c, In c all <-> stored theirs c /\ gc < f_round c /\
     (In (f_origin c) committee \/ exists c', stored mine c' /\ f_origin c' = f_origin c /\ gc < f_round c') /\
     ~ (exists c', stored mine c' /\ f_origin c' = f_origin c /\ f_round c' = f_round c)).
  { intros c. rewrite Hm. unfold wanted. specialize (Hw (f_origin c)). split.
    - intros [A [B [l [C D]]]]. rewrite C in Hw. destruct Hw as [W1 W2]. split; auto. split; auto. split; auto.
      intros [c' [X [Y Z]]]. apply D, W1. split; auto. exists c'. auto.
    - intros [A [B [C D]]]. split; auto. split; auto. destruct (bm_lookup (f_origin c) w) as [l|].
      + exists l. split; auto. intros X. apply Hw in X as [_ X]. apply D. exact X.
      + exfalso. destruct Hw as [W1 W2]. destruct C as [C|[c' [C1 [C2 C3]]]]; auto. specialize (W2 c' C1 C2). lia. }
  exists k, all. split; auto. split; auto. split; auto. split; auto. split.
  - intros Htot. assert (Hfa : Forall (fun c => f_size c <= 262134) all).
    { apply Forall_forall. intros c Hc. apply Hm' in Hc as [Hc _]. apply Hsz; auto. }
    rewrite honest_response; auto. f_equal.
    assert (Hpos : Forall (fun c => 0 < f_size c) all).
    { apply Forall_forall. intros c Hc. apply Hm' in Hc as [Hc _]. apply Hsz; auto. }
    assert (G : forall l sent, Forall (fun c => 0 < f_size c) l -> sent + sizes l <= RESPONSE_CAP -> scan_cap sent l = l).
    { induction l as [|c l IH]; intros sent HP HS; auto. inversion HP; subst. cbn [scan_cap].
      change (sizes (c :: l)) with (f_size c + sizes l) in HS. destruct (N.ltb_spec sent RESPONSE_CAP); [|lia].
      rewrite IH; auto. lia. }
    apply G; auto.
  - intros targets a t c Hts Hta Ha Hc Ho Ht Hmax.
    set (mine' := mine ++ map OSave all ++ [OGc (max_round all)]).
    assert (Erun : cs_write_all all (run_ops mine) = run_ops mine').
    { unfold mine'. rewrite run_ops_app, fold_left_app. rewrite write_all_is_ops. reflexivity. }
    rewrite Erun.
    assert (Hin' : forall x, In (OSave x) mine' -> In (OSave x) (mine ++ theirs)).
    { intros x Hx. unfold mine' in Hx. apply in_app_iff in Hx as [Hx|Hx]; [apply in_app_iff; auto|].
      apply in_app_iff in Hx as [Hx|[Hx|[]]]; [|discriminate Hx]. apply in_map_iff in Hx as [y [[= ->] Hy]].
      apply in_app_iff. right. apply stored_saved. apply Hm' in Hy. tauto. }
    assert (HI' : Inv (run_ops mine') (stored mine')).
    { apply run_ops_Inv.
      - intros x y Hx Hy. apply Hu; auto.
      - intros x Hx. apply Hf; auto. }
    unfold update_targets. rewrite filter_lookup, Hta; auto. cbn [fst snd].
    destruct (last_written_spec _ _ committee gc HI' a) as [A [B _]].
    destruct (N.ltb_spec (last_written gc (written_rounds committee gc (run_ops mine')) a) t) as [Hlt|]; auto. exfalso.
    assert (Hg : gc < f_round c) by lia.
    assert (Hhas : Has (stored mine') a (f_round c)).
    { assert (Hkeep : forall x, stored mine x \/ In x all -> (f_round x = f_round c /\ f_origin x = a) ->
        exists y, stored mine' y /\ f_dig y = f_dig x /\ f_origin y = f_origin x /\ f_round y = f_round x).
      { intros x Hx [Hxr Hxo].
        assert (Hsave : exists y, stored (mine ++ map OSave all) y /\ f_dig y = f_dig x /\ In (OSave y) (mine ++ theirs)).
        { assert (G : forall l ops, (stored ops x \/ In x l) ->
             (forall y, In y l -> In (OSave y) (mine ++ theirs)) -> (forall y, stored ops y -> In (OSave y) (mine ++ theirs)) ->
             exists y, stored (ops ++ map OSave l) y /\ f_dig y = f_dig x /\ In (OSave y) (mine ++ theirs)).
          { induction l as [|z l IH] using rev_ind; intros ops Hor H1 H2.
            - rewrite app_nil_r. destruct Hor as [Hor|[]]. exists x. auto.
            - rewrite map_app, app_assoc. cbn [map]. destruct (N.eq_dec (f_dig z) (f_dig x)) as [Ez|Ez].
              + exists z. split; [apply stored_snoc; auto|]. split; auto. apply H1. apply in_app_iff. right; left; auto.
              + destruct (IH ops) as [y [Y1 [Y2 Y3]]]; auto.
                * destruct Hor as [Hor|Hor]; auto. apply in_app_iff in Hor as [Hor|[->|[]]]; auto. congruence.
                * intros y Hy. apply H1. apply in_app_iff. auto.
                * exists y. split; auto. apply stored_snoc. right. split; auto. cbn. congruence. }
          apply (G all mine); auto.
          - intros y Hy. apply in_app_iff. right. apply stored_saved. apply Hm' in Hy. tauto.
          - intros y Hy. apply in_app_iff. left. apply stored_saved. auto. }
        destruct Hsave as [y [Y1 [Y2 Y3]]].
        assert (Hxin : In (OSave x) (mine ++ theirs)).
        { destruct Hx as [Hx|Hx]; apply in_app_iff; [left; apply stored_saved; auto|].
          right. apply stored_saved. apply Hm' in Hx. tauto. }
        pose proof (proj1 (Hu y x Y3 Hxin) Y2) as [Eo Er].
        exists y. split; auto. unfold mine'. rewrite app_assoc. apply stored_snoc. right. split; auto. cbn. lia. }
      destruct (cs_read_by_index a (f_round c) (run_ops mine)) as [c0|] eqn:E0.
      - apply (q_by_index _ _ (run_ops_Inv mine Hu1 Hf1)) in E0 as [X [Y Z]].
        destruct (Hkeep c0 (or_introl X) (conj Z Y)) as [y [Y1 [_ [Y2 Y3]]]]. exists y. split; auto. split; congruence.
      - destruct (Hkeep c) as [y [Y1 [_ [Y2 Y3]]]]; auto.
        + right. apply Hm'. split; auto. split; auto. split; [left; congruence|]. intros [c' [X [Y Z]]].
          assert (Ex : cs_read_by_index a (f_round c) (run_ops mine) = Some c').
          { apply (q_by_index _ _ (run_ops_Inv mine Hu1 Hf1)). split; auto. split; congruence. }
          congruence.
        + exists y. split; auto. split; congruence. }
    specialize (B (f_round c) Hg Hhas). lia.
Qed.

(** ---------- the hypotheses are met ---------- *)
Definition ex_ser (l : list N) : list N := [58; 48; 0; 0; 0; 0; 0; 0] ++ l.
Definition ex_deser (b : list N) : option (list N) := Some (skipn 8 b).
Example ex_roaring : roaring_ok ex_ser ex_deser.
Proof. intros l _. split; [reflexivity|]. exists 0. split; [|lia]. left. split; [discriminate|]. exists l. reflexivity. Qed.
Definition cf (r o : N) : fcert := mkFC (1000 * r + o) r o 7 [] 900 true.
Example ex_headers : header_says [58; 48; 0; 0; 3; 1; 0; 0; 7] 259 /\ header_says [59; 48; 2; 1; 9] 259.
Proof. split; [left|right]; (split; [vm_compute; try split; discriminate|]); eexists; reflexivity. Qed.
(** a responder three authors wide; author 3 missed round 2; a requester holding one certificate of round 2 and some of 1 *)
Definition ex_theirs : list cs_op :=
  [OSave (cf 1 1); OSave (cf 1 2); OSave (cf 1 3); OGc 1; OSave (cf 2 1); OSave (cf 2 2); OGc 2;
   OSave (cf 3 1); OSave (cf 3 2); OSave (cf 3 3); OGc 3].
Definition ex_mine : list cs_op := [OSave (cf 1 1); OGc 1; OSave (cf 1 3); OGc 1; OSave (cf 2 2); OGc 2].
Example ex_hyps : one_per_slot (ex_mine ++ ex_theirs) /\ rounds_fit (ex_mine ++ ex_theirs).
Proof.
  assert (H : forall c, In (OSave c) (ex_mine ++ ex_theirs) -> exists r o, c = cf r o /\ 1 <= r <= 3 /\ 1 <= o <= 3).
  { intros c H. cbn in H. repeat (destruct H as [H|H]; [try discriminate H; injection H as <-;
      (eexists _, _; split; [reflexivity|lia])|]). destruct H. }
  split.
  - intros c c' H1 H2. destruct (H c H1) as [r [o [-> [A B]]]], (H c' H2) as [r' [o' [-> [A' B']]]]. unfold cf.
    cbn [f_dig f_origin f_round]. lia.
  - intros c H1. destruct (H c H1) as [r [o [-> [A B]]]]. unfold cf, U32MAX. cbn [f_round]. lia.
Qed.
Example ex_catch_up :
  let w := written_rounds [1; 2; 3] 0 (run_ops ex_mine) in
  w = [(1, [1]); (2, [2]); (3, [1])] /\
  match coll_new ex_deser (run_ops ex_theirs) 100 10 (set_bounds ex_ser 0 w) with
  | Some k => let all := coll_run (repeat (run_ops ex_theirs, false) 20) k in
      all = [cf 1 2; cf 2 1; cf 3 1; cf 3 2; cf 3 3] /\ read_certs 0 (send_certs all) = Some all /\
      update_targets 0 (written_rounds [1; 2; 3] 0 (cs_write_all all (run_ops ex_mine))) [(1, 3); (3, 3)] = []
  | None => False
  end.
Proof. vm_compute. auto. Qed.
(** a collection: round 66 drops what is below round 2 *)
Example ex_collected : let ops := ex_theirs ++ [OSave (cf 66 1); OGc 66] in
  cs_read 1002 (run_ops ops) = None /\ cs_read_by_index 2 2 (run_ops ops) = Some (cf 2 2) /\
  cs_after_round 3 (run_ops ops) = Some [cf 3 1; cf 3 2; cf 3 3; cf 66 1] /\
  cs_last_two (run_ops ops) = Some [cf 66 1] /\ cs_last_two (run_ops ex_theirs) = Some [cf 3 3; cf 3 2; cf 3 1; cf 2 2; cf 2 1] /\
  cs_next_number 3 1 (run_ops ops) = Some 3 /\ cs_last_number 1 (run_ops ops) = Some 66.
Proof. vm_compute. repeat split. Qed.
Example ex_fan : fan_run 3 [FResult 0%nat None; FTimer; FResult 1%nat (Some []); FTimer; FResult 2%nat (Some [cf 1 1])] = FGot [cf 1 1] /\
  fan_ok 3 1 [] [FResult 0%nat None; FTimer; FResult 1%nat (Some []); FTimer; FResult 2%nat (Some [cf 1 1])] /\
  fan_run 2 [FTimer; FResult 1%nat None; FResult 0%nat (Some [])] = FFail.
Proof. split; [reflexivity|]. split; [|reflexivity]. cbn. intuition (try lia; try discriminate). Qed.
Example ex_fetcher :
  let m1 := mkMo ex_mine 2 50 in let m2 := mkMo (ex_mine ++ [OSave (cf 3 1); OGc 3]) 2 50 in
  let f evs := fetch_run ex_ser [1; 2; 3] 7 (map (fun e => (env_of (fst e), snd e)) evs) in
  ft_targets (f [(m1, EAncestors (cf 3 1))]) = [(1, 3)] /\ ft_task (f [(m1, EAncestors (cf 3 1))]) <> None /\
  f [(m1, EAncestors (cf 3 1)); (m2, EDone)] = mkF [] None /\
  ft_targets (f [(m1, EAncestors (cf 3 1)); (m1, EAncestors (cf 4 2)); (m2, EDone)]) = [(2, 4)].
Proof. vm_compute. repeat split; discriminate. Qed.

(** ---------- where the hypotheses are needed: what the code does without them ---------- *)
(** Two certificates of one author and round: deleting either hides the other from lookups by author and round. *)
Theorem C59_equivocation_refuted :
  let c := cf 5 1 in let c' := mkFC 9999 5 1 7 [] 900 true in
  let s := run_ops [OSave c; OSave c'; ODelete 9999] in
  cs_read (f_dig c) s = Some c /\ cs_read_by_index 1 5 s = None /\ cs_after_round 0 s = Some [] /\ cs_last_number 1 s = None.
Proof. vm_compute. auto. Qed.
(** The epoch's end clears the three tables in three transactions. A crash after the first leaves index rows that point to
    nothing, and the start-up read of the store fails (the node then panics); if no clear ran, the old epoch's certificates
    are read back into the new one. After all three, the store is empty. *)
Theorem C59_epoch_clear_refuted : forall s,
  epoch_clear 3 s = cs_empty /\
  (cs_round s <> [] -> cs_after_round 0 (epoch_clear 1 s) = None /\ cs_last_two (epoch_clear 1 s) = None) /\
  cs_after_round 0 (epoch_clear 0 s) = cs_after_round 0 s /\
  (forall o, cs_last_number o (epoch_clear 2 s) = cs_last_number o s /\ cs_last_round o (epoch_clear 2 s) = None).
Proof.
  intros [cc cr co]. cbn [epoch_clear cs_round cs_certs cs_origin]. split; [reflexivity|]. split; [|split; [reflexivity|]].
  - intros Hn. split.
    + unfold cs_after_round, rows_from. cbn. destruct cr as [|x cr]; [congruence|]. cbn. destruct (fst (fst x)); reflexivity.
    + unfold cs_last_two. cbn [cs_round]. destruct (rev cr) as [|x l] eqn:E; [|reflexivity].
      apply (f_equal (@rev _)) in E. rewrite rev_involutive in E. cbn in E. congruence.
  - intros o. split; [reflexivity|]. unfold cs_last_round. cbn [cs_origin].
    destruct (pt_prior _ _ _) as [x|]; auto. destruct (_ =? o); reflexivity.
Qed.
(** The responder forgets an author whose next certificate is collected while it streams: later ones it holds, which were
    asked for, are not sent. *)
Theorem C59_gap_refuted :
  let q := set_bounds ex_ser 0 [(1, []); (2, [])] in
  let before := [OSave (cf 1 1); OSave (cf 1 2); OSave (cf 70 2)] in
  let after := before ++ [OGc 70] in
  one_per_slot after /\ rounds_fit after /\
  match coll_new ex_deser (run_ops before) 100 10 q with
  | Some k => coll_run ((run_ops before, false) :: repeat (run_ops after, false) 20) k = [cf 1 1] /\
              stored after (cf 70 2) /\ cs_read_by_index 2 70 (run_ops after) = Some (cf 70 2)
  | None => False
  end.
Proof.
  cbn zeta.
  assert (H : forall c, In (OSave c) ([OSave (cf 1 1); OSave (cf 1 2); OSave (cf 70 2)] ++ [OGc 70]) ->
    exists r o, c = cf r o /\ r <= 70 /\ o <= 2).
  { intros c H. cbn in H. repeat (destruct H as [H|H]; [try discriminate H; injection H as <-;
      (eexists _, _; split; [reflexivity|lia])|]). destruct H. }
  split; [|split].
  - intros c c' H1 H2. destruct (H c H1) as [r [o [-> [A B]]]], (H c' H2) as [r' [o' [-> [A' B']]]]. unfold cf.
    cbn [f_dig f_origin f_round]. lia.
  - intros c H1. destruct (H c H1) as [r [o [-> [A B]]]]. unfold cf, U32MAX. cbn [f_round]. lia.
  - destruct (coll_new _ _ _ _ _) as [k|] eqn:E; [|vm_compute in E; discriminate E].
    vm_compute in E. injection E as <-. split; [vm_compute; reflexivity|]. split; [|vm_compute; reflexivity].
    exists [OSave (cf 1 1); OSave (cf 1 2)], [OGc 70]. split; [reflexivity|]. constructor; [|constructor]. right. cbn [f_round cf]. lia.
Qed.
(** A lower bound of u32::MAX wraps to round 0 in a release build, and certificates at or below the bound are sent. *)
Theorem C59_bound_wrap_refuted :
  let q := mkReq U32MAX [(1, ex_ser [])] in
  match coll_new ex_deser (run_ops ex_theirs) 100 10 q with
  | Some k => coll_run (repeat (run_ops ex_theirs, false) 20) k = [cf 1 1; cf 2 1; cf 3 1]
  | None => False
  end.
Proof. vm_compute. reflexivity. Qed.
