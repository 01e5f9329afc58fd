(** Frames, fan-out, the fetcher, and the whole exchange. *)
From Verif Require Import Util CfModel CfSpec CfStore CfColl.
Local Open Scope N_scope.

(** ---------- written rounds ---------- *)
Lemma set_insert_In x l y : In y (set_insert x l) <-> y = x \/ In y l.
Proof.
  induction l as [|z l IH]; cbn [set_insert In]; [intuition|].
  destruct (N.ltb_spec x z); cbn [In]; [intuition|].
  destruct (N.eqb_spec x z) as [->|]; cbn [In]; [intuition|]. rewrite IH. intuition.
Qed.
Lemma set_insert_sorted x l : StronglySorted N.lt l -> StronglySorted N.lt (set_insert x l).
Proof.
  induction l as [|z l IH]; intros H; cbn [set_insert]; [repeat constructor|].
  inversion H as [|? ? Hs Hf]; subst. rewrite Forall_forall in Hf. destruct (N.ltb_spec x z).
  - constructor; auto. apply Forall_forall. intros y [<-|Hy]; auto. specialize (Hf y Hy). lia.
  - destruct (N.eqb_spec x z); auto. constructor; auto. apply Forall_forall. intros y Hy.
    apply set_insert_In in Hy as [->|Hy]; auto. lia.
Qed.
Definition WI (committee : list N) (ks : list pkey) (w : bmap (list N)) : Prop :=
  bm_sorted w /\ forall o, match bm_lookup o w with
    | Some l => StronglySorted N.lt l /\ (forall r, In r l <-> In (r, o) ks) /\ (In o committee \/ exists r, In (r, o) ks)
    | None => ~ In o committee /\ forall r, ~ In (r, o) ks
    end.
Lemma WI_init committee : WI committee [] (fold_left (fun w a => bm_insert a [] w) committee []).
Proof.
  assert (G : forall cm w, bm_sorted w -> let w' := fold_left (fun w a => bm_insert a ([] : list N) w) cm w in
    bm_sorted w' /\ forall o, bm_lookup o w' = if memN o cm then Some [] else bm_lookup o w).
  { induction cm as [|a cm IH]; intros w Hs; cbn [fold_left]; [split; auto|].
    destruct (IH (bm_insert a [] w) (bm_insert_sorted a [] w Hs)) as [A B]. cbn zeta in *. split; auto.
    intros o. rewrite B, bm_lookup_insert; auto. change (memN o (a :: cm)) with ((o =? a) || memN o cm).
    destruct (memN o cm); [rewrite orb_true_r; auto|]. rewrite orb_false_r. auto. }
  destruct (G committee [] (SSorted_nil _)) as [A B]. cbn zeta in *. split; auto. intros o. rewrite B. cbn [bm_lookup].
  destruct (memN o committee) eqn:E.
  - apply memN_In in E. split; [constructor|]. split; [intros r; cbn; tauto|]. auto.
  - apply memN_nIn in E. split; auto.
Qed.
Lemma WI_step committee ks w r o : WI committee ks w ->
  WI committee (ks ++ [(r, o)]) (bm_insert o (set_insert r (match bm_lookup o w with Some l => l | None => [] end)) w).
Proof.
  intros [Hs Hw]. split; [apply bm_insert_sorted; auto|]. intros o1. rewrite bm_lookup_insert; auto.
  specialize (Hw o1). destruct (N.eqb_spec o1 o) as [->|Hne].
  - split; [|split].
    + apply set_insert_sorted. destruct (bm_lookup o w); [tauto|constructor].
    + intros r1. rewrite set_insert_In, in_app_iff. cbn. destruct (bm_lookup o w) as [l|].
      * destruct Hw as [_ [Hw _]]. rewrite Hw. split; [intros [->|X]; auto|intros [X|[[= ->]|[]]]; auto].
      * destruct Hw as [_ Hw]. cbn. split; [intros [->|[]]; auto|intros [X|[[= ->]|[]]]; auto]. destruct (Hw _ X).
    + right. exists r. apply in_app_iff. right; left; auto.
  - assert (Hiff : forall r1, In (r1, o1) (ks ++ [(r, o)]) <-> In (r1, o1) ks).
    { intros r1. rewrite in_app_iff. cbn. split; [intros [X|[[= _ ->]|[]]]; auto; congruence|auto]. }
    destruct (bm_lookup o1 w) as [l|].
    + destruct Hw as [A [B C]]. split; auto. split; [intros r1; rewrite Hiff; auto|].
      destruct C as [C|[r1 C]]; auto. right. exists r1. apply Hiff; auto.
    + destruct Hw as [A B]. split; auto. intros r1. rewrite Hiff; auto.
Qed.
Lemma written_WI committee gc s : WI committee (cs_origins_after (gc + 1) s) (written_rounds committee gc s).
Proof.
  unfold written_rounds.
  assert (G : forall ks ks0 w, WI committee ks0 w -> WI committee (ks0 ++ ks)
    (fold_left (fun w k => bm_insert (snd k) (set_insert (fst k) (match bm_lookup (snd k) w with Some l => l | None => [] end)) w) ks w)).
  { induction ks as [|[r o] ks IH]; intros ks0 w Hw; cbn [fold_left fst snd]; [rewrite app_nil_r; auto|].
    change ((r, o) :: ks) with ([(r, o)] ++ ks). rewrite app_assoc. apply IH. apply WI_step; auto. }
  apply (G _ []). apply WI_init.
Qed.
Section Written.
Variables (s : cstore) (P : fcert -> Prop) (committee : list N) (gc : N).
Hypothesis HI : Inv s P.
Lemma written_lookup o : match bm_lookup o (written_rounds committee gc s) with
  | Some l => StronglySorted N.lt l /\ (forall r, In r l <-> gc < r /\ Has P o r) /\
              (In o committee \/ exists r, gc < r /\ Has P o r)
  | None => ~ In o committee /\ forall r, gc < r -> ~ Has P o r
  end.
Proof.
  destruct (written_WI committee gc s) as [_ H]. specialize (H o).
  assert (Hk : forall r, In (r, o) (cs_origins_after (gc + 1) s) <-> gc < r /\ Has P o r).
  { intros r. rewrite (q_origins s P HI). unfold Has. split.
    - intros [A [c [B [C D]]]]. split; [lia|]. exists c; auto.
    - intros [A [c [B [C D]]]]. split; [lia|]. exists c; auto. }
  destruct (bm_lookup o (written_rounds committee gc s)) as [l|].
  - destruct H as [A [B C]]. split; auto. split; [intros r; rewrite B, Hk; tauto|].
    destruct C as [C|[r C]]; auto. right. exists r. apply Hk; auto.
  - destruct H as [A B]. split; auto. intros r Hr Hh. apply (B r). apply Hk; auto.
Qed.
Lemma written_above : rounds_above gc (written_rounds committee gc s).
Proof.
  split; [apply (written_WI committee gc s)|]. intros o l Hi.
  apply bm_lookup_In in Hi; [|apply (written_WI committee gc s)]. pose proof (written_lookup o) as H. rewrite Hi in H.
  destruct H as [A [B _]]. split; auto. apply Forall_forall. intros r Hr. apply B in Hr as [Hg [c [Hp [_ Hr]]]].
  split; auto. pose proof (i_fit _ _ HI c Hp). lia.
Qed.
Lemma last_written_spec o : gc <= last_written gc (written_rounds committee gc s) o /\
  (forall r, gc < r -> Has P o r -> r <= last_written gc (written_rounds committee gc s) o) /\
  (last_written gc (written_rounds committee gc s) o = gc \/
   Has P o (last_written gc (written_rounds committee gc s) o)).
Proof.
  unfold last_written. pose proof (written_lookup o) as H. destruct (bm_lookup o (written_rounds committee gc s)) as [l|].
  - destruct H as [A [B _]]. destruct (rev l) as [|x t] eqn:E.
    + assert (l = []) by (rewrite <- (rev_involutive l), E; auto). subst l. split; [lia|]. split; auto.
      intros r Hr Hh. destruct (proj2 (B r) (conj Hr Hh)).
    + assert (El : l = rev t ++ [x]) by (rewrite <- (rev_involutive l), E; auto).
      assert (Hx : In x l) by (rewrite El; apply in_app_iff; right; left; auto).
      apply B in Hx as [Hg Hh]. split; [lia|]. split; auto. intros r Hr Hh'.
      assert (Hir : In r l) by (apply B; auto). rewrite El in Hir, A. clear -Hir A.
      apply in_app_iff in Hir as [Hir|[->|[]]]; [|lia].
      induction (rev t) as [|y m IH]; [destruct Hir|]. cbn [app] in A. inversion A as [|? ? As Af]; subst.
      destruct Hir as [->|Hir]; auto. rewrite Forall_forall in Af.
      assert (r < x) by (apply Af; apply in_app_iff; right; left; auto). lia.
  - split; [lia|]. split; auto. intros r Hr Hh. destruct H as [_ H]. destruct (H r Hr Hh).
Qed.
End Written.

(** ---------- frames ---------- *)
Lemma sizes_app a b : sizes (a ++ b) = sizes a + sizes b.
Proof. unfold sizes. rewrite map_app, sumN_app. auto. Qed.
Lemma scan_cap_prefix l : forall sent, exists t, l = scan_cap sent l ++ t /\
  (t = [] \/ RESPONSE_CAP <= sent + sizes (scan_cap sent l)).
Proof.
  induction l as [|c l IH]; intros sent; cbn [scan_cap]; [exists []; auto|].
  destruct (N.ltb_spec sent RESPONSE_CAP) as [Hlt|Hge].
  - destruct (IH (sent + f_size c)) as [t [E H]]. exists t. split; [cbn; f_equal; auto|].
    destruct H as [H|H]; auto. right. change (sizes (c :: ?x)) with (f_size c + sizes x). unfold sizes in *. cbn [map sumN fold_right] in *.
    fold (sumN (map f_size (scan_cap (sent + f_size c) l))). lia.
  - exists (c :: l). split; auto. right. cbn. lia.
Qed.
Lemma scan_cap_bound M l : Forall (fun c => f_size c <= M) l -> forall sent, sent < RESPONSE_CAP + M ->
  sent + sizes (scan_cap sent l) < RESPONSE_CAP + M \/ sizes (scan_cap sent l) = 0.
Proof.
  induction 1 as [|c l Hc Hl IH]; intros sent Hs; cbn [scan_cap]; [right; reflexivity|].
  destruct (N.ltb_spec sent RESPONSE_CAP) as [Hlt|Hge]; [|right; reflexivity]. left.
  change (sizes (c :: scan_cap (sent + f_size c) l)) with (f_size c + sizes (scan_cap (sent + f_size c) l)).
  destruct (IH (sent + f_size c)) as [H|H]; lia.
Qed.
Lemma batch_up_concat l : forall cur, concat (batch_up cur l) = cur ++ l.
Proof.
  induction l as [|c l IH]; intros cur; cbn [batch_up].
  - destruct (N.ltb_spec 0 (N.of_nat (length cur))) as [H|H]; cbn; [reflexivity|].
    destruct cur; cbn in *; [auto|lia].
  - destruct (BATCH_TARGET <=? sizes (cur ++ [c])); cbn [concat]; rewrite IH; rewrite <- app_assoc; reflexivity.
Qed.
Lemma batch_up_sizes M l : Forall (fun c => f_size c <= M) l -> forall cur, sizes cur < BATCH_TARGET ->
  Forall (fun b => sizes b < BATCH_TARGET + M \/ sizes b < BATCH_TARGET) (batch_up cur l).
Proof.
  induction 1 as [|c l Hc Hl IH]; intros cur Hs; cbn [batch_up].
  - destruct (0 <? N.of_nat (length cur)); constructor; auto.
  - assert (Es : sizes (cur ++ [c]) = sizes cur + f_size c) by (rewrite sizes_app; cbn; lia).
    destruct (N.leb_spec BATCH_TARGET (sizes (cur ++ [c]))) as [H|H].
    + constructor; [left; lia|]. apply IH. cbn. unfold BATCH_TARGET. lia.
    + apply IH. auto.
Qed.
Lemma batch_up_count l : forall cur, sizes cur < BATCH_TARGET ->
  BATCH_TARGET * N.of_nat (length (batch_up cur l)) <= sizes cur + sizes l + BATCH_TARGET.
Proof.
  induction l as [|c l IH]; intros cur Hs; cbn [batch_up].
  - destruct (0 <? N.of_nat (length cur)); cbn [length]; lia.
  - assert (Es : sizes (cur ++ [c]) = sizes cur + f_size c) by (rewrite sizes_app; cbn; lia).
    change (sizes (c :: l)) with (f_size c + sizes l).
    destruct (N.leb_spec BATCH_TARGET (sizes (cur ++ [c]))) as [H|H].
    + cbn [length]. specialize (IH []). change (sizes []) with 0 in IH.
      assert (0 < BATCH_TARGET) by reflexivity. specialize (IH ltac:(lia)). lia.
    + specialize (IH (cur ++ [c]) H). lia.
Qed.
Lemma uleb_le n : 1 <= uleb_len n /\ uleb_len n <= 5.
Proof. unfold uleb_len. destruct (n <? 128), (n <? 16384), (n <? 2097152), (n <? 268435456); lia. Qed.
Lemma read_certs_ok frames : Forall (fun b => frame_len b <= MAX_FRAME) frames -> forall total,
  total + sumN (map data_len frames) <= ACCEPT_CAP -> read_certs total frames = Some (concat frames).
Proof.
  induction 1 as [|b t Hb Ht IH]; intros total Hsum; cbn [read_certs concat]; auto.
  change (sumN (map data_len (b :: t))) with (data_len b + sumN (map data_len t)) in Hsum.
  destruct (N.leb_spec (frame_len b) MAX_FRAME); [|lia].
  destruct (N.leb_spec (total + data_len b) ACCEPT_CAP); [|lia]. rewrite IH; auto. lia.
Qed.
Lemma data_sum frames : sumN (map data_len frames) <= sizes (concat frames) + 5 * N.of_nat (length frames).
Proof.
  induction frames as [|b t IH]; cbn [map concat length]; [cbn; lia|].
  change (sumN (data_len b :: map data_len t)) with (data_len b + sumN (map data_len t)).
  rewrite sizes_app. unfold data_len at 1. pose proof (uleb_le (N.of_nat (length b))). lia.
Qed.
(** an honest response is accepted *)
Lemma honest_response l : Forall (fun c => f_size c <= 262134) l ->
  read_certs 0 (send_certs l) = Some (scan_cap 0 l).
Proof.
  intros Hl. unfold send_certs.
  assert (Hp : Forall (fun c => f_size c <= 262134) (scan_cap 0 l)).
  { destruct (scan_cap_prefix l 0) as [t [E _]]. rewrite E in Hl. apply Forall_app in Hl. tauto. }
  pose proof (batch_up_concat (scan_cap 0 l) []) as Ec. cbn [app] in Ec.
  rewrite read_certs_ok; [rewrite Ec; auto| |].
  - eapply Forall_impl; [|apply (batch_up_sizes 262134 _ Hp []); reflexivity].
    intros b Hb. unfold frame_len, data_len. pose proof (uleb_le (N.of_nat (length b))).
    pose proof (uleb_le (uleb_len (N.of_nat (length b)) + sizes b)). cbn beta in Hb.
    unfold MAX_FRAME. unfold BATCH_TARGET in *. lia.
  - pose proof (data_sum (batch_up [] (scan_cap 0 l))) as Hd. rewrite Ec in Hd.
    pose proof (batch_up_count (scan_cap 0 l) [] eq_refl) as Hc. change (sizes []) with 0 in Hc.
    destruct (scan_cap_bound 262134 l Hl 0 eq_refl) as [H|H];
      unfold ACCEPT_CAP, MAX_FRAME, RESPONSE_CAP, BATCH_TARGET in *; lia.
Qed.
(** nothing beyond the accepted size is ever kept *)
Lemma read_certs_bound frames : forall total l, total <= ACCEPT_CAP -> read_certs total frames = Some l ->
  total + sizes l <= ACCEPT_CAP /\ l = concat frames /\ Forall (fun b => frame_len b <= MAX_FRAME) frames.
Proof.
  induction frames as [|b t IH]; intros total l Ht; cbn [read_certs concat].
  - intros [= <-]. split; [change (sizes []) with 0; lia|auto].
  - destruct (N.leb_spec (frame_len b) MAX_FRAME) as [Hf|]; [|discriminate].
    destruct (N.leb_spec (total + data_len b) ACCEPT_CAP) as [Ha|]; [|discriminate].
    destruct (read_certs (total + data_len b) t) as [r|] eqn:E; [|discriminate]. intros [= <-].
    destruct (IH _ _ Ha E) as [A [-> B]]. split; [|split; auto]. rewrite sizes_app. unfold data_len in A. lia.
Qed.

(** ---------- fan-out ---------- *)
Definition good (r : option (list fcert)) : bool := match r with Some l => valid_response l | None => false end.
(** every asked peer reports at most once, and only after it was asked *)
Fixpoint fan_ok (n asked : nat) (seen : list nat) (evs : list fan_ev) : Prop :=
  match evs with
  | [] => True
  | FTimer :: t => fan_ok n (if Nat.ltb asked n then S asked else asked) seen t
  | FResult p _ :: t => (p < asked)%nat /\ ~ In p seen /\ fan_ok n asked (p :: seen) t
  end.
Lemma fan_step_result n a r p x : fan_step n (FWait a r) (FResult p x) =
  match x with
  | Some l => if valid_response l then FGot l else
      (if Nat.leb n a && Nat.leb a (S r) then FFail else FWait a (S r))
  | None => if Nat.leb n a && Nat.leb a (S r) then FFail else FWait a (S r)
  end.
Proof. reflexivity. Qed.
Lemma fan_absorb n evs : (forall l, fold_left (fan_step n) evs (FGot l) = FGot l) /\ fold_left (fan_step n) evs FFail = FFail.
Proof. induction evs as [|e evs [IH1 IH2]]; cbn; auto. Qed.
Definition reported (evs : list fan_ev) : list nat :=
  flat_map (fun e => match e with FResult p _ => [p] | FTimer => [] end) evs.
Lemma fan_gen n : forall evs asked seen, (1 <= asked <= n)%nat -> NoDup seen -> (forall p, In p seen -> p < asked)%nat ->
  fan_ok n asked seen evs -> ~ (asked = n /\ length seen = n) ->
  match fold_left (fan_step n) evs (FWait asked (length seen)) with
  | FGot l => exists pre p post, evs = pre ++ FResult p (Some l) :: post /\ valid_response l = true /\
                (forall p' r', In (FResult p' r') pre -> good r' = false)
  | FFail => forall p, (p < n)%nat -> In p seen \/ exists r, In (FResult p r) evs /\ good r = false
  | FWait a r => (asked <= a <= n)%nat /\ r = (length seen + length (reported evs))%nat /\ ~ (a = n /\ r = n) /\
                 (forall p' r', In (FResult p' r') evs -> good r' = false) /\
                 (a = n \/ a = asked + length evs - length (reported evs))%nat
  end.
Proof.
  induction evs as [|e evs IH]; intros asked seen Ha Hd Hlt Hok Hnn; cbn [fold_left].
  - split; [lia|]. split; [cbn; lia|]. split; auto. split; [intros p r []|]. cbn. lia.
  - destruct e as [|p x]; cbn [fan_ok] in Hok.
    + cbn [fan_step]. destruct (Nat.ltb_spec asked n) as [Hl|Hl].
      * specialize (IH (S asked) seen ltac:(lia) Hd ltac:(intros p Hp; specialize (Hlt p Hp); lia) Hok).
        assert (Hlen : (length seen <= asked)%nat).
        { clear -Hd Hlt. assert (incl seen (seq 0 asked)) by (intros p Hp; apply in_seq; specialize (Hlt p Hp); lia).
          pose proof (NoDup_incl_length Hd H). rewrite seq_length in H0. auto. }
        specialize (IH ltac:(lia)).
        destruct (fold_left (fan_step n) evs (FWait (S asked) (length seen))) as [a r|l|].
        -- destruct IH as [A [B [C [D E]]]]. split; [lia|]. split; auto. split; auto. split.
           ++ intros p' r' [X|X]; [discriminate X|eauto].
           ++ cbn [length reported flat_map app] in *. fold (reported evs). 
              assert (length (reported evs) <= length evs)%nat.
              { clear. unfold reported. induction evs as [|[|p r] evs IH]; cbn in *; lia. }
              lia.
        -- destruct IH as [pre [p [post [-> [B C]]]]]. exists (FTimer :: pre), p, post. split; auto. split; auto.
           intros p' r' [X|X]; [discriminate X|eauto].
        -- intros p Hp. destruct (IH p Hp) as [X|[r [X Y]]]; auto. right. exists r. split; auto. right; auto.
      * specialize (IH asked seen Ha Hd Hlt Hok Hnn).
        destruct (fold_left (fan_step n) evs (FWait asked (length seen))) as [a r|l|].
        -- destruct IH as [A [B [C [D E]]]]. split; [lia|]. split; auto. split; auto. split.
           ++ intros p' r' [X|X]; [discriminate X|eauto].
           ++ left. lia.
        -- destruct IH as [pre [p [post [-> [B C]]]]]. exists (FTimer :: pre), p, post. split; auto. split; auto.
           intros p' r' [X|X]; [discriminate X|eauto].
        -- intros p Hp. destruct (IH p Hp) as [X|[r [X Y]]]; auto. right. exists r. split; auto. right; auto.
    + destruct Hok as [Hp [Hns Hok]]. rewrite fan_step_result.
      assert (Hcase : match fold_left (fan_step n) evs
         (if good x then FGot (match x with Some l => l | None => [] end)
          else if Nat.leb n asked && Nat.leb asked (S (length seen)) then FFail else FWait asked (S (length seen))) with
        | FGot l => exists pre p0 post, FResult p x :: evs = pre ++ FResult p0 (Some l) :: post /\ valid_response l = true /\
                      (forall p' r', In (FResult p' r') pre -> good r' = false)
        | FFail => forall p0, (p0 < n)%nat -> In p0 seen \/ exists r, In (FResult p0 r) (FResult p x :: evs) /\ good r = false
        | FWait a r => (asked <= a <= n)%nat /\ r = (length seen + length (reported (FResult p x :: evs)))%nat /\ ~ (a = n /\ r = n) /\
                 (forall p' r', In (FResult p' r') (FResult p x :: evs) -> good r' = false) /\
                 (a = n \/ a = asked + length (FResult p x :: evs) - length (reported (FResult p x :: evs)))%nat
        end).
      { destruct (good x) eqn:Eg.
        - destruct x as [l|]; [|discriminate Eg]. rewrite (proj1 (fan_absorb n evs)). exists [], p, evs.
          split; auto. split; auto. intros p' r' [].
        - destruct (Nat.leb n asked && Nat.leb asked (S (length seen))) eqn:El.
          + rewrite (proj2 (fan_absorb n evs)). intros p0 Hp0.
            assert (Hall : In p0 (p :: seen)).
            { assert (HN : NoDup (p :: seen)) by (constructor; auto).
              assert (Hin : incl (p :: seen) (seq 0 n)).
              { intros y [<-|Hy]; apply in_seq; [lia|]. specialize (Hlt y Hy). lia. }
              assert (Hrev : incl (seq 0 n) (p :: seen)).
              { apply NoDup_length_incl; auto. rewrite seq_length. cbn [length]. lia. }
              apply Hrev, in_seq. lia. }
            destruct Hall as [<-|Hall]; auto. right. exists x. split; auto. left; auto.
          + specialize (IH asked (p :: seen) Ha ltac:(constructor; auto)
              ltac:(intros y [<-|Hy]; auto) Hok ltac:(cbn [length]; lia)). cbn [length] in IH.
            destruct (fold_left (fan_step n) evs (FWait asked (S (length seen)))) as [a r|l|].
            * destruct IH as [A [B [C [D E]]]]. split; [lia|]. split; [cbn [reported flat_map app length]; fold (reported evs); lia|].
              split; auto. split; [intros p' r' [[= -> ->]|X]; eauto|].
              cbn [reported flat_map app length]. fold (reported evs). lia.
            * destruct IH as [pre [p1 [post [-> [B C]]]]]. exists (FResult p x :: pre), p1, post. split; auto. split; auto.
              intros p' r' [[= -> ->]|X]; eauto.
            * intros p0 Hp0. destruct (IH p0 Hp0) as [[<-|X]|[r [X Y]]]; auto.
              -- right. exists x. split; auto. left; auto.
              -- right. exists r. split; auto. right; auto. }
      destruct x as [l|]; cbn [good] in Hcase; auto.
Qed.

(** ---------- the fetcher ---------- *)
Section FetcherProofs.
Variable ser : list N -> list N.
Variable committee : list N.
Variable epoch : N.
Notation start_fetch := (start_fetch ser committee).
Notation fetch_step := (fetch_step ser committee epoch).
Definition awake (f : fetcher) : Prop := ft_targets f <> [] -> ft_task f <> None.
Lemma start_fetch_awake e f : awake (start_fetch e f).
Proof. unfold awake, start_fetch, CfModel.start_fetch. destruct (update_targets _ _ _); cbn; congruence. Qed.
Lemma step_awake f ee : awake f -> awake (fetch_step f ee).
Proof.
  intros H. destruct ee as [e ev]. unfold CfModel.fetch_step. destruct ev as [c| |].
  - destruct (negb (f_epoch c =? epoch)); auto. destruct (negb (should_fetch e f c)); auto.
    unfold no_task. cbn [ft_task]. destruct (ft_task f) eqn:E; [|apply start_fetch_awake].
    unfold awake. cbn. congruence.
  - destruct (no_task f && negb (no_targets f)); auto. apply start_fetch_awake.
  - destruct (ft_task f) eqn:E; auto. unfold no_targets. cbn [ft_targets].
    destruct (ft_targets f) as [|x t] eqn:Et; cbn [negb]; [unfold awake; cbn; congruence|]. apply start_fetch_awake.
Qed.
Lemma filter_lookup {V} (p : N * V -> bool) m k : bm_sorted m ->
  bm_lookup k (filter p m) = match bm_lookup k m with Some v => if p (k, v) then Some v else None | None => None end.
Proof.
  unfold bm_sorted, bm_keys. induction m as [|[a b] m IH]; intros H; auto. cbn [map] in H. inversion H as [|? ? Hs Hf]; subst.
  cbn [filter bm_lookup]. destruct (p (a, b)) eqn:Ep; cbn [bm_lookup]; destruct (N.eqb_spec k a) as [->|]; auto.
  - rewrite Ep. auto.
  - rewrite IH; auto. rewrite Ep. assert (Hn : bm_lookup a m = None).
    { apply bm_lookup_None. intros X. rewrite Forall_forall in Hf. specialize (Hf a X). cbn in Hf. lia. }
    rewrite Hn. auto.
Qed.
Lemma filter_sorted {V} (p : N * V -> bool) m : bm_sorted m -> bm_sorted (filter p m).
Proof.
  unfold bm_sorted, bm_keys. induction m as [|[a b] m IH]; intros H; auto. cbn [map] in H. inversion H as [|? ? Hs Hf]; subst.
  cbn [filter]. destruct (p (a, b)); auto. cbn [map]. constructor; auto. rewrite Forall_forall in *. intros z Hz.
  apply in_map_iff in Hz as [w [<- Hw]]. apply filter_In in Hw as [Hw _]. apply Hf, in_map; auto.
Qed.
Lemma start_targets e f : ft_targets (start_fetch e f) =
  update_targets (gc_of e) (written_rounds committee (gc_of e) (fe_store e)) (ft_targets f).
Proof. unfold CfModel.start_fetch. destruct (update_targets _ _ _); auto. Qed.
Definition settled (P : fcert -> Prop) (e : fenv) (a t : N) : Prop :=
  t <= gc_of e \/ exists c, P c /\ f_origin c = a /\ t <= f_round c.
Lemma start_keeps e f P a t : Inv (fe_store e) P -> bm_sorted (ft_targets f) -> bm_lookup a (ft_targets f) = Some t ->
  (bm_lookup a (ft_targets (start_fetch e f)) = Some t /\ ~ (exists c, P c /\ f_origin c = a /\ gc_of e < f_round c /\ t <= f_round c)
     /\ gc_of e < t)
  \/ (bm_lookup a (ft_targets (start_fetch e f)) = None /\ settled P e a t).
Proof.
  intros HI Hs Hl. rewrite start_targets. unfold update_targets. rewrite filter_lookup, Hl; auto. cbn [fst snd].
  destruct (last_written_spec (fe_store e) P committee (gc_of e) HI a) as [A [B C]].
  destruct (N.ltb_spec (last_written (gc_of e) (written_rounds committee (gc_of e) (fe_store e)) a) t) as [H|H].
  - left. split; auto. split; [|lia]. intros [c [Hp [Ho [Hg Ht]]]]. specialize (B (f_round c) Hg).
    assert (Has P a (f_round c)) by (exists c; auto). specialize (B H0). lia.
  - right. split; auto. destruct C as [C|[c [Hp [Ho Hr]]]]; [left; lia|]. right. exists c. split; auto. split; auto. lia.
Qed.
Lemma should_fetch_spec e f P c : Inv (fe_store e) P ->
  should_fetch e f c = true <->
  (match bm_lookup (f_origin c) (ft_targets f) with Some t => t < f_round c | None => True end) /\
  (forall c', P c' -> f_origin c' = f_origin c -> f_round c' < f_round c).
Proof.
  intros HI. unfold should_fetch. pose proof (q_last_number (fe_store e) P HI (f_origin c)) as H.
  assert (G : (match cs_last_number (f_origin c) (fe_store e) with Some l => l <? f_round c | None => true end) = true <->
    (forall c', P c' -> f_origin c' = f_origin c -> f_round c' < f_round c)).
  { destruct (cs_last_number (f_origin c) (fe_store e)) as [l|].
    - destruct H as [[c0 [A [B C]]] D]. rewrite N.ltb_lt. split.
      + intros X c' Hp Ho. specialize (D c' Hp Ho). lia.
      + intros X. rewrite <- C. auto.
    - split; auto. intros _ c' Hp Ho. destruct (H c' Hp Ho). }
  destruct (bm_lookup (f_origin c) (ft_targets f)) as [t|].
  - destruct (N.leb_spec (f_round c) t); [split; [discriminate|lia]|]. rewrite G. tauto.
  - rewrite G. tauto.
Qed.
Lemma step_sorted f ee : bm_sorted (ft_targets f) -> bm_sorted (ft_targets (fetch_step f ee)).
Proof.
  intros H. destruct ee as [e ev]. unfold CfModel.fetch_step.
  assert (Hst : forall g, bm_sorted (ft_targets g) -> bm_sorted (ft_targets (start_fetch e g))).
  { intros g Hg. rewrite start_targets. apply filter_sorted; auto. }
  destruct ev as [c| |].
  - destruct (negb (f_epoch c =? epoch)); auto. destruct (negb (should_fetch e f c)); auto.
    destruct (no_task _); [apply Hst|]; apply bm_insert_sorted; auto.
  - destruct (no_task f && negb (no_targets f)); auto.
  - destruct (ft_task f); auto. destruct (negb (no_targets _)); auto.
Qed.
(** a target goes up or stays until the store has caught up or the round is out of reach *)
Lemma step_targets f e ev P a t : Inv (fe_store e) P -> bm_sorted (ft_targets f) ->
  bm_lookup a (ft_targets f) = Some t ->
  (exists t', t <= t' /\ bm_lookup a (ft_targets (fetch_step f (e, ev))) = Some t') \/
  settled P e a t.
Proof.
  intros HI Hs Hl. unfold CfModel.fetch_step. destruct ev as [c| |].
  - destruct (negb (f_epoch c =? epoch)); [left; exists t; split; [lia|auto]|].
    destruct (should_fetch e f c) eqn:Es; cbn [negb]; [|left; exists t; split; [lia|auto]].
    apply (should_fetch_spec e f P c HI) in Es as [E1 E2].
    set (f1 := mkF (bm_insert (f_origin c) (f_round c) (ft_targets f)) (ft_task f)).
    assert (Hs1 : bm_sorted (ft_targets f1)) by (apply bm_insert_sorted; auto).
    assert (Hl1 : exists t1, t <= t1 /\ bm_lookup a (ft_targets f1) = Some t1).
    { cbn [f1 ft_targets]. rewrite bm_lookup_insert; auto. destruct (N.eqb_spec a (f_origin c)) as [->|].
      - exists (f_round c). rewrite Hl in E1. split; [lia|auto].
      - exists t. split; [lia|auto]. }
    destruct Hl1 as [t1 [Ht1 Hl1]]. destruct (no_task f1); [|left; exists t1; auto].
    destruct (start_keeps e f1 P a t1 HI Hs1 Hl1) as [[A _]|[A B]]; [left; exists t1; auto|].
    right. destruct B as [B|[c0 [B1 [B2 B3]]]]; [left; lia|]. right. exists c0. split; auto. split; auto. lia.
  - destruct (no_task f && negb (no_targets f)); [|left; exists t; split; [lia|auto]].
    destruct (start_keeps e f P a t HI Hs Hl) as [[A _]|[A B]]; [left; exists t; split; [lia|auto]|right; auto].
  - destruct (ft_task f); [|left; exists t; split; [lia|auto]].
    destruct (negb (no_targets (mkF (ft_targets f) None))); [|left; exists t; split; [lia|auto]].
    destruct (start_keeps e (mkF (ft_targets f) None) P a t HI Hs Hl) as [[A _]|[A B]];
      [left; exists t; split; [lia|auto]|right; auto].
Qed.
(** a request to fetch is never forgotten *)
Lemma step_ancestors f e P c : Inv (fe_store e) P -> bm_sorted (ft_targets f) -> f_epoch c = epoch ->
  (exists t', f_round c <= t' /\ bm_lookup (f_origin c) (ft_targets (fetch_step f (e, EAncestors c))) = Some t') \/
  settled P e (f_origin c) (f_round c).
Proof.
  intros HI Hs He. unfold CfModel.fetch_step. rewrite He, N.eqb_refl. cbn [negb].
  destruct (should_fetch e f c) eqn:Es; cbn [negb].
  - set (f1 := mkF (bm_insert (f_origin c) (f_round c) (ft_targets f)) (ft_task f)).
    assert (Hs1 : bm_sorted (ft_targets f1)) by (apply bm_insert_sorted; auto).
    assert (Hl1 : bm_lookup (f_origin c) (ft_targets f1) = Some (f_round c)).
    { cbn [f1 ft_targets]. rewrite bm_lookup_insert; auto. rewrite N.eqb_refl. auto. }
    destruct (no_task f1); [|left; exists (f_round c); split; [lia|auto]].
    destruct (start_keeps e f1 P _ _ HI Hs1 Hl1) as [[A _]|[A B]]; [left; exists (f_round c); split; [lia|auto]|right; auto].
  - destruct (bm_lookup (f_origin c) (ft_targets f)) as [t|] eqn:El.
    + destruct (N.le_gt_cases (f_round c) t) as [Hle|Hgt]; [left; exists t; auto|]. right. right.
      pose proof (q_last_number (fe_store e) P HI (f_origin c)) as H. unfold should_fetch in Es. rewrite El in Es.
      destruct (N.leb_spec (f_round c) t); [lia|]. destruct (cs_last_number (f_origin c) (fe_store e)) as [l|]; [|discriminate].
      destruct H as [[c0 [A [B C]]] D]. exists c0. split; auto. split; auto. lia.
    + right. right. pose proof (q_last_number (fe_store e) P HI (f_origin c)) as H. unfold should_fetch in Es. rewrite El in Es.
      destruct (cs_last_number (f_origin c) (fe_store e)) as [l|]; [|discriminate].
      destruct H as [[c0 [A [B C]]] D]. exists c0. split; auto. split; auto. lia.
Qed.
(** while a task runs its request stays; a new one is built from what the store holds *)
Lemma step_task f e ev : awake f ->
  ft_task (fetch_step f (e, ev)) = ft_task f \/
  ((ft_task f = None \/ ev = EDone) /\
   (ft_task (fetch_step f (e, ev)) = None \/
    ft_task (fetch_step f (e, ev)) = Some (set_bounds ser (gc_of e) (written_rounds committee (gc_of e) (fe_store e))))).
Proof.
  intros Hw. unfold CfModel.fetch_step.
  assert (Hst : forall g, ft_task g = None -> ft_task (start_fetch e g) = None \/
    ft_task (start_fetch e g) = Some (set_bounds ser (gc_of e) (written_rounds committee (gc_of e) (fe_store e)))).
  { intros g Hg. unfold CfModel.start_fetch. destruct (update_targets _ _ _); cbn; auto. }
  destruct ev as [c| |].
  - destruct (negb (f_epoch c =? epoch)); auto. destruct (negb (should_fetch e f c)); auto.
    unfold no_task. cbn [ft_task]. destruct (ft_task f) eqn:E; auto.
  - unfold no_task. destruct (ft_task f) eqn:E; cbn [andb]; [left; auto|].
    destruct (negb (no_targets f)); auto.
  - destruct (ft_task f) eqn:E; auto. right. split; auto.
    destruct (negb (no_targets (mkF (ft_targets f) None))); [apply Hst; auto|cbn; auto].
Qed.
End FetcherProofs.
