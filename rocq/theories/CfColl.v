(** The responder reads exactly what was asked for, in causal order; the request says what the requester has. *)
From Verif Require Import Util CfModel CfSpec CfStore.
Local Open Scope N_scope.

Definition Has (P : fcert -> Prop) (o r : N) : Prop := exists c, P c /\ f_origin c = o /\ f_round c = r.
Definition key (c : fcert) : pkey := (f_round c, f_origin c).
Lemma slot_lt_key c c' : slot_lt c c' <-> pl (key c) (key c').
Proof. unfold pl, key. rewrite plt_spec. reflexivity. Qed.

Lemma filter_length_lt {A} (f g : A -> bool) l x :
  (forall y, f y = true -> g y = true) -> In x l -> g x = true -> f x = false ->
  (length (filter f l) < length (filter g l))%nat.
Proof.
  intros Hfg. assert (Hle : forall m, (length (filter f m) <= length (filter g m))%nat).
  { induction m as [|y m IH]; cbn; auto. destruct (f y) eqn:E; [rewrite (Hfg y E); cbn; lia|]. destruct (g y); cbn; lia. }
  induction l as [|y l IH]; intros Hi Hg Hf; [destruct Hi|]. cbn. destruct Hi as [->|Hi].
  - rewrite Hf, Hg. cbn. specialize (Hle l). lia.
  - specialize (IH Hi Hg Hf). destruct (f y) eqn:E; [rewrite (Hfg y E); cbn; lia|]. destruct (g y); cbn; lia.
Qed.

Section Find.
Variables (s : cstore) (P : fcert -> Prop).
Hypothesis HI : Inv s P.
Definition later (o cur : N) (x : pkey * N) : bool := (fst (fst x) =? o) && (cur <? snd (fst x)).
Lemma find_next_spec o sk : forall fuel cur, cur < U32MAX ->
  (length (filter (later o cur) (cs_origin s)) < fuel)%nat ->
  match find_next fuel s o cur sk with
  | Some r => cur < r /\ r < U32MAX /\ ~ In r sk /\ Has P o r /\
              forall c, P c -> f_origin c = o -> cur < f_round c -> ~ In (f_round c) sk -> r <= f_round c
  | None => forall c, P c -> f_origin c = o -> cur < f_round c -> In (f_round c) sk
  end.
Proof.
  induction fuel as [|fuel IH]; intros cur Hc Hl; [lia|]. cbn [find_next].
  pose proof (q_next s P HI o cur Hc) as Hn. destruct (cs_next_number o cur s) as [r|].
  - destruct Hn as [Hlt [Hh Hm]]. destruct Hh as [c [Hp [Ho Hr]]].
    assert (Hfit : r < U32MAX) by (rewrite <- Hr; apply (i_fit _ _ HI); auto).
    destruct (memN r sk) eqn:Em.
    + apply memN_In in Em. specialize (IH r Hfit).
      assert (Hdec : (length (filter (later o r) (cs_origin s)) < length (filter (later o cur) (cs_origin s)))%nat).
      { apply (filter_length_lt _ _ _ (orow c)).
        - intros y. unfold later. lia.
        - apply (i_o _ _ HI). exists c. auto.
        - unfold later, orow; cbn. lia.
        - unfold later, orow; cbn. lia. }
      specialize (IH ltac:(lia)). destruct (find_next fuel s o r sk) as [r'|].
      * destruct IH as [A [B [C [D E]]]]. split; [lia|]. split; auto. split; auto. split; auto.
        intros c' Hp' Ho' Hlt' Hn'. apply E; auto. specialize (Hm c' Hp' Ho' Hlt').
        destruct (N.eq_dec (f_round c') r) as [E1|E1]; [rewrite E1 in Hn'; tauto|lia].
      * intros c' Hp' Ho' Hlt'. specialize (Hm c' Hp' Ho' Hlt').
        destruct (N.eq_dec (f_round c') r) as [E1|E1]; [rewrite E1; auto|]. apply IH; auto. lia.
    + apply memN_nIn in Em. split; auto. split; auto. split; auto. split; [exists c; auto|]. intros c' Hp' Ho' Hlt' _. auto.
  - intros c Hp Ho Hlt. specialize (Hn c Hp Ho). lia.
Qed.
Lemma next_of_spec o cur sk : cur < U32MAX ->
  match next_of s o cur sk with
  | Some r => cur < r /\ r < U32MAX /\ ~ In r sk /\ Has P o r /\
              forall c, P c -> f_origin c = o -> cur < f_round c -> ~ In (f_round c) sk -> r <= f_round c
  | None => forall c, P c -> f_origin c = o -> cur < f_round c -> In (f_round c) sk
  end.
Proof.
  intros Hc. unfold next_of. apply find_next_spec; auto.
  pose proof (filter_len_le (later o cur) (cs_origin s)). lia.
Qed.
End Find.

(** ---------- the queue ---------- *)
Lemma q_push_In k q x : In x (q_push k q) <-> x = k \/ In x q.
Proof.
  induction q as [|y q IH]; cbn; [intuition|]. destruct (plt k y); cbn; [intuition|]. rewrite IH. intuition.
Qed.
Lemma q_push_sorted k q : StronglySorted pl q -> ~ In k q -> StronglySorted pl (q_push k q).
Proof.
  induction q as [|y q IH]; intros H Hn; cbn; [repeat constructor|].
  inversion H as [|? ? Hs Hf]; subst. rewrite Forall_forall in Hf. destruct (plt k y) eqn:E.
  - constructor; auto. apply Forall_forall. intros z [<-|Hz]; auto. eapply pl_trans; [exact E|]. auto.
  - constructor.
    + apply IH; auto. intros X; apply Hn; right; auto.
    + apply Forall_forall. intros z Hz. apply q_push_In in Hz as [->|Hz]; auto.
      destruct (pl_swap _ _ E) as [->|X]; auto. exfalso; apply Hn; left; auto.
Qed.
Lemma q_push_origins k q : NoDup (map snd q) -> ~ In (snd k) (map snd q) -> NoDup (map snd (q_push k q)).
Proof.
  induction q as [|y q IH]; intros H Hn; cbn; [constructor; auto; constructor|].
  destruct (plt k y); cbn; [constructor; auto|]. cbn in H, Hn. inversion H; subst. constructor.
  - intros X. apply in_map_iff in X as [z [E Hz]]. apply q_push_In in Hz as [->|Hz]; [apply Hn; left; congruence|].
    apply H2. rewrite <- E. apply in_map; auto.
  - apply IH; auto.
Qed.

Definition after_last (last : option pkey) (k : pkey) : Prop := match last with None => True | Some l => pl l k end.
Record QI (bound : N) (last : option pkey) (k : coll) : Prop := mkQI {
  qi_sorted : StronglySorted pl (k_queue k);
  qi_nd : NoDup (map snd (k_queue k));
  qi_el : forall r o, In (r, o) (k_queue k) ->
    (exists l, bm_lookup o (k_skip k) = Some l /\ ~ In r l) /\ bound < r /\ r < U32MAX /\ after_last last (r, o)
}.
Lemma QI_tail bound last r o q sk : QI bound last (mkColl ((r, o) :: q) sk) -> QI bound last (mkColl q sk).
Proof.
  intros [A B C]. cbn in *. constructor; cbn.
  - inversion A; auto.
  - inversion B; auto.
  - intros r' o' Hi. apply C; auto.
Qed.
(** what the queue becomes when its head has been read *)
Lemma QI_advance s P bound last r o q sk l : Inv s P -> QI bound last (mkColl ((r, o) :: q) sk) ->
  bm_lookup o sk = Some l ->
  QI bound (Some (r, o)) (mkColl (match next_of s o r l with Some r' => q_push (r', o) q | None => q end) sk).
Proof.
  intros HI [A B C] Hl. cbn [k_queue k_skip map snd] in *. destruct (C r o (or_introl eq_refl)) as [_ [Hb [Hfit _]]].
  inversion A as [|? ? As Af]; subst. rewrite Forall_forall in Af. inversion B as [|? ? Bn Bd]; subst.
  assert (Hq : forall r0 o0, In (r0, o0) q ->
    (exists l0, bm_lookup o0 sk = Some l0 /\ ~ In r0 l0) /\ bound < r0 /\ r0 < U32MAX /\ pl (r, o) (r0, o0)).
  { intros r0 o0 Hi. destruct (C r0 o0 (or_intror Hi)) as [X [Y [Z _]]]. auto. }
  pose proof (next_of_spec s P HI o r l Hfit) as Hn. destruct (next_of s o r l) as [r'|].
  - destruct Hn as [H1 [H2 [H3 _]]].
    constructor; cbn [k_queue k_skip].
    + apply q_push_sorted; auto. intros X. apply Bn. change o with (snd (r', o)). apply in_map; auto.
    + apply q_push_origins; auto.
    + intros r0 o0 Hi. apply q_push_In in Hi as [[= -> ->]|Hi]; [|apply Hq; auto].
      split; [exists l; auto|]. split; [lia|]. split; auto. cbn. apply plt_spec. cbn. lia.
  - constructor; cbn [k_queue k_skip]; auto.
Qed.
Lemma next_cert_sound s P bound : Inv s P -> forall fuel k last c k',
  QI bound last k -> next_cert fuel s k = (Some c, k') ->
  P c /\ k_skip k' = k_skip k /\ after_last last (key c) /\ bound < f_round c /\
  (exists l, bm_lookup (f_origin c) (k_skip k) = Some l /\ ~ In (f_round c) l) /\ QI bound (Some (key c)) k'.
Proof.
  intros HI. induction fuel as [|fuel IH]; intros [q sk] last c k' HQ E; [discriminate E|].
  cbn [next_cert k_queue k_skip] in E. destruct q as [|[r o] q]; [discriminate E|].
  destruct (cs_read_by_index o r s) as [c0|] eqn:Er.
  - apply (q_by_index s P HI) in Er as [Hp [Ho Hr]].
    destruct (bm_lookup o sk) as [l|] eqn:El; [|discriminate E]. injection E as -> <-. cbn [k_skip].
    pose proof (QI_advance s P bound last r o q sk l HI HQ El) as HQ'.
    destruct HQ as [_ _ C]. cbn in C. destruct (C r o (or_introl eq_refl)) as [[l0 [X1 X2]] [Hb [_ Hal]]].
    unfold key. rewrite Ho, Hr. split; auto. split; auto. split; auto. split; auto. split; [exists l0; auto|auto].
  - apply QI_tail in HQ. apply (IH _ last) in E; auto.
Qed.

(** for any stores at the calls: what is sent was stored when it was read, was asked for, and comes in ascending order *)
Lemma coll_run_sound bound : forall sched Ps k last, QI bound last k ->
  Forall2 (fun e P => Inv (fst e) P) sched Ps ->
  let out := coll_run sched k in
  StronglySorted slot_lt out /\ (forall c, In c out -> after_last last (key c)) /\
  (length out <= length sched)%nat /\
  Forall2 (fun c P => wanted P bound (fun o => bm_lookup o (k_skip k)) c) out (firstn (length out) Ps).
Proof.
  induction sched as [|[s up] sched IH]; intros Ps k last HQ HF; cbn [coll_run].
  - split; [constructor|]. split; [intros c []|]. split; [cbn; lia|]. constructor.
  - inversion HF as [|? P ? Ps' HI HF']; subst. cbn [fst] in HI.
    destruct up; [split; [constructor|]; split; [intros c []|]; split; [cbn; lia|]; constructor|].
    destruct (next_cert (S (length (k_queue k))) s k) as [[c|] k'] eqn:E;
      [|split; [constructor|]; split; [intros c []|]; split; [cbn; lia|]; constructor].
    apply (next_cert_sound s P bound HI _ k last) in E; auto.
    destruct E as [Hp [Hsk [Hal [Hb [Hl HQ']]]]].
    destruct (IH Ps' k' (Some (key c)) HQ' HF') as [A [B [C D]]]. cbn zeta in *. rewrite Hsk in D.
    split; [|split; [|split]].
    + constructor; auto. apply Forall_forall. intros x Hx. apply slot_lt_key. apply (B x Hx).
    + intros x [<-|Hx]; auto. specialize (B x Hx). cbn in B. destruct last as [l|]; cbn in *; auto. eapply pl_trans; eauto.
    + cbn. lia.
    + cbn [length firstn]. constructor; auto. split; auto.
Qed.

(** ---------- completeness ---------- *)
Definition readable (P : fcert -> Prop) (k : coll) : Prop := forall r o, In (r, o) (k_queue k) -> Has P o r.
(** the slots the queue still leads to *)
Definition remaining (k : coll) (o r : N) : Prop :=
  exists r0 l, In (r0, o) (k_queue k) /\ r0 <= r /\ bm_lookup o (k_skip k) = Some l /\ ~ In r l.
Lemma next_cert_complete s P bound k last c k' : Inv s P -> QI bound last k -> readable P k ->
  next_cert (S (length (k_queue k))) s k = (Some c, k') ->
  (forall o r, Has P o r -> remaining k o r -> (f_origin c = o /\ f_round c = r) \/ remaining k' o r) /\ readable P k'.
Proof.
  intros HI HQ HR E. destruct k as [q sk]. cbn [next_cert k_queue k_skip] in E.
  destruct q as [|[r o] q]; [discriminate E|].
  destruct (HR r o (or_introl eq_refl)) as [c0 Hc0]. pose proof Hc0 as Hc1.
  apply (q_by_index s P HI) in Hc0. rewrite Hc0 in E. destruct (bm_lookup o sk) as [l|] eqn:El; [|discriminate E].
  injection E as -> <-. destruct Hc1 as [Hp [Ho Hr]].
  destruct HQ as [A B C]. cbn in A, B, C. destruct (C r o (or_introl eq_refl)) as [_ [Hb [Hfit _]]].
  pose proof (next_of_spec s P HI o r l Hfit) as Hn. apply NoDup_cons_iff in B as [Bn Bd]. split.
  - intros o1 r1 [c1 [Hp1 [Ho1 Hr1]]] [r0 [l0 [Hi [Hle [Hl0 Hni]]]]]. cbn [k_queue k_skip] in *.
    destruct Hi as [Hi|Hi].
    + injection Hi as <- <-. rewrite El in Hl0. injection Hl0 as <-.
      destruct (N.eq_dec r r1) as [E1|Hne]; [left; split; [auto|congruence]|]. right.
      destruct (next_of s o r l) as [r'|].
      * destruct Hn as [_ [_ [_ [_ Hm]]]]. exists r', l. cbn [k_queue k_skip]. split; [apply q_push_In; auto|]. split; auto.
        rewrite <- Hr1. apply Hm; auto; rewrite Hr1; auto. lia.
      * exfalso. apply Hni. rewrite <- Hr1. apply Hn; auto. lia.
    + right. exists r0, l0. cbn [k_queue k_skip]. split; auto. destruct (next_of s o r l); auto. apply q_push_In; auto.
  - intros r1 o1 Hi. cbn [k_queue] in Hi. destruct (next_of s o r l) as [r'|].
    + destruct Hn as [_ [_ [_ [Hh _]]]]. apply q_push_In in Hi as [[= -> ->]|Hi]; auto. apply HR. right; auto.
    + apply HR. right; auto.
Qed.
Lemma next_cert_end s P k k' bound last : Inv s P -> QI bound last k -> readable P k ->
  next_cert (S (length (k_queue k))) s k = (None, k') -> k_queue k = [].
Proof.
  intros HI HQ HR E. destruct k as [[|[r o] q] sk]; auto. exfalso. cbn [next_cert k_queue k_skip] in E.
  destruct (HR r o (or_introl eq_refl)) as [c0 Hc0]. apply (q_by_index s P HI) in Hc0. rewrite Hc0 in E.
  destruct HQ as [_ _ C]. cbn in C. destruct (C r o (or_introl eq_refl)) as [[l [X _]] _]. rewrite X in E. discriminate E.
Qed.
(** stores that only gain slots from call to call *)
Fixpoint growing (P : fcert -> Prop) (Ps : list (fcert -> Prop)) : Prop :=
  match Ps with
  | [] => True
  | Q :: rest => (forall o r, Has P o r -> Has Q o r) /\ growing Q rest
  end.
Lemma coll_run_complete bound : forall sched Ps P0 k last, QI bound last k ->
  Forall2 (fun e P => Inv (fst e) P) sched Ps -> Forall (fun e => snd e = false) sched ->
  readable P0 k -> growing P0 Ps -> (length (coll_run sched k) < length sched)%nat ->
  forall o r, Has P0 o r -> remaining k o r ->
  exists c, In c (coll_run sched k) /\ f_origin c = o /\ f_round c = r.
Proof.
  induction sched as [|[s up] sched IH]; intros Ps P0 k last HQ HF HU HR HG Hlen o r Hh Hrem; [cbn in Hlen; lia|].
  inversion HF as [|? P ? Ps' HI HF']; subst. inversion HU as [|? ? Hup HU']; subst. cbn in Hup. subst up.
  cbn [fst] in HI. cbn [growing] in HG. destruct HG as [HG1 HG2].
  assert (HR1 : readable P k) by (intros r0 o0 Hi; apply HG1, HR; auto).
  cbn [coll_run] in *. destruct (next_cert (S (length (k_queue k))) s k) as [[c|] k'] eqn:E.
  - destruct (next_cert_complete s P bound k last c k' HI HQ HR1 E) as [Hc HR'].
    pose proof (next_cert_sound s P bound HI _ k last c k' HQ E) as [_ [Hsk [_ [_ [_ HQ']]]]].
    destruct (Hc o r (HG1 _ _ Hh) Hrem) as [[X Y]|X].
    + exists c. split; [left; auto|auto].
    + cbn in Hlen. destruct (IH Ps' P k' _ HQ' HF' HU' HR' HG2 ltac:(lia) o r (HG1 _ _ Hh) X) as [c1 [H1 H2]].
      exists c1. split; [right; auto|auto].
  - apply (next_cert_end s P k k' bound last) in E; auto. destruct Hrem as [r0 [l [Hi _]]]. rewrite E in Hi. destruct Hi.
Qed.

(** ---------- the start ---------- *)
Lemma init_queue_spec s P bound : Inv s P -> bound < U32MAX -> forall sk q,
  NoDup (map fst sk) -> StronglySorted pl q -> NoDup (map snd q) ->
  (forall x, In x q -> ~ In (snd x) (map fst sk)) ->
  let q' := fold_left (fun q e => match next_of s (fst e) bound (snd e) with
                                  | Some r => q_push (r, fst e) q | None => q end) sk q in
  StronglySorted pl q' /\ NoDup (map snd q') /\
  forall r o, In (r, o) q' <-> In (r, o) q \/ exists l, In (o, l) sk /\ next_of s o bound l = Some r.
Proof.
  intros HI Hb. induction sk as [|[o0 l0] sk IH]; intros q Hk Hq Hd Hn; cbn [fold_left].
  - cbn zeta. split; auto. split; auto. intros r o. split; auto. intros [X|[l [[] _]]]; auto.
  - cbn [fst snd map] in *. inversion Hk as [|? ? Hk1 Hk2]; subst.
    assert (Hno : ~ In o0 (map snd q)).
    { intros X. apply in_map_iff in X as [x [E Hx]]. apply (Hn x Hx). left; auto. }
    destruct (next_of s o0 bound l0) as [r0|] eqn:E.
    + destruct (IH (q_push (r0, o0) q) Hk2) as [A [B C]].
      * apply q_push_sorted; auto. intros X. apply Hno. change o0 with (snd (r0, o0)). apply in_map; auto.
      * apply q_push_origins; auto.
      * intros x Hx. apply q_push_In in Hx as [->|Hx]; auto. intros X. apply (Hn x Hx). right; auto.
      * cbn zeta in *. split; auto. split; auto. intros r o. rewrite C, q_push_In. split.
        -- intros [[[= -> ->]|X]|[l [X Y]]]; auto.
           ++ right. exists l0. split; [left; auto|auto].
           ++ right. exists l. split; [right; auto|auto].
        -- intros [X|[l [[[= -> ->]|X] Y]]]; auto.
           ++ left. left. congruence.
           ++ right. exists l. auto.
    + destruct (IH q Hk2 Hq Hd) as [A [B C]].
      * intros x Hx X. apply (Hn x Hx). right; auto.
      * cbn zeta in *. split; auto. split; auto. intros r o. rewrite C. split.
        -- intros [X|[l [X Y]]]; auto. right. exists l. split; [right; auto|auto].
        -- intros [X|[l [[[= -> ->]|X] Y]]]; auto; [congruence|]. right. exists l. auto.
Qed.
Lemma init_QI s P bound sk : Inv s P -> bound < U32MAX -> bm_sorted sk ->
  let k := mkColl (init_queue s bound sk) sk in
  QI bound None k /\ readable P k /\
  forall c, wanted P bound (fun o => bm_lookup o sk) c -> remaining k (f_origin c) (f_round c).
Proof.
  intros HI Hb Hs. cbn zeta. unfold init_queue.
  destruct (init_queue_spec s P bound HI Hb sk []) as [A [B C]].
  - apply bm_NoDup; auto.
  - constructor.
  - constructor.
  - intros x [].
  - cbn zeta in *. split; [|split].
    + constructor; cbn [k_queue k_skip]; auto. intros r o Hi. apply C in Hi as [[]|[l [Hl Hn]]].
      pose proof (next_of_spec s P HI o bound l Hb) as H. rewrite Hn in H. destruct H as [H1 [H2 [H3 _]]].
      split; [exists l; split; auto; apply bm_lookup_In; auto|]. split; auto. split; auto. cbn. auto.
    + intros r o Hi. cbn [k_queue] in Hi. apply C in Hi as [[]|[l [Hl Hn]]].
      pose proof (next_of_spec s P HI o bound l Hb) as H. rewrite Hn in H. tauto.
    + intros c [Hp [Hlt [l [Hl Hni]]]]. pose proof (next_of_spec s P HI (f_origin c) bound l Hb) as H.
      destruct (next_of s (f_origin c) bound l) as [r|] eqn:E.
      * destruct H as [_ [_ [_ [_ Hm]]]]. exists r, l. cbn. split; [apply C; right; exists l; split; auto; apply bm_lookup_In; auto|].
        split; auto.
      * exfalso. apply Hni. apply H; auto.
Qed.

(** ---------- the bounds of a request ---------- *)
Lemma bm_of_list_sorted_id_from {V} (l m : bmap V) : bm_sorted (m ++ l) ->
  fold_left (fun m kv => bm_insert (fst kv) (snd kv) m) l m = m ++ l.
Proof.
  revert m. induction l as [|[a b] l IH]; intros m Hs; cbn [fold_left fst snd].
  - rewrite app_nil_r; auto.
  - assert (E : bm_insert a b m = m ++ [(a, b)]).
    { clear IH. induction m as [|[x y] m IHm]; auto. cbn [app] in Hs. unfold bm_sorted, bm_keys in Hs. cbn in Hs.
      inversion Hs as [|? ? Hs1 Hf]; subst. rewrite Forall_forall in Hf.
      assert (Hlt : x < a) by (apply Hf; rewrite map_app; apply in_app_iff; right; left; auto).
      cbn [bm_insert]. destruct (N.ltb_spec a x); [lia|]. destruct (N.eqb_spec a x); [lia|]. cbn [app]. rewrite IHm; auto. }
    rewrite E, IH; rewrite <- app_assoc; auto.
Qed.
Lemma bm_of_list_sorted_id {V} (l : bmap V) : bm_sorted l -> bm_of_list l = l.
Proof. intros H. unfold bm_of_list. apply (bm_of_list_sorted_id_from l []); auto. Qed.
Lemma all_some_map {A B C} (f : B -> option C) (g : A -> B) (h : A -> C) l :
  (forall x, In x l -> f (g x) = Some (h x)) -> all_some f (map g l) = Some (map h l).
Proof.
  induction l as [|x l IH]; intros H; cbn; auto. rewrite (H x); [|left; auto]. rewrite IH; auto. intros; apply H; right; auto.
Qed.
Lemma all_some_length {A B} (f : A -> option B) l r : all_some f l = Some r -> length r = length l.
Proof.
  revert r. induction l as [|x l IH]; cbn; intros r; [intros [= <-]; auto|].
  destruct (f x); [|discriminate]. destruct (all_some f l) as [ys|] eqn:E; [|discriminate]. intros [= <-]. cbn. rewrite (IH ys); auto.
Qed.
Lemma all_some_In {A B} (f : A -> option B) l r y : all_some f l = Some r -> In y r -> exists x, In x l /\ f x = Some y.
Proof.
  revert r. induction l as [|x l IH]; cbn; intros r; [intros [= <-] []|].
  destruct (f x) as [b|] eqn:Ef; [|discriminate]. destruct (all_some f l) as [ys|]; [|discriminate]. intros [= <-] [<-|Hy].
  - exists x. auto.
  - destruct (IH ys eq_refl Hy) as [z [Hz E]]. exists z. auto.
Qed.
(** the written rounds a request is built from *)
Definition rounds_above (gc : N) (w : bmap (list N)) : Prop :=
  bm_sorted w /\ forall o l, In (o, l) w -> StronglySorted N.lt l /\ Forall (fun r => gc < r /\ r <= U32MAX) l.
Lemma header_sound b n : header_says b n -> container_count b = Some n.
Proof.
  intros [[Hn [rest ->]]|[Hn [rest ->]]]; unfold container_count, le_u32; cbn [firstn skipn app].
  - change (58 + 256 * 48 + 65536 * 0 + 16777216 * 0 =? 12346) with true. cbn iota. f_equal. unfold U32MAX in Hn. lia.
  - set (c := 59 + 256 * 48 + 65536 * ((n - 1) mod 256) + 16777216 * ((n - 1) / 256)).
    assert (E : c = 12347 + 65536 * (n - 1)) by (subst c; lia).
    destruct (N.eqb_spec c 12346); [lia|]. change 65535 with (N.ones 16). rewrite N.land_ones, N.shiftr_div_pow2.
    change (2 ^ 16) with 65536. destruct (N.eqb_spec (c mod 65536) 12347); [|lia]. f_equal. lia.
Qed.
Lemma header_complete b n : bytes b -> container_count b = Some n -> header_says b n.
Proof.
  assert (Si : forall a b : N, Some a = Some b -> a = b) by congruence.
  unfold container_count, le_u32. intros Hb.
  destruct b as [|b0 [|b1 [|b2 [|b3 b]]]]; cbn [firstn skipn]; try discriminate.
  inversion Hb as [|? ? H0 Hb1]; subst. inversion Hb1 as [|? ? H1 Hb2]; subst.
  inversion Hb2 as [|? ? H2 Hb3]; subst. inversion Hb3 as [|? ? H3 Hb4]; subst. clear Hb Hb1 Hb2 Hb3.
  set (c := b0 + 256 * b1 + 65536 * b2 + 16777216 * b3).
  destruct (N.eqb_spec c 12346) as [E|E].
  - assert (b0 = 58 /\ b1 = 48 /\ b2 = 0 /\ b3 = 0) as [-> [-> [-> ->]]] by (subst c; lia).
    destruct b as [|c0 [|c1 [|c2 [|c3 b]]]]; cbn [firstn]; try discriminate.
    intros Hq. apply Si in Hq. subst n. left. inversion Hb4 as [|? ? G0 Hc1]; subst. inversion Hc1 as [|? ? G1 Hc2]; subst.
    inversion Hc2 as [|? ? G2 Hc3]; subst. inversion Hc3 as [|? ? G3 Hc4]; subst.
    clear -G0 G1 G2 G3. unfold U32MAX. split; [lia|]. exists b. cbn [app].
    assert (E3 : (c0 + 256 * c1 + 65536 * c2 + 16777216 * c3) / 16777216 = c3).
    { symmetry. apply (N.div_unique _ _ _ (c0 + 256 * c1 + 65536 * c2)); lia. }
    assert (E2 : (c0 + 256 * c1 + 65536 * c2 + 16777216 * c3) / 65536 mod 256 = c2).
    { replace ((c0 + 256 * c1 + 65536 * c2 + 16777216 * c3) / 65536) with (c2 + 256 * c3).
      - symmetry. apply (N.mod_unique _ _ c3); lia.
      - apply (N.div_unique _ _ _ (c0 + 256 * c1)); lia. }
    assert (E1 : (c0 + 256 * c1 + 65536 * c2 + 16777216 * c3) / 256 mod 256 = c1).
    { replace ((c0 + 256 * c1 + 65536 * c2 + 16777216 * c3) / 256) with (c1 + 256 * c2 + 65536 * c3).
      - symmetry. apply (N.mod_unique _ _ (c2 + 256 * c3)); lia.
      - apply (N.div_unique _ _ _ c0); lia. }
    assert (E0 : (c0 + 256 * c1 + 65536 * c2 + 16777216 * c3) mod 256 = c0).
    { symmetry. apply (N.mod_unique _ _ (c1 + 256 * c2 + 65536 * c3)); lia. }
    rewrite E0, E1, E2, E3. reflexivity.
  - change 65535 with (N.ones 16). rewrite N.land_ones, N.shiftr_div_pow2. change (2 ^ 16) with 65536.
    destruct (N.eqb_spec (c mod 65536) 12347) as [E'|]; [|discriminate]. intros Hq. apply Si in Hq. subst n. right.
    assert (b0 = 59 /\ b1 = 48) as [-> ->] by (subst c; lia).
    split; [subst c; lia|]. exists b. cbn [app].
    assert (E0 : (c / 65536 + 1 - 1) mod 256 = b2) by (subst c; lia).
    assert (E1 : (c / 65536 + 1 - 1) / 256 = b3) by (subst c; lia).
    rewrite E0, E1. reflexivity.
Qed.
Lemma bounds_round_trip ser deser gc w max_skip max_auth : roaring_ok ser deser -> rounds_above gc w ->
  N.of_nat (length w) <= max_auth -> (forall o l, In (o, l) w -> N.of_nat (length l) <= max_skip) ->
  get_bounds deser max_skip max_auth (set_bounds ser gc w) = Some (gc, w).
Proof.
  intros HR [Hs Hw] Hn Hl. unfold get_bounds, set_bounds. cbn [rq_skip rq_bound]. rewrite map_length.
  destruct (N.leb_spec (N.of_nat (length w)) max_auth); [|lia].
  rewrite (all_some_map _ _ (fun e => e)).
  - rewrite map_id, bm_of_list_sorted_id; auto.
  - intros [o l] Hi. destruct (Hw o l Hi) as [Hsl Hfl]. rewrite Forall_forall in Hfl.
    unfold decode_entry. cbn [fst snd].
    assert (Hu : u32_set (map (fun v => v - gc) l)).
    { split.
      - clear Hi. induction Hsl as [|x l Hsl IH Hf]; cbn; [constructor|]. constructor.
        + apply IH. intros y Hy. apply Hfl. right; auto.
        + rewrite Forall_forall in *. intros y Hy. apply in_map_iff in Hy as [z [<- Hz]].
          specialize (Hf z Hz). pose proof (Hfl x (or_introl eq_refl)). pose proof (Hfl z (or_intror Hz)). lia.
      - apply Forall_forall. intros y Hy. apply in_map_iff in Hy as [z [<- Hz]]. specialize (Hfl z Hz). lia. }
    destruct (HR _ Hu) as [Hd [n [Hc Hle]]]. rewrite (header_sound _ _ Hc). rewrite map_length in Hle. specialize (Hl o l Hi).
    destruct (N.leb_spec n max_skip); [|lia]. rewrite Hd, map_length.
    destruct (N.leb_spec (N.of_nat (length l)) max_skip); [|lia].
    rewrite (all_some_map _ _ (fun v => v)); [rewrite map_id; auto|].
    intros v Hv. specialize (Hfl v Hv). unfold checked_add. destruct (N.leb_spec (gc + (v - gc)) U32MAX); [f_equal; lia|lia].
Qed.
Lemma bm_of_list_In {V} (l : list (N * V)) x : In x (bm_of_list l) -> In x l.
Proof.
  unfold bm_of_list. assert (G : forall m, In x (fold_left (fun m kv => bm_insert (fst kv) (snd kv) m) l m) -> In x m \/ In x l).
  { induction l as [|[a b] l IH]; intros m; cbn; auto. intros H. apply IH in H as [H|H]; auto.
    assert (In x m \/ x = (a, b)) as [X|X]; auto.
    clear -H. induction m as [|[p q] m IHm]; cbn in H; [destruct H as [<-|[]]; auto|].
    destruct (a <? p); [destruct H as [<-|H]; cbn; auto|]. destruct (a =? p); [destruct H as [<-|H]; cbn; auto|].
    destruct H as [<-|H]; cbn; auto. destruct (IHm H); auto. }
  intros H. apply G in H as [[]|H]; auto.
Qed.
Lemma bounds_limits deser max_skip max_auth q bound sk : get_bounds deser max_skip max_auth q = Some (bound, sk) ->
  bound = rq_bound q /\ N.of_nat (length (rq_skip q)) <= max_auth /\ bm_sorted sk /\
  forall o l, In (o, l) sk -> N.of_nat (length l) <= max_skip /\ Forall (fun r => bound <= r /\ r <= U32MAX) l.
Proof.
  unfold get_bounds. destruct (N.leb_spec (N.of_nat (length (rq_skip q))) max_auth) as [Hle|]; [|discriminate].
  destruct (all_some _ _) as [es|] eqn:E; [|discriminate]. intros [= <- <-]. split; auto. split; auto.
  split; [apply bm_of_list_sorted|]. intros o l Hi. apply bm_of_list_In in Hi.
  destruct (all_some_In _ _ _ _ E Hi) as [[o1 b] [_ Hd]]. unfold decode_entry in Hd. cbn [fst snd] in Hd.
  destruct (container_count b) as [n|]; [|discriminate]. destruct (n <=? max_skip); [|discriminate].
  destruct (deser b) as [vs|]; [|discriminate]. destruct (N.leb_spec (N.of_nat (length vs)) max_skip) as [Hv|]; [|discriminate].
  destruct (all_some (checked_add (rq_bound q)) vs) as [rs|] eqn:Er; [|discriminate]. injection Hd as -> <-.
  rewrite (all_some_length _ _ _ Er). split; auto. apply Forall_forall. intros r Hr.
  destruct (all_some_In _ _ _ _ Er Hr) as [x [_ Hx]]. unfold checked_add in Hx.
  destruct (N.leb_spec (rq_bound q + x) U32MAX); [|discriminate]. injection Hx as <-. lia.
Qed.
Lemma coll_new_ok deser s max_skip max_auth q bound sk : get_bounds deser max_skip max_auth q = Some (bound, sk) ->
  coll_new deser s max_skip max_auth q = Some (mkColl (init_queue s bound sk) sk).
Proof.
  intros E. unfold coll_new. rewrite E.
  destruct (existsb (fun e => max_skip <? N.of_nat (length (snd e))) sk) eqn:Ex; auto. exfalso.
  apply existsb_exists in Ex as [[o l] [Hi Hx]]. apply bounds_limits in E as [_ [_ [_ Hb]]].
  destruct (Hb o l Hi) as [Hc _]. cbn in Hx. lia.
Qed.
