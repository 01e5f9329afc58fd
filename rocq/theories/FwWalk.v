(** One transaction across the validators (C60). *)
From Verif Require Import Util FwModel FwSpec.
From Coq Require Import String Ascii.
Import List ListNotations.
Local Open Scope N_scope.

Definition touch (k : N) (s : wst) : wst := mkW (w_t s) (k :: w_tried s) (w_held s) (w_un s) (w_demo s) (w_lift s) (w_dials s).
Definition after (rd : reply * N) (k u : N) (s : wst) : wst :=
  mkW (w_t s + cost rd) (k :: w_tried s)
      (match w_held s with Some w => Some w | None => match counts_as rd with Rejected w => Some w | _ => None end end)
      (match counts_as rd with Unreachable => u :: w_un s | _ => w_un s end)
      (match counts_as rd with Unreachable => w_demo s ++ [(u, w_t s + cost rd)] | _ => w_demo s end)
      (w_lift s) (w_dials s ++ [mkDial k u (w_t s) (counts_as rd)]).

Section W.
Variable env : N -> reply * N.
Variable prov : bmap N.
Variable lim : N.
Variable P : list N -> wst -> wres -> wst -> Prop.
Hypothesis Hnil : forall s, P [] s (WDone (match w_held s with Some r => ORejected r | None => ONone end)) s.
Hypothesis HskipA : forall k rest s r s', In k (w_tried s) -> P rest s r s' -> P (k :: rest) s r s'.
Hypothesis HskipB : forall k rest s r s', ~ In k (w_tried s) ->
  (bm_lookup k prov = None \/ exists u, bm_lookup k prov = Some u /\ In u (w_un s)) ->
  P rest (touch k s) r s' -> P (k :: rest) s r s'.
Hypothesis Hcut : forall k rest s u, ~ In k (w_tried s) -> bm_lookup k prov = Some u -> ~ In u (w_un s) ->
  lim < w_t s + cost (env k) -> P (k :: rest) s (WCut k) (touch k s).
Hypothesis Hdeliv : forall k rest s u, ~ In k (w_tried s) -> bm_lookup k prov = Some u -> ~ In u (w_un s) ->
  w_t s + cost (env k) <= lim -> counts_as (env k) = Delivered -> P (k :: rest) s (WDone ODelivered) (after (env k) k u s).
Hypothesis Hreject : forall k rest s u why w0, ~ In k (w_tried s) -> bm_lookup k prov = Some u -> ~ In u (w_un s) ->
  w_t s + cost (env k) <= lim -> counts_as (env k) = Rejected why -> w_held s = Some w0 ->
  P (k :: rest) s (WDone (ORejected why)) (after (env k) k u s).
Hypothesis Hgo : forall k rest s u r s', ~ In k (w_tried s) -> bm_lookup k prov = Some u -> ~ In u (w_un s) ->
  w_t s + cost (env k) <= lim -> counts_as (env k) <> Delivered ->
  (forall why, counts_as (env k) = Rejected why -> w_held s = None) ->
  P rest (after (env k) k u s) r s' -> P (k :: rest) s r s'.

Lemma walk_cases ord : forall s r s', walk env prov lim ord s = (r, s') -> P ord s r s'.
Proof using All.
  induction ord as [|k rest IH]; intros s r s' E; cbn [walk] in E.
  { inversion E; subst. apply Hnil. }
  destruct (memN k (w_tried s)) eqn:M.
  { apply memN_In in M. apply HskipA; auto. }
  apply memN_nIn in M. cbn [w_t w_tried w_held w_un w_demo w_lift w_dials] in E.
  destruct (bm_lookup k prov) as [u|] eqn:L; [|apply HskipB; auto].
  destruct (memN u (w_un s)) eqn:U.
  { apply memN_In in U. apply HskipB; eauto. }
  pose proof U as U'. apply memN_nIn in U'.
  assert (Ec : cost (env k) = N.min (snd (env k)) 5000) by reflexivity.
  assert (Ed : counts_as (env k) = (if SEND_TIMEOUT <? snd (env k) then Unreachable else classify (fst (env k)))) by reflexivity.
  destruct (env k) as [rp d] eqn:Ek. cbn [fst snd] in Ec, Ed. change SEND_TIMEOUT with 5000 in *. rewrite <- Ec in E. rewrite <- Ed in E.
  destruct (N.ltb_spec lim (w_t s + cost (rp, d))) as [HL|HL].
  { inversion E; subst. apply (Hcut k rest s u); auto. rewrite Ek. auto. }
  rewrite <- Ek in *.
  destruct (counts_as (env k)) as [|why| |] eqn:C.
  - inversion E; subst. replace (mkW _ _ _ _ _ _ _) with (after (env k) k u s) by (unfold after; rewrite C; destruct (w_held s); reflexivity).
    apply (Hdeliv k rest s u); auto.
  - destruct (w_held s) as [w0|] eqn:H0.
    + inversion E; subst. replace (mkW _ _ _ _ _ _ _) with (after (env k) k u s) by (unfold after; rewrite C, H0; reflexivity).
      apply (Hreject k rest s u why w0); auto.
    + apply (Hgo k rest s u); auto; [congruence|].
      replace (after (env k) k u s) with (mkW (w_t s + cost (env k)) (k :: w_tried s) (Some why) (w_un s) (w_demo s) (w_lift s) (w_dials s ++ [mkDial k u (w_t s) (Rejected why)]))
        by (unfold after; rewrite C, H0; reflexivity).
      apply IH; auto.
  - apply (Hgo k rest s u); auto; [congruence|congruence|].
    replace (after (env k) k u s) with (mkW (w_t s + cost (env k)) (k :: w_tried s) (w_held s) (w_un s) (w_demo s) (w_lift s) (w_dials s ++ [mkDial k u (w_t s) TryNext]))
      by (unfold after; rewrite C; destruct (w_held s); reflexivity).
    apply IH; auto.
  - apply (Hgo k rest s u); auto; [congruence|congruence|].
    replace (after (env k) k u s) with (mkW (w_t s + cost (env k)) (k :: w_tried s) (w_held s) (u :: w_un s) (w_demo s ++ [(u, w_t s + cost (env k))]) (w_lift s) (w_dials s ++ [mkDial k u (w_t s) Unreachable]))
      by (unfold after; rewrite C; destruct (w_held s); reflexivity).
    apply IH; auto.
Qed.
End W.

(** every validator of [ord] was asked, or has no usable endpoint, or its endpoint is known to be unreachable *)
Definition exhausted (prov : bmap N) (ord tried un : list N) (nd : list dial) : Prop :=
  forall k, In k ord -> ~ In k tried ->
    In k (map d_key nd) \/ bm_lookup k prov = None \/ exists u, bm_lookup k prov = Some u /\ (In u un \/ unreach nd u).
Definition first_rejection (held : option string) (nd : list dial) : option string :=
  match held with Some w => Some w | None => match rejections nd with d :: _ => match d_disp d with Rejected w => Some w | _ => None end | [] => None end end.
(** no send to an endpoint already known to be unreachable *)
Definition no_redial (un : list N) (nd : list dial) : Prop :=
  forall a d b, nd = a ++ d :: b -> ~ In (d_url d) un /\ ~ unreach a (d_url d).

Record wspec (env : N -> reply * N) (prov : bmap N) (lim : N) (ord : list N) (s : wst) (r : wres) (s' : wst) (nd : list dial) : Prop := {
  ws_dials : w_dials s' = w_dials s ++ nd;
  ws_sub : subseq (map d_key nd) ord;
  ws_nodup : NoDup (map d_key nd);
  ws_untried : forall d, In d nd -> ~ In (d_key d) (w_tried s);
  ws_made : Forall (made env prov) nd;
  ws_un : forall u, In u (w_un s') <-> In u (w_un s) \/ unreach nd u;
  ws_redial : no_redial (w_un s) nd;
  ws_lift : w_lift s' = w_lift s;
  ws_demo : w_demo s' = w_demo s ++ demos env nd;
  ws_time : in_turn env (w_t s) nd (w_t s');
  ws_lim : w_t s <= lim -> w_t s' <= lim;
  ws_held : w_held s' = first_rejection (w_held s) nd;
  ws_order : forall a d b p q, nd = a ++ d :: b -> ord = p ++ d_key d :: q -> ~ In (d_key d) p -> exhausted prov p (w_tried s) (w_un s) a;
  ws_res : match r with
           | WDone ODelivered => exists a d, nd = a ++ [d] /\ d_disp d = Delivered /\ no_delivery a /\
                 (length (rejections a) + (if w_held s then 1 else 0) <= 1)%nat
           | WDone (ORejected why) => no_delivery nd /\
               ((exists a d, nd = a ++ [d] /\ d_disp d = Rejected why /\
                   (length (rejections a) + (if w_held s then 1 else 0) = 1)%nat) \/
                (exhausted prov ord (w_tried s) (w_un s) nd /\ first_rejection (w_held s) nd = Some why /\
                   (length (rejections nd) + (if w_held s then 1 else 0) = 1)%nat))
           | WDone ONone => no_delivery nd /\ rejections nd = [] /\ w_held s = None /\ exhausted prov ord (w_tried s) (w_un s) nd
           | WCut k => no_delivery nd /\ (length (rejections nd) + (if w_held s then 1 else 0) <= 1)%nat /\
               In k ord /\ ~ In k (w_tried s) /\ ~ In k (map d_key nd) /\ lim < w_t s' + cost (env k) /\
               (exists u, bm_lookup k prov = Some u /\ ~ In u (w_un s')) /\
               (forall p q, ord = p ++ k :: q -> ~ In k p -> exhausted prov p (w_tried s) (w_un s) nd)
           end }.
Lemma exhausted_nil prov tried un nd : exhausted prov [] tried un nd.
Proof. intros k []. Qed.

Lemma subseq_in {A} (a b : list A) x : subseq a b -> In x a -> In x b.
Proof. induction 1; cbn; intros H1; [contradiction|destruct H1; auto|auto]. Qed.
Lemma subseq_refl {A} (l : list A) : subseq l l.
Proof. induction l; constructor; auto. Qed.

Lemma wspec_skip env prov lim k rest s s1 r s' nd :
  w_t s1 = w_t s -> w_held s1 = w_held s -> w_un s1 = w_un s -> w_demo s1 = w_demo s -> w_lift s1 = w_lift s -> w_dials s1 = w_dials s ->
  (forall x, In x (w_tried s1) <-> In x (w_tried s) \/ (x = k /\ In k (w_tried s1))) ->
  (~ In k (w_tried s) -> In k (w_tried s1) /\ (bm_lookup k prov = None \/ exists u, bm_lookup k prov = Some u /\ In u (w_un s))) ->
  wspec env prov lim rest s1 r s' nd -> wspec env prov lim (k :: rest) s r s' nd.
Proof.
  intros Et Eh Eu Edm El Ed Htr Hk [].
  rewrite Et, Eh, Eu, Edm, El, Ed in *.
  assert (X : forall l un, exhausted prov l (w_tried s1) (w_un s) un -> exhausted prov (k :: l) (w_tried s) (w_un s) un).
  { intros l nd0 HX x Hx Hn. destruct Hx as [<-|Hx].
    - destruct (Hk Hn) as [_ [A|(u & A & B)]]; [auto|]. right. right. exists u. auto.
    - destruct (N.eq_dec x k) as [->|Ne].
      + destruct (Hk Hn) as [_ [A|(u & A & B)]]; [auto|]. right. right. exists u. auto.
      + apply HX; auto. rewrite Htr. intros [A|[A _]]; auto. }
  constructor; auto.
  - constructor. auto.
  - intros d Hd Hin. apply (ws_untried0 d Hd). rewrite Htr. auto.
  - intros a d b [|y p] q En Eo Hp; [apply exhausted_nil|]. injection Eo as <- Eo. apply X. apply (ws_order0 a d b p q); auto.
    intros Y. apply Hp. right. exact Y.
  - destruct r as [[|why|]|c].
    + exact ws_res0.
    + destruct ws_res0 as [A [B|(B & C & D)]]; split; auto.
    + destruct ws_res0 as (A & B & C & D). auto.
    + destruct ws_res0 as (A & B & C & D & F & G & I & J). split; [auto|split; [auto|split; [right; auto|split; [|split; [auto|split; [auto|split; [auto|]]]]]]].
      * intros Hin. apply D. rewrite Htr. auto.
      * intros [|y p] q Eo Hp; [apply exhausted_nil|]. injection Eo as <- Eo. apply X. apply (J p q); auto.
        intros Y. apply Hp. right. exact Y.
Qed.
Lemma unreach_cons d nd u : unreach (d :: nd) u <-> (d_url d = u /\ d_disp d = Unreachable) \/ unreach nd u.
Proof.
  unfold unreach. split.
  - intros (x & [<-|H] & A & B); [left; auto|right; exists x; auto].
  - intros [[A B]|(x & H & A & B)]; [exists d; cbn; auto|exists x; cbn; auto].
Qed.
Lemma first_rejection_cons held d nd :
  first_rejection held (d :: nd) = first_rejection (match held with Some w => Some w | None => match d_disp d with Rejected w => Some w | _ => None end end) nd.
Proof.
  unfold first_rejection, rejections. cbn [filter]. unfold is_rejection at 1. destruct held; [reflexivity|].
  destruct (d_disp d) eqn:E; try reflexivity. rewrite E. reflexivity.
Qed.
Lemma no_redial_cons un d nd : ~ In (d_url d) un ->
  no_redial (match d_disp d with Unreachable => d_url d :: un | _ => un end) nd -> no_redial un (d :: nd).
Proof.
  intros H0 H a x b E. destruct a as [|y a]; cbn in E.
  - injection E as <- <-. split; auto. intros (z & [] & _).
  - injection E as <- ->. destruct (H a x b eq_refl) as [A B].
    destruct (d_disp d) eqn:Ed; rewrite unreach_cons.
    all: split; [try exact A; intros X; apply A; right; exact X|].
    all: intros [[X Y]|X]; [|exact (B X)]; try congruence. apply A. left. exact X.
Qed.
Lemma subseq_cons_skip {A} (a l : list A) x : subseq a l -> subseq a (x :: l).
Proof. intros H. destruct a; constructor; auto. Qed.

Lemma walk_spec env prov lim ord s r s' : walk env prov lim ord s = (r, s') -> exists nd, wspec env prov lim ord s r s' nd.
Proof.
  revert ord s r s'.
  apply (walk_cases env prov lim (fun ord s r s' => exists nd, wspec env prov lim ord s r s' nd)).
  - intros s. exists []. constructor; try (cbn; auto; fail).
    + rewrite app_nil_r. auto.
    + constructor.
    + constructor.
    + intros u. split; auto. intros [H|(d & [] & _)]. auto.
    + intros a d b H. destruct a; discriminate H.
    + rewrite app_nil_r. auto.
    + unfold first_rejection. cbn. destruct (w_held s); auto.
    + intros a d b p q H. destruct a; discriminate H.
    + assert (X : exhausted prov [] (w_tried s) (w_un s) []) by (intros k []).
      destruct (w_held s) as [w|]; cbn.
      * split; [constructor|]. right. auto.
      * split; [constructor|]. auto.
  - intros k rest s r s' Hin [nd H]. exists nd. eapply (wspec_skip env prov lim k rest s s); eauto.
    + intros x. split; auto. intros [A|[-> A]]; auto.
    + intros A. contradiction.
  - intros k rest s r s' Hn Hk [nd H]. exists nd. eapply (wspec_skip env prov lim k rest s (touch k s)); eauto; try reflexivity.
    + intros x. unfold touch. cbn. intuition.
    + intros _. split; [left; reflexivity|]. auto.
  - intros k rest s u Hn L U HL. exists []. constructor; try (cbn; auto; fail).
    + rewrite app_nil_r. reflexivity.
    + constructor.
    + constructor.
    + intros x. split; [intros H; left; exact H|]. intros [H|(d & [] & _)]. exact H.
    + intros a d b H. destruct a; discriminate H.
    + cbn. rewrite app_nil_r. auto.
    + unfold first_rejection. cbn. destruct (w_held s); auto.
    + intros a d b p q H. destruct a; discriminate H.
    + cbn. split; [constructor|]. split; [destruct (w_held s); lia|]. split; auto. split; auto. split; auto. split; auto. split; [exists u; auto|].
      intros [|y p] q Eo Hp; [apply exhausted_nil|]. injection Eo as <- Eo. destruct Hp. left. reflexivity.
  - intros k rest s u Hn L U HL C. exists [mkDial k u (w_t s) (counts_as (env k))]. constructor; cbn [after w_t w_tried w_held w_un w_demo w_lift w_dials]; auto.
    + cbn. constructor. constructor.
    + cbn. repeat constructor. intros [].
    + cbn. intros d [<-|[]]. auto.
    + constructor; [split; [exact L|reflexivity]|constructor].
    + intros x. rewrite C. rewrite unreach_cons. cbn. split; auto. intros [A|[[_ A]|(d & [] & _)]]; auto. congruence.
    + apply no_redial_cons; auto. intros a d b H. destruct a; discriminate H.
    + cbn. rewrite C. rewrite app_nil_r. auto.
    + cbn. auto.
    + rewrite first_rejection_cons. cbn [d_disp]. unfold first_rejection. cbn. destruct (w_held s), (counts_as (env k)); reflexivity.
    + intros a d b p q H Ho Hp. assert (Ed : a = [] /\ d = mkDial k u (w_t s) (counts_as (env k))).
      { destruct a as [|y [|]]; cbn in H; inversion H; auto. }
      destruct Ed as [_ ->]. cbn [d_key] in *. destruct p as [|y p]; [apply exhausted_nil|]. injection Ho as <- Ho. destruct Hp. left. reflexivity.
    + exists [], (mkDial k u (w_t s) (counts_as (env k))). split; [reflexivity|]. split; [exact C|]. split; [constructor|]. cbn. destruct (w_held s); lia.
  - intros k rest s u why w0 Hn L U HL C Hh. exists [mkDial k u (w_t s) (counts_as (env k))]. constructor; cbn [after w_t w_tried w_held w_un w_demo w_lift w_dials]; auto.
    + cbn. constructor. constructor.
    + cbn. repeat constructor. intros [].
    + cbn. intros d [<-|[]]. auto.
    + constructor; [split; [exact L|reflexivity]|constructor].
    + intros x. rewrite C. rewrite unreach_cons. cbn. split; auto. intros [A|[[_ A]|(d & [] & _)]]; auto. congruence.
    + apply no_redial_cons; auto. intros a d b H. destruct a; discriminate H.
    + cbn. rewrite C. rewrite app_nil_r. auto.
    + cbn. auto.
    + rewrite C, Hh. reflexivity.
    + intros a d b p q H Ho Hp. assert (Ed : a = [] /\ d = mkDial k u (w_t s) (counts_as (env k))).
      { destruct a as [|y [|]]; cbn in H; inversion H; auto. }
      destruct Ed as [_ ->]. cbn [d_key] in *. destruct p as [|y p]; [apply exhausted_nil|]. injection Ho as <- Ho. destruct Hp. left. reflexivity.
    + split; [constructor; [cbn; congruence|constructor]|]. left. exists [], (mkDial k u (w_t s) (counts_as (env k))).
      split; [reflexivity|]. split; [exact C|]. rewrite Hh. reflexivity.
  - intros k rest s u r s' Hn L U HL C Hh [nd H]. destruct H.
    cbn [after w_t w_tried w_held w_un w_demo w_lift w_dials] in *.
    set (d := mkDial k u (w_t s) (counts_as (env k))) in *.
    assert (Rn : (length (rejections (d :: nd)) + (if w_held s then 1 else 0) =
                  length (rejections nd) + (if (match w_held s with Some w => Some w | None => match counts_as (env k) with Rejected w => Some w | _ => None end end) then 1 else 0))%nat).
    { unfold rejections. cbn [filter]. unfold is_rejection at 1. subst d. cbn [d_disp].
      destruct (counts_as (env k)) as [|why| |] eqn:Ec; cbn [length].
      - destruct (w_held s); lia.
      - rewrite (Hh why); auto. lia.
      - destruct (w_held s); lia.
      - destruct (w_held s); lia. }
    assert (X : forall l nd, exhausted prov l (k :: w_tried s) (match counts_as (env k) with Unreachable => u :: w_un s | _ => w_un s end) nd ->
                exhausted prov (k :: l) (w_tried s) (w_un s) (d :: nd)).
    { clear. intros l nd HX x Hx Hnx. destruct (N.eq_dec x k) as [->|Ne]; [left; left; reflexivity|].
      destruct Hx as [<-|Hx]; [destruct Ne; reflexivity|].
      destruct (HX x Hx) as [A|[A|(v & A & B)]]; [intros [Y|Y]; auto|left; right; auto|right; left; auto|].
      right. right. exists v. split; auto. rewrite unreach_cons. subst d. cbn [d_url d_disp].
      destruct (counts_as (env k)) eqn:Ec; try (destruct B; auto; fail).
      destruct B as [[->|B]|B]; auto. }
    exists (d :: nd). constructor; auto.
    + rewrite ws_dials0. rewrite <- app_assoc. reflexivity.
    + cbn. constructor. auto.
    + cbn. constructor; auto. rewrite in_map_iff. intros (x & Ex & Hx). apply (ws_untried0 x Hx). left. auto.
    + intros x [<-|Hx]; [exact Hn|]. intros Hin. apply (ws_untried0 x Hx). right. exact Hin.
    + constructor; auto. split; [exact L|reflexivity].
    + intros x. rewrite ws_un0, unreach_cons. subst d. cbn [d_url d_disp]. destruct (counts_as (env k)); cbn; intuition congruence.
    + apply no_redial_cons; auto.
    + rewrite ws_demo0. cbn [demos]. subst d. cbn [d_disp d_url d_at d_key]. destruct (counts_as (env k)); auto. rewrite <- app_assoc. reflexivity.
    + cbn. auto.
    + rewrite first_rejection_cons. exact ws_held0.
    + intros [|y a] x b [|z p] q En Eo Hp; try apply exhausted_nil.
      * injection En as <- <-. injection Eo as <- Eo. destruct Hp. left. reflexivity.
      * injection En as <- En. injection Eo as <- Eo. apply X. apply (ws_order0 a x b p q); auto. intros Y. apply Hp. right. exact Y.
    + assert (Nd : d_disp d <> Delivered) by exact C.
      destruct r as [[|why|]|c].
      * destruct ws_res0 as (a & x & -> & A & B & D). exists (d :: a), x. split; [reflexivity|]. split; auto. split; [constructor; auto|].
        revert D Rn. unfold rejections. cbn [filter app]. rewrite ?filter_app. cbn [filter].
        replace (is_rejection x) with false by (unfold is_rejection; rewrite A; reflexivity). rewrite ?app_nil_r.
        destruct (is_rejection d); cbn [length]; rewrite ?app_nil_r; lia.
      * destruct ws_res0 as [A [(a & x & -> & B & D)|(B & D & F)]]; split; try (constructor; auto; fail).
        -- left. exists (d :: a), x. split; [reflexivity|]. split; auto.
           revert D Rn. unfold rejections. cbn [filter app]. rewrite ?filter_app. cbn [filter].
           replace (is_rejection x) with true by (unfold is_rejection; rewrite B; reflexivity).
           destruct (is_rejection d); cbn [length]; rewrite ?app_length; cbn [length]; lia.
        -- right. split; [auto|]. split; [rewrite first_rejection_cons; exact D|]. rewrite Rn. exact F.
      * destruct ws_res0 as (A & B & D & F). split; [constructor; auto|].
        destruct (w_held s) as [w|] eqn:E0; [discriminate D|].
        split; [|split; auto]. unfold rejections. cbn [filter].
        replace (is_rejection d) with false; [exact B|]. unfold is_rejection. subst d. cbn [d_disp].
        destruct (counts_as (env k)); auto. discriminate D.
      * destruct ws_res0 as (A & B & D & F & G & I & J & K). split; [constructor; auto|]. split; [rewrite Rn; exact B|].
        split; [right; auto|]. split; [intros Y; apply F; right; exact Y|].
        split; [intros [Y|Y]; [|auto]; apply F; left; exact Y|]. split; [auto|]. split; [auto|].
        intros [|z p] q Eo Hp; [apply exhausted_nil|]. injection Eo as <- Eo. apply X. apply (K p q); auto. intros Y. apply Hp. right. exact Y.
Qed.
