(** Serving and fetching. *)
From Verif Require Import Util WireModel WireSpec WireProofs BatModel BatSpec BatProofs BatProofs2.
Local Open Scope N_scope.

Section S.
Variable H : bytes -> bytes.
Notation digest := (BatModel.digest H).

Definition fits_frame (b : batch) : Prop := frame_len b <= max_frame.
Lemma send_ok bs : Forall fits_frame bs -> send bs = map (fun b => FData (put_batch b)) bs ++ [FEnd].
Proof.
  induction bs as [|b t IH]; intros F; [reflexivity|]. inversion F as [|? ? Fb Ft]; subst. cbn [send map app].
  unfold fits_frame in Fb. destruct (N.leb_spec (frame_len b) max_frame); [rewrite (IH Ft); reflexivity|lia].
Qed.
Lemma read_map req : forall bs acc, Forall batch_wf bs -> NoDup (map fst acc ++ map digest bs) -> NoDup req ->
  (forall d, In d (map fst acc ++ map digest bs) -> In d req) ->
  read_sync H req (map (fun b => FData (put_batch b)) bs ++ [FEnd]) acc = Some (acc ++ map (fun b => (digest b, b)) bs).
Proof.
  induction bs as [|b t IH]; intros acc W Nd Ndr Sub; cbn [map app read_sync]; [rewrite app_nil_r; reflexivity|].
  inversion W as [|? ? Wb Wt]; subst.
  assert (L : (length (map fst acc ++ map digest (b :: t)) <= length req)%nat) by (apply NoDup_incl_length; [exact Nd|exact Sub]).
  rewrite app_length in L. cbn [map length] in L. rewrite map_length in L.
  destruct (Nat.leb_spec (length req) (length acc)); [lia|].
  rewrite (reads_from _ _ _ (batch_reads b Wb)).
  assert (M : mem (digest b) req = true) by (apply mem_In, Sub, in_app_iff; right; left; reflexivity). rewrite M. cbn [negb].
  assert (M2 : mem (digest b) (map fst acc) = false).
  { apply mem_nIn. intros I. cbn [map] in Nd. apply NoDup_remove_2 in Nd. apply Nd. apply in_app_iff. left. exact I. }
  rewrite M2. rewrite IH; [rewrite <- app_assoc; reflexivity|exact Wt| |exact Ndr|].
  - rewrite map_app. cbn [map fst]. rewrite <- app_assoc. exact Nd.
  - rewrite map_app. cbn [map fst]. rewrite <- app_assoc. exact Sub.
Qed.
(** A well-formed store: the keys are the digests, the batches encode. *)
Definition sound (s : nst) : Prop := keyed H (n_cache s) /\ keyed H (n_chain s).
Lemma serve_all s req : sound s -> NoDup req ->
  (forall d b, In d req -> local s d = Some b -> batch_wf b /\ fits_frame b) ->
  exists got, read_sync H req (serve H s req) [] = Some got /\
    forall d b, In (d, b) got <-> In d req /\ local s d = Some b.
Proof.
  intros [Kc Kh] Nd F. destruct (get_local_digests H (fun _ => None) s req Kc Kh Nd) as (N1 & N2 & N3).
  set (bs := get_batches_local H s req) in *.
  assert (L : forall b, In b bs -> In (digest b) req /\ local s (digest b) = Some b).
  { intros b I. split; [|apply N3; exact I]. apply (N2 (digest b)). apply in_map. exact I. }
  assert (Fw : Forall batch_wf bs) by (apply Forall_forall; intros b I; destruct (L b I) as [A B]; apply (F _ _ A B)).
  assert (Ff : Forall fits_frame bs) by (apply Forall_forall; intros b I; destruct (L b I) as [A B]; apply (F _ _ A B)).
  exists (map (fun b => (digest b, b)) bs). split.
  - unfold serve. fold bs. rewrite send_ok by exact Ff. rewrite read_map; [reflexivity|exact Fw|exact N1|exact Nd|].
    cbn [map app]. intros d I. apply N2 in I. tauto.
  - intros d b. rewrite in_map_iff. split.
    + intros (b' & [= <- <-] & I). apply L. exact I.
    + intros [I E]. assert (In d (map digest bs)) as J by (apply N2; split; [exact I|congruence]).
      apply in_map_iff in J. destruct J as (b' & <- & J). destruct (L b' J) as [_ E']. exists b'. split; [|exact J]. congruence.
Qed.
Lemma send_poison bs b : In b bs -> ~ fits_frame b -> forall req acc, read_sync H req (send bs) acc = None.
Proof.
  induction bs as [|x t IH]; intros I Nf req acc; [destruct I|]. cbn [send].
  destruct (N.leb_spec (frame_len x) max_frame) as [Lx|Lx]; [|reflexivity].
  destruct I as [->|I]; [contradiction|]. cbn [read_sync]. destruct (Nat.leb _ _); [reflexivity|].
  destruct (from_bytes get_batch (put_batch x)); [|reflexivity]. destruct (negb _); [reflexivity|]. destruct (mem _ _); [reflexivity|]. apply IH; assumption.
Qed.
Lemma serve_poison s req d b : sound s -> NoDup req -> In d req -> local s d = Some b -> ~ fits_frame b ->
  read_sync H req (serve H s req) [] = None.
Proof.
  intros [Kc Kh] Nd I E Nf. unfold serve. eapply send_poison; [|exact Nf].
  destruct (get_local_digests H (fun _ => None) s req Kc Kh Nd) as (_ & N2 & N3).
  assert (In d (map digest (get_batches_local H s req))) as J by (apply N2; split; [exact I|congruence]).
  apply in_map_iff in J. destruct J as (b' & <- & J). pose proof (N3 b' J). congruence.
Qed.

(* ---------- asking with an honest holder among the peers ---------- *)
Definition serves (s : nst) (p : peer) : Prop := forall req, p req = Some (serve H s req).
Lemma take_new_gone : forall got req acc req' acc', take_new got req acc = (req', acc') ->
  (forall x, In x req' -> In x req /\ ~ In x (map fst got)) /\ (length req' <= length req)%nat /\ (NoDup req -> NoDup req').
Proof.
  induction got as [|[d b] t IH]; cbn [take_new]; intros req acc req' acc' E; [injection E as <- <-; cbn; auto|].
  destruct (mem d req) eqn:M; apply IH in E; destruct E as (A & B & C).
  - split; [|split].
    + intros x I. apply A in I. destruct I as [I J]. apply remove_d_In in I. destruct I as [I Nx]. cbn. split; [exact I|]. intros [Q|Q]; [congruence|contradiction].
    + unfold remove_d in B. pose proof (filter_length_le' (fun x => negb (beqb d x)) req). lia.
    + intros Nd. apply C. apply NoDup_filter. exact Nd.
  - split; [|split; [exact B|exact C]]. intros x I. apply A in I. destruct I as [I J]. cbn. split; [exact I|]. intros [Q|Q]; [|contradiction].
    subst x. apply mem_nIn in M. contradiction.
Qed.
Lemma ask_shrinks : forall peers req acc req' acc', ask_peers H peers req acc = (req', acc') ->
  (forall x, In x req' -> In x req) /\ (length req' <= length req)%nat.
Proof.
  induction peers as [|p t IH]; cbn [ask_peers]; intros req acc req' acc' E; [injection E as <- <-; auto|].
  destruct req as [|r0 r]; [injection E as <- <-; auto|].
  destruct (p _) as [fs|]; [|eapply IH; exact E]. destruct (read_sync _ _ _ _) as [got|]; [|eapply IH; exact E].
  destruct (take_new got (r0 :: r) acc) as [rq ac] eqn:T. apply take_new_gone in T. destruct T as (A & B & _).
  apply IH in E. destruct E as [E1 E2]. split; [intros x I; apply E1 in I; apply A in I; tauto|lia].
Qed.
Lemma ask_finds s p d : sound s -> serves s p -> local s d <> None ->
  forall peers req acc req' acc', In p peers -> NoDup req -> (length req <= max_per_request)%nat ->
  (forall x b, In x req -> local s x = Some b -> batch_wf b /\ fits_frame b) ->
  ask_peers H peers req acc = (req', acc') -> ~ In d req'.
Proof.
  intros Sd Sv Ld. induction peers as [|q t IH]; intros req acc req' acc' Ip Nd L F E I'; [destruct Ip|].
  cbn [ask_peers] in E. destruct req as [|r0 r] eqn:Er; [injection E as <- <-; destruct I'|]. rewrite <- Er in *.
  destruct Ip as [->|Ip].
  - rewrite firstn_all2 in E by exact L. rewrite (Sv req) in E.
    destruct (serve_all s req Sd Nd F) as (got & R & G). rewrite R in E.
    destruct (take_new got req acc) as [rq ac] eqn:T. apply take_new_gone in T. destruct T as (A & _ & _).
    apply ask_shrinks in E. destruct E as [E _]. apply E in I'. apply A in I'. destruct I' as [I' Ng]. apply Ng.
    destruct (local s d) as [b|] eqn:El; [|contradiction]. apply (in_map fst _ (d, b)). apply G. auto.
  - destruct (q _) as [fs|]; [|eapply IH; [exact Ip|exact Nd|exact L|exact F|exact E|exact I']].
    destruct (read_sync _ _ _ _) as [got|]; [|eapply IH; [exact Ip|exact Nd|exact L|exact F|exact E|exact I']].
    destruct (take_new got req acc) as [rq ac] eqn:T. apply take_new_gone in T. destruct T as (A & B & C).
    eapply IH; [exact Ip|apply C; exact Nd| | |exact E|exact I'].
    + lia.
    + intros x b Ix. apply F. apply A in Ix. tauto.
Qed.
Lemma bset_of_len l : (length (bset_of l) <= length l)%nat.
Proof. apply (bset_of_ok (fun _ => True) l). apply Forall_forall. auto. Qed.
Lemma bset_of_NoDup l : NoDup (bset_of l).
Proof.
  assert (O : ordered (bset_of l)) by (apply (bset_of_ok (fun _ => True) l); apply Forall_forall; auto).
  induction O as [|a r O IH F]; constructor; [|exact IH]. intros I. rewrite Forall_forall in F. apply F in I. rewrite blt_irr in I. discriminate I.
Qed.

(** [avail]: of every missing digest some peer of the pass is an honest node that holds it. *)
Definition covered (peers : list peer) (ds : list bytes) : Prop :=
  forall d, In d ds -> exists p s, In p peers /\ serves s p /\ sound s /\ local s d <> None /\
    (forall x b, In x ds -> local s x = Some b -> batch_wf b /\ fits_frame b).
Lemma ask_covered peers req : covered peers req -> NoDup req -> (length req <= max_per_request)%nat ->
  forall acc, fst (ask_peers H peers req acc) = [].
Proof.
  intros C Nd L acc. destruct (ask_peers H peers req acc) as [req' acc'] eqn:E. cbn. destruct req' as [|d t]; [reflexivity|]. exfalso.
  assert (I : In d req) by (apply ask_shrinks in E; destruct E as [E _]; apply E; left; reflexivity).
  destruct (C d I) as (p & s & Ip & Sv & Sd & Ld & F). eapply (ask_finds s p d); [exact Sd|exact Sv|exact Ld|exact Ip|exact Nd|exact L|exact F|exact E|left; reflexivity].
Qed.
Lemma request_covered peers passes req : peers <> [] -> covered peers req -> NoDup req -> (length req <= max_per_request)%nat ->
  exists got, request_batches H (peers :: passes) req = (Some got, []).
Proof.
  intros Np C Nd L. unfold request_batches. cbn [request_go]. destruct peers as [|p ps]; [contradiction|].
  pose proof (ask_covered (p :: ps) req C Nd L []) as A. destruct (ask_peers H (p :: ps) req []) as [req' acc']. cbn in A. subst req'.
  exists acc'. destruct acc'; reflexivity.
Qed.
Lemma fetch_live peers passes rounds ds s : sound s -> (length ds <= max_per_request)%nat ->
  (forall d, In d ds -> local s d <> None \/ exists p s', In p peers /\ serves s' p /\ sound s' /\ local s' d <> None /\
     (forall x b, In x ds -> local s' x = Some b -> batch_wf b /\ fits_frame b)) ->
  exists s' got, fetch_for_primary H ((peers :: passes) :: rounds) ds s = (s', Some got).
Proof.
  intros [Kc Kh] L C. unfold fetch_for_primary. pose proof (bset_of_NoDup ds) as Nd. pose proof (bset_of_len ds) as Ln.
  assert (Bi := bset_of_in ds). set (ms := bset_of ds) in *. cbn [fetch_loop].
  destruct ms as [|m0 m] eqn:Em; [eauto|]. rewrite <- Em in *. clear Em m0 m.
  destruct (fetch_local H s ms []) as [m1 got1] eqn:F. unfold fetch_local in F. cbn [app] in F. injection F as <- <-.
  destruct (get_local_digests H (fun _ => None) s ms Kc Kh Nd) as (_ & N2 & _).
  set (loc := map (fun b => (digest b, b)) (get_batches_local H s ms)).
  assert (El : map fst loc = map digest (get_batches_local H s ms)) by (unfold loc; rewrite map_map; reflexivity).
  set (m1 := filter (fun d => negb (mem d (map fst loc))) ms).
  assert (I1 : forall d, In d m1 -> In d ds /\ local s d = None).
  { intros d I. apply filter_In in I. destruct I as [I M]. split; [apply Bi; exact I|]. apply negb_true_iff, mem_nIn in M. rewrite El in M.
    destruct (local s d) eqn:Es; [|reflexivity]. exfalso. apply M. apply N2. split; [exact I|congruence]. }
  assert (Nd1 : NoDup m1) by (apply NoDup_filter; exact Nd).
  assert (L1 : (length m1 <= max_per_request)%nat) by (pose proof (filter_length_le' (fun d => negb (mem d (map fst loc))) ms); unfold m1; lia).
  clearbody m1. destruct m1 as [|x m1']; [eauto|].
  assert (Cv : covered peers (x :: m1')).
  { intros d I. apply I1 in I. destruct I as [I Ls]. destruct (C d I) as [|(p & s' & A1 & A2 & A3 & A4 & A5)]; [contradiction|].
    exists p, s'. repeat (split; [assumption|]). intros y b Iy. apply A5. apply I1 in Iy. tauto. }
  assert (Np : peers <> []).
  { intros ->. destruct (Cv x) as (p & ? & [] & _). left. reflexivity. }
  destruct (request_covered peers passes (x :: m1') Np Cv Nd1 L1) as (got & R).
  rewrite R. destruct rounds; cbn [fetch_loop]; eauto.
Qed.
End S.
