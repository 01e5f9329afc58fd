(** C48: the record of the latest consensus output (two slot files written in turn). *)
From Verif Require Import Util WireModel WireSpec WireProofs LatModel LatSpec LatProofs.
Local Open Scope N_scope.

Definition crc32_like (crc : bytes -> N) : Prop := forall b, crc b < 256 ^ 4.

(** What is written to a slot is read back, whatever an older, longer file holds behind it. *)
Theorem C48_round_trip : forall crc, crc32_like crc -> forall v rest, valid v -> read_slot crc (encode_slot crc v ++ rest) = Some v.
Proof. intros crc H. exact (read_encode crc H). Qed.
(** Whatever is read from bytes was written there in full: the first sixteen bytes are its encoding. *)
Theorem C48_read_means_written : forall crc, crc32_like crc -> forall b v, Forall byte b -> read_slot crc b = Some v ->
  (b = [] /\ v = (0, 0)) \/ (valid v /\ exists rest, b = encode_slot crc v ++ rest).
Proof.
  intros crc Hc b v Hb H. destruct b as [|x t]; [left; split; [reflexivity|injection H as <-; reflexivity]|]. right.
  set (b := x :: t) in *. unfold read_slot in H. fold b in H. replace (match b with [] => _ | _ :: _ => _ end) with
    (if (length b <? 16)%nat then None else if crc (firstn 12 b) =? unle (firstn 4 (skipn 12 b))
              then Some (unle (firstn 4 b), unle (firstn 8 (skipn 4 b))) else None) in H by reflexivity.
  clearbody b. destruct (length b <? 16)%nat eqn:L; [discriminate|]. apply Nat.ltb_ge in L.
  destruct (crc (firstn 12 b) =? unle (firstn 4 (skipn 12 b))) eqn:E; [|discriminate]. apply N.eqb_eq in E.
  match type of H with Some ?u = Some v => assert (Ev : v = u) by congruence; clear H; subst v end.
  assert (P : forall n l, Forall byte l -> (n <= length l)%nat -> le n (unle (firstn n l)) = firstn n l /\ unle (firstn n l) < 256 ^ N.of_nat n).
  { intros n l Hl Hn. assert (Ln : length (firstn n l) = n) by (rewrite firstn_length; lia).
    destruct (le_unle (firstn n l)) as [X Y]; [apply Forall_forall; intros y Hy; rewrite Forall_forall in Hl; apply Hl; rewrite <- (firstn_skipn n l); apply in_app_iff; left; exact Hy|].
    rewrite Ln in X, Y. split; assumption. }
  assert (Hs : forall k, Forall byte (skipn k b)).
  { intros k. apply Forall_forall. intros y Hy. rewrite Forall_forall in Hb. apply Hb. rewrite <- (firstn_skipn k b). apply in_app_iff. right. exact Hy. }
  destruct (P 4%nat b Hb ltac:(lia)) as [A1 A2]. destruct (P 8%nat (skipn 4 b) (Hs _) ltac:(rewrite skipn_length; lia)) as [B1 B2].
  destruct (P 4%nat (skipn 12 b) (Hs _) ltac:(rewrite skipn_length; lia)) as [C1 C2].
  split; [split; [exact A2|exact B2]|]. exists (skipn 16 b). unfold encode_slot. cbv zeta. cbn [fst snd]. rewrite A1, B1.
  assert (F12 : firstn 4 b ++ firstn 8 (skipn 4 b) = firstn 12 b).
  { clear. do 4 (destruct b as [|? b]; [reflexivity|]). cbn [firstn skipn app]. reflexivity. }
  rewrite F12, E, C1. clear -L.
  rewrite <- (firstn_skipn 12 b) at 1. rewrite <- app_assoc. f_equal. rewrite <- (firstn_skipn 4 (skipn 12 b)) at 1. f_equal.
  do 12 (destruct b as [|? b]; [exfalso; cbn in L; lia|]). reflexivity.
Qed.

(** Opening never fails, and whatever history of updates, failing writes and syncs, kills and crashes came before, the value found
    is (0, 0) or one that was recorded. *)
Theorem C48_found_was_recorded : forall crc, crc32_like crc -> forall l, history crc (start crc) l ->
  l_mem (run crc (start crc) l) = (0, 0) \/ In (l_mem (run crc (start crc) l)) (updates l).
Proof.
  intros crc Hc l H. pose proof (K_run crc Hc l [] _ (K_start crc) H) as X. apply k_mem in X.
  destruct X as [X|X]; [left; symmetry; exact X|right; exact X].
Qed.

(** A restart of the process finds the last recorded value once the background thread has caught up, and so does a crash of the
    machine once both files are synced. *)
Theorem C48_settled_is_found : forall crc, crc32_like crc -> forall l, history crc (start crc) l -> writes_ok l ->
  let s := run crc (start crc) l in
  (l_queue s = [] -> l_mem (step crc s EKill) = l_mem s) /\
  (settled s -> forall b1 b2, survives crc (l_s1 s) b1 -> survives crc (l_s2 s) b2 -> l_mem (step crc s (ECrash b1 b2)) = l_mem s).
Proof.
  intros crc Hc l H Wr s. pose proof (J_run crc Hc l _ Wr (J_start crc) H) as X. fold s in X. split.
  - intros Q. apply J_kill; [exact X|]. intros w. rewrite Q. reflexivity.
  - intros S b1 b2 A B. apply J_crash; try assumption. apply settled_idle. exact S.
Qed.

Lemma history_app crc a : forall s b, history crc s (a ++ b) <-> history crc s a /\ history crc (run crc s a) b.
Proof. induction a as [|e a IH]; intros s b; cbn; [tauto|]. rewrite IH. unfold run. tauto. Qed.
Lemma paced_app crc a : forall s b, paced crc s (a ++ b) <-> paced crc s a /\ paced crc (run crc s a) b.
Proof. induction a as [|e a IH]; intros s b; cbn; [tauto|]. rewrite IH. unfold run. tauto. Qed.
Lemma run_app crc a b s : run crc s (a ++ b) = run crc (run crc s a) b.
Proof. unfold run. apply fold_left_app. Qed.
Lemma writes_ok_app a b : writes_ok (a ++ b) -> writes_ok a /\ writes_ok b.
Proof. intros H. split; intros k y1 y2 Hk; apply (H k y1 y2); apply in_app_iff; [left|right]; exact Hk. Qed.

(** When every update waits for the one before to be on disk, the states are: nothing in flight, or exactly one update. *)
Lemma paced_inv crc : crc32_like crc -> forall l, history crc (start crc) l -> writes_ok l -> paced crc (start crc) l ->
  let s := run crc (start crc) l in
  W s /\ (idle s \/ exists l1 v l2, l = l1 ++ EUpdate v :: l2 /\ updates l2 = [] /\ flight crc s (l_mem (run crc (start crc) l1))).
Proof.
  intros Hc l. induction l as [|e l IH] using rev_ind; intros H Wr P; cbv zeta.
  - split; [split; intros _; reflexivity|]. left. split; [reflexivity|split; [reflexivity|intros w; reflexivity]].
  - apply history_app in H as [H1 H2]. apply paced_app in P as [P1 P2]. destruct (writes_ok_app _ _ Wr) as [W1 W2].
    destruct (IH H1 W1 P1) as [Wf St]. rewrite run_app. set (s := run crc (start crc) l) in *. cbn [run fold_left].
    destruct H2 as [H2 _]. destruct P2 as [P2 _]. split; [apply W_step; exact Wf|].
    pose proof (J_run crc Hc l _ W1 (J_start crc) H1) as Jx. fold s in Jx.
    destruct St as [St|(l1 & v & l2 & E1 & E2 & St)].
    + pose proof (idle_step crc s e Jx Wf St H2 P2) as X. destruct e; try (left; exact X).
      right. exists l, v, []. split; [reflexivity|split; [reflexivity|exact X]].
    + assert (Kk : forall k y1 y2, e = ETurn k y1 y2 -> (16 <= k)%nat).
      { intros k y1 y2 ->. apply (W2 k y1 y2). left. reflexivity. }
      pose proof (flight_step crc Hc s _ e Jx Wf St H2 Kk P2) as X.
      assert (R : updates [e] = [] -> flight crc (step crc s e) (l_mem (run crc (start crc) l1)) ->
        exists l1' v' l2', l ++ [e] = l1' ++ EUpdate v' :: l2' /\ updates l2' = [] /\ flight crc (step crc s e) (l_mem (run crc (start crc) l1'))).
      { intros Ue F. exists l1, v, (l2 ++ [e]). split; [rewrite E1, <- app_assoc; reflexivity|]. split; [|exact F].
        rewrite updates_app, E2. exact Ue. }
      destruct e; try (destruct X as [X|X]; [left; exact X|right; apply R; [reflexivity|exact X]]).
      right. exists l, v0, []. split; [reflexivity|split; [reflexivity|exact X]].
Qed.

(** A crash at any moment of such a history costs at most the last update: what is found is the value known before the crash, or the
    one before the last update; and a settled value is always found (previous theorem). *)
Theorem C48_at_most_the_last_update_is_lost : forall crc, crc32_like crc -> forall l,
  history crc (start crc) l -> writes_ok l -> paced crc (start crc) l ->
  forall b1 b2, let s := run crc (start crc) l in survives crc (l_s1 s) b1 -> survives crc (l_s2 s) b2 ->
  l_mem (step crc s (ECrash b1 b2)) = l_mem s \/
  (~ settled s /\ exists l1 v l2, l = l1 ++ EUpdate v :: l2 /\ updates l2 = [] /\
     l_mem (step crc s (ECrash b1 b2)) = l_mem (run crc (start crc) l1)).
Proof.
  intros crc Hc l H Wr P b1 b2 s A B. destruct (paced_inv crc Hc l H Wr P) as [Wf St]. fold s in Wf, St.
  pose proof (J_run crc Hc l _ Wr (J_start crc) H) as Jx. fold s in Jx.
  destruct St as [St|(l1 & v & l2 & E1 & E2 & St)]; [left; apply J_crash; assumption|].
  destruct (flight_crash crc s _ b1 b2 Wf St A B) as [X|X]; [left; exact X|]. right. split.
  - intros (Q & D1 & D2). destruct (g_state _ _ _ St) as [(_ & o & q & Y & _)|(Y & _)]; [rewrite Q in Y; discriminate|].
    destruct (l_cur s); cbn in Y; [rewrite D1 in Y|rewrite D2 in Y]; discriminate.
  - exists l1, v, l2. auto.
Qed.

(** The way outputs are saved (update, then wait for the persist) keeps to that rule: one update, one persist and the two turns of the
    thread bring a settled record to a settled record of the new value. *)
Theorem C48_save_settles : forall crc s v y, settled s -> l_open s = true ->
  let s' := run crc s [EUpdate v; EPersist; ETurn 16 y y; ETurn 16 true true] in
  settled s' /\ l_mem s' = v /\ l_acks s' = l_acks s + 1.
Proof.
  intros crc [m c f1 f2 q o a] v y (Q & D1 & D2) O. cbn [l_queue l_open l_s1 l_s2] in *. subst q o. cbv zeta. unfold run. cbn [fold_left step].
  unfold update, enqueue. cbn [l_queue l_open l_mem l_cur l_s1 l_s2 l_acks app].
  assert (T : exists g1 g2, turn crc 16 y y (mkL v (other c) f1 f2 [Update (fst m) v (other c); Persist] true a) = mkL v (other c) g1 g2 [Persist] true a).
  { unfold turn. cbn [l_queue l_open]. destruct ((16 <=? 16)%nat && negb (fst m =? fst v)); destruct c; eexists _, _; reflexivity. }
  destruct T as (g1 & g2 & ->). cbn. repeat split.
Qed.

(** The first record of a new epoch is synced by the thread itself, before any persist. *)
Theorem C48_new_epoch_is_synced : forall crc s v w old q y2, l_open s = true -> l_queue s = Update old v w :: q -> old <> fst v ->
  let s' := turn crc 16 true y2 s in
  f_dirty (file_of w s') = [] /\ f_disk (file_of w s') = encode_slot crc v ++ skipn 16 (f_now (file_of w s)) /\
  file_of (other w) s' = file_of (other w) s.
Proof.
  intros crc s v w old q y2 O Q Ne. cbv zeta. unfold turn. rewrite O, Q. apply N.eqb_neq in Ne. rewrite Ne. cbn [negb andb Nat.leb].
  set (s0 := mkL _ _ _ _ q true _). rewrite file_set_same, file_set_other. split; [reflexivity|]. split; [|destruct w; reflexivity].
  replace (file_of w s0) with (file_of w s) by (destruct w; reflexivity). unfold sync. cbn [f_disk]. apply (overwrite_full crc 16). apply Nat.le_refl.
Qed.

(** After [write_latest_consensus_hint] a node that finds no later second slot resumes from the hint. *)
Theorem C48_hint : forall crc, crc32_like crc -> forall v f1 f2, valid v -> not_later (slot_value crc (f_now f2)) v ->
  let '(g1, g2) := write_hint crc v (f1, f2) in l_mem (open_slots crc g1 g2) = v.
Proof.
  intros crc Hc v f1 f2 V L. cbn [write_hint snd]. apply (open_value crc _ _ Slot1); [|exact L].
  cbn [fresh f_now]. rewrite <- (app_nil_r (encode_slot crc v)). apply value_encode; assumption.
Qed.

(* ---- what does not hold, by runs ---- *)
Definition toy_crc (b : bytes) : N := (fold_left (fun a x => a * 31 + x) b 7) mod 256 ^ 4.
Lemma toy_crc_ok : crc32_like toy_crc.
Proof. intros b. unfold toy_crc. apply N.mod_lt. vm_compute. discriminate. Qed.
Definition torn : bytes := [1; 2; 3].
Definition save (v : N * N) : list ev := [EUpdate v; EPersist; ETurn 16 true true; ETurn 16 true true].
(* boolean checkers for the concrete histories *)
Definition beq (a b : bytes) : bool := if list_eq_dec N.eq_dec a b then true else false.
Lemma beq_ok a b : beq a b = true -> a = b. Proof. unfold beq. destruct (list_eq_dec N.eq_dec a b); [auto|discriminate]. Qed.
Definition unreadable (b : bytes) : bool := match read_slot toy_crc b with None => true | _ => false end.
Definition survb (f : file) (b : bytes) : bool :=
  match f_dirty f with [] => beq b (f_now f) | _ => beq b (f_disk f) || existsb (beq b) (f_dirty f) || unreadable b end.
Lemma unreadable_ok b : unreadable b = true -> read_slot toy_crc b = None.
Proof. unfold unreadable. destruct (read_slot toy_crc b); [discriminate|reflexivity]. Qed.
Lemma survb_ok f b : survb f b = true -> survives toy_crc f b.
Proof.
  unfold survb, survives. destruct (f_dirty f) as [|d l]; intros H; [apply beq_ok; exact H|].
  apply orb_true_iff in H as [H|H]; [apply orb_true_iff in H as [H|H]|].
  - left. apply beq_ok. exact H.
  - right. left. apply existsb_exists in H as (c & H1 & H2). apply beq_ok in H2. subst c. exact H1.
  - right. right. apply unreadable_ok. exact H.
Qed.
Definition okb (s : lc) (e : ev) : bool :=
  match e with
  | EUpdate v => (fst v <? 256 ^ 4) && (snd v <? 256 ^ 8) && ((fst (l_mem s) <? fst v) || ((fst (l_mem s) =? fst v) && (snd (l_mem s) <? snd v)))
  | ETurn k _ _ => (16 <=? k)%nat ||
      match l_queue s with
      | Update _ v w :: _ => let c := firstn k (encode_slot toy_crc v) ++ skipn k (f_now (file_of w s)) in
          unreadable c || beq c (f_now (file_of w s))
      | _ => true
      end
  | ECrash b1 b2 => survb (l_s1 s) b1 && survb (l_s2 s) b2
  | _ => true
  end.
Lemma okb_ok s e : okb s e = true -> ev_ok toy_crc s e.
Proof.
  destruct e as [v| | |k y1 y2| |b1 b2]; cbn [okb ev_ok]; intros H; try exact I.
  - apply andb_true_iff in H as [H H3]. apply andb_true_iff in H as [H1 H2]. split; [split; apply N.ltb_lt; assumption|].
    apply orb_true_iff in H3 as [H3|H3]; [left; apply N.ltb_lt; exact H3|]. apply andb_true_iff in H3 as [H3 H4]. right.
    split; [apply N.eqb_eq; exact H3|apply N.ltb_lt; exact H4].
  - destruct (l_queue s) as [|[o v w| |] q]; try exact I. apply orb_true_iff in H as [H|H]; [left; apply Nat.leb_le; exact H|].
    right. apply orb_true_iff in H as [H|H]; [left; apply unreadable_ok; exact H|right; apply beq_ok; exact H].
  - apply andb_true_iff in H as [H1 H2]. split; apply survb_ok; assumption.
Qed.
Fixpoint histb (s : lc) (l : list ev) : bool := match l with [] => true | e :: t => okb s e && histb (step toy_crc s e) t end.
Lemma histb_ok l : forall s, histb s l = true -> history toy_crc s l.
Proof.
  induction l as [|e t IH]; intros s H; [exact I|]. cbn [histb] in H. apply andb_true_iff in H as [H1 H2].
  split; [apply okb_ok; exact H1|apply IH; exact H2].
Qed.
Definition nilb {A} (l : list A) : bool := match l with [] => true | _ => false end.
Definition settledb (s : lc) : bool := nilb (l_queue s) && nilb (f_dirty (l_s1 s)) && nilb (f_dirty (l_s2 s)).
Lemma nilb_ok {A} (l : list A) : nilb l = true -> l = []. Proof. destruct l; [reflexivity|discriminate]. Qed.
Lemma settledb_ok s : settledb s = true -> settled s.
Proof. intros H. apply andb_true_iff in H as [H H3]. apply andb_true_iff in H as [H1 H2]. repeat split; apply nilb_ok; assumption. Qed.
Fixpoint pacedb (s : lc) (l : list ev) : bool :=
  match l with [] => true | e :: t => (match e with EUpdate _ => settledb s | _ => true end) && pacedb (step toy_crc s e) t end.
Lemma pacedb_ok l : forall s, pacedb s l = true -> paced toy_crc s l.
Proof.
  induction l as [|e t IH]; intros s H; [exact I|]. cbn [pacedb] in H. apply andb_true_iff in H as [H1 H2].
  split; [|apply IH; exact H2]. destruct e; try exact I. apply settledb_ok. exact H1.
Qed.
Definition writesb (l : list ev) : bool := forallb (fun e => match e with ETurn k _ _ => (16 <=? k)%nat | _ => true end) l.
Lemma writesb_ok l : writesb l = true -> writes_ok l.
Proof. intros H k y1 y2 Hk. unfold writesb in H. rewrite forallb_forall in H. specialize (H _ Hk). apply Nat.leb_le. exact H. Qed.

(** Two updates without a persist between them: both files may be torn and the record is back at (0, 0), although 7 was on disk
    (and acknowledged); or, with one torn file and one lost write, back at a value before the acknowledged one. *)
Theorem C48_REFUTED_two_updates_in_flight :
  let l := save (0, 6) ++ save (0, 7) ++ [EUpdate (0, 8); ETurn 16 true true; EUpdate (0, 9); ETurn 16 true true] in
  let s := run toy_crc (start toy_crc) l in let six := encode_slot toy_crc (0, 6) in
  history toy_crc (start toy_crc) l /\ writes_ok l /\ l_acks (run toy_crc (start toy_crc) (save (0, 6) ++ save (0, 7))) = 2 /\
  (survives toy_crc (l_s1 s) torn /\ survives toy_crc (l_s2 s) torn /\ l_mem (step toy_crc s (ECrash torn torn)) = (0, 0)) /\
  (survives toy_crc (l_s1 s) six /\ survives toy_crc (l_s2 s) torn /\ l_mem (step toy_crc s (ECrash six torn)) = (0, 6)).
Proof.
  cbv zeta. split; [apply histb_ok; vm_compute; reflexivity|]. split; [apply writesb_ok; vm_compute; reflexivity|].
  split; [vm_compute; reflexivity|]. split; (split; [apply survb_ok; vm_compute; reflexivity|]; split; [apply survb_ok; vm_compute; reflexivity|vm_compute; reflexivity]).
Qed.

(** A write that fails is only logged: the persist is acknowledged, nothing is pending, but a restart does not find the value. *)
Theorem C48_REFUTED_acknowledged_means_written :
  let l := save (0, 6) ++ [EUpdate (0, 7); EPersist; ETurn 0 true true; ETurn 16 true true] in
  let s := run toy_crc (start toy_crc) l in
  history toy_crc (start toy_crc) l /\ paced toy_crc (start toy_crc) l /\
  l_mem s = (0, 7) /\ l_acks s = 2 /\ settled s /\ l_mem (step toy_crc s EKill) = (0, 6).
Proof.
  cbv zeta. split; [apply histb_ok; vm_compute; reflexivity|]. split; [apply pacedb_ok; vm_compute; reflexivity|].
  split; [vm_compute; reflexivity|]. split; [vm_compute; reflexivity|]. split; [apply settledb_ok; vm_compute; reflexivity|vm_compute; reflexivity].
Qed.

(** The files are not synced on opening: a process killed between writing and syncing, and restarted, writes the other slot next;
    a machine crash can then take both, although each update waited for all it could see. *)
Theorem C48_REFUTED_kill_then_crash :
  let l := save (0, 6) ++ save (0, 7) ++ [EUpdate (0, 8); ETurn 16 true true; EKill; EUpdate (0, 9); ETurn 16 true true] in
  let s := run toy_crc (start toy_crc) l in
  history toy_crc (start toy_crc) l /\ writes_ok l /\
  survives toy_crc (l_s1 s) torn /\ survives toy_crc (l_s2 s) torn /\ l_mem (step toy_crc s (ECrash torn torn)) = (0, 0).
Proof.
  cbv zeta. split; [apply histb_ok; vm_compute; reflexivity|]. split; [apply writesb_ok; vm_compute; reflexivity|].
  split; [apply survb_ok; vm_compute; reflexivity|]. split; [apply survb_ok; vm_compute; reflexivity|vm_compute; reflexivity].
Qed.

(** The hint only replaces slot 1: with a later value in slot 2 it is ignored. *)
Theorem C48_REFUTED_hint_always_wins :
  exists v f1 f2, valid v /\ let '(g1, g2) := write_hint toy_crc v (f1, f2) in l_mem (open_slots toy_crc g1 g2) = (4, 90).
Proof.
  exists (3, 42), (fresh []), (fresh (encode_slot toy_crc (4, 90))). split; [split; vm_compute; reflexivity|vm_compute; reflexivity].
Qed.

(** The hypotheses are met: three saves over an epoch change, an update cut off by a crash that tears the slot being written, and on. *)
Definition ex_hist : list ev :=
  save (0, 6) ++ save (0, 7) ++ save (1, 8) ++ [EUpdate (1, 9); ETurn 16 true true; ECrash (encode_slot toy_crc (1, 8)) torn] ++ save (1, 9).
Example C48_example : history toy_crc (start toy_crc) ex_hist /\ writes_ok ex_hist /\ paced toy_crc (start toy_crc) ex_hist /\
  l_mem (run toy_crc (start toy_crc) ex_hist) = (1, 9) /\ settled (run toy_crc (start toy_crc) ex_hist) /\
  l_mem (run toy_crc (start toy_crc) (firstn 15 ex_hist)) = (1, 8).
Proof.
  split; [apply histb_ok; vm_compute; reflexivity|]. split; [apply writesb_ok; vm_compute; reflexivity|]. split; [apply pacedb_ok; vm_compute; reflexivity|].
  split; [vm_compute; reflexivity|]. split; [apply settledb_ok; vm_compute; reflexivity|vm_compute; reflexivity].
Qed.
