From Verif Require Import Util WireModel WireProofs LatModel LatSpec.
Local Open Scope N_scope.

Lemma later_trans a b c : later a b -> later b c -> later a c.
Proof. unfold later. intros [H|[H1 H2]] [H3|[H3 H4]]; lia. Qed.
Lemma later_total a b : a = b \/ later a b \/ later b a.
Proof.
  destruct a as [a1 a2], b as [b1 b2]. unfold later. cbn [fst snd].
  destruct (N.lt_trichotomy a1 b1) as [H|[H|H]]; [lia| |lia].
  destruct (N.lt_trichotomy a2 b2) as [K|[K|K]]; [lia| |lia]. left. congruence.
Qed.
Lemma later_irr a : ~ later a a.
Proof. unfold later. lia. Qed.
Lemma nl_refl a : not_later a a. Proof. left. reflexivity. Qed.
Lemma nl_trans a b c : not_later a b -> not_later b c -> not_later a c.
Proof. intros [->|H] [->|K]; [left; reflexivity|right; exact K|right; exact H|right; exact (later_trans _ _ _ H K)]. Qed.
Lemma nl_antisym a b : not_later a b -> not_later b a -> a = b.
Proof. intros [H|H] [K|K]; auto. exfalso. exact (later_irr _ (later_trans _ _ _ H K)). Qed.
Lemma nl_zero v : not_later (0, 0) v.
Proof. destruct (later_total (0, 0) v) as [H|[H|H]]; [left; exact H|right; exact H|]. exfalso. unfold later in H. cbn [fst snd] in H. lia. Qed.

Lemma other_other w : other (other w) = w. Proof. destruct w; reflexivity. Qed.
Lemma other_neq w : other w <> w. Proof. destruct w; discriminate. Qed.
Lemma which_cases (p w : which) : w = p \/ w = other p.
Proof. destruct p, w; auto. Qed.

Lemma firstn_exact {A} n (a b : list A) : length a = n -> firstn n (a ++ b) = a.
Proof. intros <-. rewrite firstn_app, Nat.sub_diag, firstn_all. cbn. apply app_nil_r. Qed.
Lemma skipn_exact {A} n (a b : list A) : length a = n -> skipn n (a ++ b) = b.
Proof. intros <-. rewrite skipn_app, Nat.sub_diag, skipn_all. reflexivity. Qed.

Section P.
Variable crc : bytes -> N.
Hypothesis crc_u32 : forall b, crc b < 256 ^ 4.
Notation encode_slot := (encode_slot crc).
Notation read_slot := (read_slot crc).
Notation slot_value := (slot_value crc).
Notation step := (step crc).
Notation run := (run crc).
Notation ev_ok := (ev_ok crc).
Notation history := (history crc).

Lemma encode_length v : length (encode_slot v) = 16%nat.
Proof. unfold LatModel.encode_slot. rewrite !app_length, !le_length. reflexivity. Qed.

Lemma read_encode v rest : valid v -> read_slot (encode_slot v ++ rest) = Some v.
Proof.
  intros [V1 V2]. pose proof (encode_length v) as L.
  destruct (encode_slot v ++ rest) as [|x t] eqn:E.
  { exfalso. assert (length (encode_slot v ++ rest) = 0%nat) as X by (rewrite E; reflexivity). rewrite app_length in X. lia. }
  unfold LatModel.read_slot. rewrite <- E.
  assert (LT : (length (encode_slot v ++ rest) <? 16)%nat = false) by (apply Nat.ltb_ge; rewrite app_length; lia).
  rewrite LT. unfold LatModel.encode_slot.
  set (a := le 4 (fst v)). set (b := le 8 (snd v)). set (c := le 4 (crc (a ++ b))).
  assert (La : length a = 4%nat) by apply le_length. assert (Lb : length b = 8%nat) by apply le_length.
  assert (Lc : length c = 4%nat) by apply le_length.
  assert (Lab : length (a ++ b) = 12%nat) by (rewrite app_length, La, Lb; reflexivity).
  assert (E12 : firstn 12 (((a ++ b) ++ c) ++ rest) = a ++ b) by (rewrite <- app_assoc; apply firstn_exact; exact Lab).
  assert (S12 : skipn 12 (((a ++ b) ++ c) ++ rest) = c ++ rest) by (rewrite <- app_assoc; apply skipn_exact; exact Lab).
  assert (E4 : firstn 4 (((a ++ b) ++ c) ++ rest) = a) by (rewrite <- !app_assoc; apply firstn_exact; exact La).
  assert (E8 : firstn 8 (skipn 4 (((a ++ b) ++ c) ++ rest)) = b).
  { rewrite <- !app_assoc. rewrite (skipn_exact 4 a _ La). apply firstn_exact. exact Lb. }
  rewrite E12, S12, E4, E8, (firstn_exact 4 c rest Lc).
  unfold c. rewrite (unle_le 4 (crc (a ++ b))) by (apply crc_u32). rewrite N.eqb_refl.
  unfold a, b. rewrite !unle_le by assumption. destruct v; reflexivity.
Qed.

Lemma value_encode v rest : valid v -> slot_value (encode_slot v ++ rest) = v.
Proof. intros H. unfold LatModel.slot_value. rewrite read_encode by exact H. reflexivity. Qed.

Local Opaque LatModel.encode_slot.
(* the slot chosen on opening holds the later value *)
Lemma open_mem f1 f2 :
  let s := open_slots crc f1 f2 in
  l_s1 s = f1 /\ l_s2 s = f2 /\ l_queue s = [] /\ l_open s = true /\
  l_mem s = slot_value (f_now (file_of (l_cur s) s)) /\
  not_later (slot_value (f_now (file_of (other (l_cur s)) s))) (l_mem s).
Proof.
  cbv zeta. unfold open_slots. set (v1 := slot_value (f_now f1)). set (v2 := slot_value (f_now f2)).
  unfold choose_slot. destruct (fst v1 =? fst v2) eqn:E1.
  - apply N.eqb_eq in E1. destruct (snd v2 <? snd v1) eqn:E2.
    + apply N.ltb_lt in E2. cbn. repeat (split; [reflexivity|]). fold v1 v2. right. right. split; [symmetry; exact E1|exact E2].
    + apply N.ltb_ge in E2. cbn. repeat (split; [reflexivity|]). fold v1 v2.
      destruct (later_total v1 v2) as [H|[H|H]]; [left; exact H|right; exact H|]. exfalso. unfold later in H. lia.
  - apply N.eqb_neq in E1. destruct (fst v2 <? fst v1) eqn:E2.
    + apply N.ltb_lt in E2. cbn. repeat (split; [reflexivity|]). fold v1 v2. right. left. exact E2.
    + apply N.ltb_ge in E2. cbn. repeat (split; [reflexivity|]). fold v1 v2. right. left. lia.
Qed.
Lemma file_set_same w f s : file_of w (set_file w f s) = f. Proof. destruct w; reflexivity. Qed.
Lemma file_set_other w f s : file_of (other w) (set_file w f s) = file_of (other w) s. Proof. destruct w; reflexivity. Qed.
Lemma file_set w w' f s : file_of w' (set_file w f s) = if (match w, w' with Slot1, Slot1 | Slot2, Slot2 => true | _, _ => false end) then f else file_of w' s.
Proof. destruct w, w'; reflexivity. Qed.
Lemma set_file_rest w f s : l_mem (set_file w f s) = l_mem s /\ l_cur (set_file w f s) = l_cur s /\ l_queue (set_file w f s) = l_queue s /\ l_open (set_file w f s) = l_open s.
Proof. destruct w; repeat split; reflexivity. Qed.

(* ---------- what is found was recorded ---------- *)
Definition known (V : list (N * N)) (b : bytes) : Prop := In (slot_value b) ((0, 0) :: V).
Definition file_known V f := known V (f_now f) /\ known V (f_disk f) /\ Forall (known V) (f_dirty f).
Record K (V : list (N * N)) (s : lc) : Prop := {
  k_mem : In (l_mem s) ((0, 0) :: V);
  k_f1 : file_known V (l_s1 s);
  k_f2 : file_known V (l_s2 s);
  k_q : forall o v w, In (Update o v w) (l_queue s) -> valid v /\ In v V
}.
Lemma known_mono V v b : known V b -> known (V ++ [v]) b.
Proof. unfold known. intros [H|H]; [left; exact H|right; apply in_app_iff; left; exact H]. Qed.
Lemma fk_mono V v f : file_known V f -> file_known (V ++ [v]) f.
Proof. intros (A & B & C). split; [apply known_mono; exact A|split; [apply known_mono; exact B|]]. revert C. apply Forall_impl. intros b. apply known_mono. Qed.
Lemma fk_sync V y f : file_known V f -> file_known V (sync y f).
Proof. intros (A & B & C). destruct y; cbn; [|exact (conj A (conj B C))]. repeat split; [exact A|exact A|constructor]. Qed.
Lemma fk_survive V f b : file_known V f -> survives crc f b -> file_known V (fresh b).
Proof.
  intros (A & B & C) H. assert (X : known V b).
  { unfold survives in H. destruct (f_dirty f) as [|d l] eqn:E; [subst b; exact A|]. destruct H as [->|[H|H]]; [exact B| |].
    - rewrite Forall_forall in C. apply C. exact H.
    - unfold known, LatModel.slot_value. rewrite H. left. reflexivity. }
  repeat split; [exact X|exact X|constructor].
Qed.
Lemma fk_open V f1 f2 : file_known V f1 -> file_known V f2 -> K V (open_slots crc f1 f2).
Proof.
  intros A B. pose proof (open_mem f1 f2) as (E1 & E2 & E3 & _ & E4 & _). constructor.
  - rewrite E4. destruct (l_cur (open_slots crc f1 f2)); cbn; rewrite ?E1, ?E2; [apply A|apply B].
  - rewrite E1. exact A.
  - rewrite E2. exact B.
  - rewrite E3. intros o v w [].
Qed.
Lemma overwrite_full k v f : (16 <= k)%nat -> f_now (overwrite k (encode_slot v) f) = encode_slot v ++ skipn k (f_now f).
Proof. intros H. unfold overwrite. cbn [f_now]. rewrite firstn_all2; [reflexivity|]. rewrite encode_length. exact H. Qed.

Lemma K_step V s e : K V s -> ev_ok s e -> K (V ++ updates [e]) (step s e).
Proof.
  intros I O. destruct e as [v| | |k y1 y2| |b1 b2]; cbn [updates flat_map app]; try rewrite app_nil_r.
  - destruct O as [Vv _]. constructor; cbn.
    + right. apply in_app_iff. right. left. reflexivity.
    + apply fk_mono, I.
    + apply fk_mono, I.
    + intros o u w H. apply in_app_iff in H as [H|[H|[]]].
      * destruct (k_q _ _ I o u w H) as [A B]. split; [exact A|apply in_app_iff; left; exact B].
      * injection H as <- <- <-. split; [exact Vv|apply in_app_iff; right; left; reflexivity].
  - destruct I as [I1 I2 I3 I4]. constructor; cbn; try assumption. intros o u w H. apply in_app_iff in H as [H|[H|[]]]; [exact (I4 _ _ _ H)|discriminate].
  - destruct I as [I1 I2 I3 I4]. constructor; cbn; try assumption. intros o u w H. apply in_app_iff in H as [H|[H|[]]]; [exact (I4 _ _ _ H)|discriminate].
  - cbn [LatModel.step]. unfold turn. destruct (l_open s); [|exact I]. unfold LatSpec.ev_ok in O. cbv zeta in O. destruct (l_queue s) as [|c q] eqn:EQ; [exact I|].
    destruct I as [I1 I2 I3 I4]. assert (Q : forall o v w, In (Update o v w) q -> valid v /\ In v V).
    { intros o v w H. apply (I4 o v w). rewrite EQ. right. exact H. }
    destruct c as [old v w| |].
    + destruct (I4 old v w ltac:(rewrite EQ; left; reflexivity)) as [Vv Iv].
      set (s0 := mkL _ _ _ _ q true _). assert (Ef : file_of w s0 = file_of w s) by (destruct w; reflexivity).
      assert (Fk : file_known V (file_of w s)) by (destruct w; assumption).
      assert (G : file_known V (overwrite k (encode_slot v) (file_of w s))).
      { destruct Fk as (A & B & C). assert (X : known V (firstn k (encode_slot v) ++ skipn k (f_now (file_of w s)))).
        { destruct O as [O|[O|O]].
          - rewrite firstn_all2 by (rewrite encode_length; exact O). unfold known. rewrite value_encode by exact Vv. right. exact Iv.
          - unfold known, LatModel.slot_value. rewrite O. left. reflexivity.
          - rewrite O. exact A. }
        split; [exact X|split; [exact B|constructor; [exact X|exact C]]]. }
      rewrite Ef. assert (R : forall f, file_known V f -> K V (set_file w f s0)).
      { intros f Hf. destruct w; constructor; cbn; assumption. }
      destruct ((16 <=? k)%nat && negb (old =? fst v)); apply R; [apply fk_sync|]; exact G.
    + constructor; cbn; [exact I1|apply fk_sync; exact I2|apply fk_sync; exact I3|exact Q].
    + constructor; cbn; [exact I1|apply fk_sync; exact I2|apply fk_sync; exact I3|exact Q].
  - apply fk_open; apply I.
  - destruct O as [O1 O2]. apply fk_open; [apply (fk_survive V (l_s1 s))|apply (fk_survive V (l_s2 s))]; try assumption; apply I.
Qed.
Lemma updates_app a b : updates (a ++ b) = updates a ++ updates b.
Proof. unfold updates. apply flat_map_app. Qed.
Lemma K_run l : forall V s, K V s -> history s l -> K (V ++ updates l) (run s l).
Proof.
  induction l as [|e t IH]; intros V s I H; cbn [run fold_left]; [cbn; rewrite app_nil_r; exact I|].
  destruct H as [H1 H2]. change (e :: t) with ([e] ++ t). rewrite updates_app, app_assoc.
  apply (IH (V ++ updates [e]) (step s e)); [apply K_step; assumption|exact H2].
Qed.
Lemma K_start : K [] (start crc).
Proof. apply fk_open; (repeat split; [left; reflexivity|left; reflexivity|constructor]). Qed.

(* ---------- no failing writes: draining the queue leaves the memory value in the current slot ---------- *)
Definition to_slot (w : which) (c : cmd) : list (N * N) :=
  match c with Update _ v w' => match w, w' with Slot1, Slot1 | Slot2, Slot2 => [v] | _, _ => [] end | _ => [] end.
Definition drained (w : which) (s : lc) : N * N := last (flat_map (to_slot w) (l_queue s)) (slot_value (f_now (file_of w s))).
Record J (s : lc) : Prop := {
  j_cur : drained (l_cur s) s = l_mem s;
  j_oth : not_later (drained (other (l_cur s)) s) (l_mem s);
  j_val : forall o v w, In (Update o v w) (l_queue s) -> valid v
}.
Lemma to_slot_same o v w : to_slot w (Update o v w) = [v]. Proof. destruct w; reflexivity. Qed.
Lemma to_slot_other o v w : to_slot (other w) (Update o v w) = []. Proof. destruct w; reflexivity. Qed.
Lemma last_cons_def {A} (x : A) l d d' : last (x :: l) d = last (x :: l) d'.
Proof. revert x. induction l as [|y l IH]; intros x; [reflexivity|]. exact (IH y). Qed.
Lemma last_cons_eq {A} (x : A) l d : last (x :: l) d = last l x.
Proof. destruct l as [|y l]; [reflexivity|]. change (last (x :: y :: l) d) with (last (y :: l) d). apply last_cons_def. Qed.
Lemma J_open f1 f2 : J (open_slots crc f1 f2).
Proof.
  pose proof (open_mem f1 f2) as (E1 & E2 & E3 & _ & E4 & E5). constructor.
  - unfold drained. rewrite E3. cbn. symmetry. exact E4.
  - unfold drained. rewrite E3. cbn. exact E5.
  - rewrite E3. intros o v w [].
Qed.
Lemma sync_now y f : f_now (sync y f) = f_now f. Proof. destruct y; reflexivity. Qed.
Lemma drained_ext w s s' : l_queue s' = l_queue s -> f_now (file_of w s') = f_now (file_of w s) -> drained w s' = drained w s.
Proof. intros A B. unfold drained. rewrite A, B. reflexivity. Qed.
Lemma J_turn k y1 y2 s : (16 <= k)%nat -> J s -> J (turn crc k y1 y2 s).
Proof.
  intros Hk I. unfold turn. destruct (l_open s); [|exact I]. destruct (l_queue s) as [|c q] eqn:EQ; [exact I|].
  destruct c as [old v w| |].
  - set (s0 := mkL _ _ _ _ q true _). set (f := overwrite k (encode_slot v) (file_of w s0)).
    assert (Vv : valid v) by (apply (j_val _ I old v w); rewrite EQ; left; reflexivity).
    assert (Fn : slot_value (f_now f) = v).
    { unfold f. rewrite overwrite_full by exact Hk. apply value_encode. exact Vv. }
    assert (R : forall g, f_now g = f_now f -> J (set_file w g s0)).
    { intros g Hg. destruct (set_file_rest w g s0) as (R1 & R2 & R3 & _).
      assert (D : forall w', drained w' (set_file w g s0) = drained w' s).
      { intros w'. unfold drained. rewrite R3, EQ. cbn [flat_map]. destruct (which_cases w w') as [->| ->].
        - rewrite to_slot_same, file_set_same, Hg, Fn. cbn [app]. symmetry. exact (last_cons_eq v _ _).
        - rewrite to_slot_other, file_set_other. cbn [app]. destruct w; reflexivity. }
      constructor.
      - rewrite R1, R2, D. apply I.
      - rewrite R1, R2, D. apply I.
      - rewrite R3. intros o u w' H. apply (j_val _ I o u w'). rewrite EQ. right. exact H. }
    destruct ((16 <=? k)%nat && negb (old =? fst v)); apply R; [apply sync_now|reflexivity].
  - assert (D : forall w' q', flat_map (to_slot w') (Persist :: q') = flat_map (to_slot w') q') by reflexivity.
    constructor; cbn [l_cur l_mem l_queue].
    + rewrite <- (j_cur _ I). unfold drained. rewrite EQ, D. cbn [l_queue]. destruct (l_cur s); cbn; rewrite sync_now; reflexivity.
    + pose proof (j_oth _ I) as O. unfold drained in *. rewrite EQ, D in O. cbn [l_queue]. destruct (l_cur s); cbn in *; rewrite sync_now; exact O.
    + intros o u w' H. apply (j_val _ I o u w'). rewrite EQ. right. exact H.
  - assert (D : forall w' q', flat_map (to_slot w') (Shutdown :: q') = flat_map (to_slot w') q') by reflexivity.
    constructor; cbn [l_cur l_mem l_queue].
    + rewrite <- (j_cur _ I). unfold drained. rewrite EQ, D. cbn [l_queue]. destruct (l_cur s); cbn; rewrite sync_now; reflexivity.
    + pose proof (j_oth _ I) as O. unfold drained in *. rewrite EQ, D in O. cbn [l_queue]. destruct (l_cur s); cbn in *; rewrite sync_now; exact O.
    + intros o u w' H. apply (j_val _ I o u w'). rewrite EQ. right. exact H.
Qed.
Lemma J_step s e : (forall k y1 y2, e = ETurn k y1 y2 -> (16 <= k)%nat) -> J s -> ev_ok s e -> J (step s e).
Proof.
  intros W I O. destruct e as [v| | |k y1 y2| |b1 b2]; cbn [LatModel.step].
  - destruct O as [Vv Lv]. unfold update. constructor; cbn [l_cur l_mem l_queue].
    + unfold drained. cbn [l_queue]. rewrite flat_map_app. cbn [flat_map]. rewrite to_slot_same. cbn [app]. apply last_last.
    + rewrite other_other. unfold drained. cbn [l_queue]. rewrite flat_map_app. cbn [flat_map].
      replace (to_slot (l_cur s) (Update (fst (l_mem s)) v (other (l_cur s)))) with (@nil (N * N)) by (destruct (l_cur s); reflexivity).
      cbn [app]. rewrite app_nil_r. pose proof (j_cur _ I) as C. unfold drained in C.
      replace (file_of (l_cur s) _) with (file_of (l_cur s) s) by (destruct (l_cur s); reflexivity). rewrite C. right. exact Lv.
    + intros o u w H. apply in_app_iff in H as [H|[H|[]]]; [exact (j_val _ I _ _ _ H)|]. injection H as _ <- _. exact Vv.
  - destruct I as [I1 I2 I3]. constructor; cbn [enqueue l_cur l_mem l_queue].
    + rewrite <- I1. unfold drained. cbn [l_queue enqueue]. rewrite flat_map_app. cbn [flat_map to_slot app]. rewrite app_nil_r. destruct (l_cur s); reflexivity.
    + unfold drained in *. cbn [l_queue enqueue]. rewrite flat_map_app. cbn [flat_map to_slot app]. rewrite app_nil_r. destruct (l_cur s); exact I2.
    + intros o u w H. apply in_app_iff in H as [H|[H|[]]]; [exact (I3 _ _ _ H)|discriminate].
  - destruct I as [I1 I2 I3]. constructor; cbn [enqueue l_cur l_mem l_queue].
    + rewrite <- I1. unfold drained. cbn [l_queue enqueue]. rewrite flat_map_app. cbn [flat_map to_slot app]. rewrite app_nil_r. destruct (l_cur s); reflexivity.
    + unfold drained in *. cbn [l_queue enqueue]. rewrite flat_map_app. cbn [flat_map to_slot app]. rewrite app_nil_r. destruct (l_cur s); exact I2.
    + intros o u w H. apply in_app_iff in H as [H|[H|[]]]; [exact (I3 _ _ _ H)|discriminate].
  - apply J_turn; [apply (W k y1 y2); reflexivity|exact I].
  - apply J_open.
  - apply J_open.
Qed.
Lemma J_run l : forall s, writes_ok l -> J s -> history s l -> J (run s l).
Proof.
  induction l as [|e t IH]; intros s W I H; [exact I|]. destruct H as [H1 H2]. cbn [run fold_left]. apply (IH (step s e)).
  - intros k y1 y2 Hk. apply (W k y1 y2). right. exact Hk.
  - apply J_step; try assumption. intros k y1 y2 ->. apply (W k y1 y2). left. reflexivity.
  - exact H2.
Qed.
Lemma J_start : J (start crc). Proof. apply J_open. Qed.

(* opening two files one of which holds the memory value *)
Lemma open_value f1 f2 p (v : N * N) : slot_value (f_now (match p with Slot1 => f1 | Slot2 => f2 end)) = v ->
  not_later (slot_value (f_now (match p with Slot1 => f2 | Slot2 => f1 end))) v -> l_mem (open_slots crc f1 f2) = v.
Proof.
  intros A B. pose proof (open_mem f1 f2) as (E1 & E2 & _ & _ & E4 & E5).
  destruct (which_cases p (l_cur (open_slots crc f1 f2))) as [E|E].
  - rewrite E4, E. destruct p; cbn; rewrite ?E1, ?E2; exact A.
  - assert (X : not_later v (l_mem (open_slots crc f1 f2))).
    { rewrite E in E5. rewrite other_other in E5. rewrite <- A. destruct p; cbn in E5; rewrite ?E1, ?E2 in E5; exact E5. }
    assert (Y : l_mem (open_slots crc f1 f2) = slot_value (f_now (match p with Slot1 => f2 | Slot2 => f1 end))).
    { rewrite E4, E. destruct p; cbn; rewrite ?E1, ?E2; reflexivity. }
    apply nl_antisym; [rewrite Y; exact B|exact X].
Qed.
Definition no_upd (s : lc) : Prop := forall w, flat_map (to_slot w) (l_queue s) = [].
Lemma J_kill s : J s -> no_upd s -> l_mem (step s EKill) = l_mem s.
Proof.
  intros I Q. cbn [LatModel.step]. apply (open_value _ _ (l_cur s)).
  - pose proof (j_cur _ I) as C. unfold drained in C. rewrite Q in C. cbn in C. destruct (l_cur s); exact C.
  - pose proof (j_oth _ I) as C. unfold drained in C. rewrite Q in C. cbn in C. destruct (l_cur s); exact C.
Qed.
Lemma open_fresh f1 f2 : l_mem (open_slots crc (fresh (f_now f1)) (fresh (f_now f2))) = l_mem (open_slots crc f1 f2).
Proof. unfold open_slots, fresh. cbn [f_now]. destruct (choose_slot _ _); reflexivity. Qed.
Definition idle (s : lc) : Prop := f_dirty (l_s1 s) = [] /\ f_dirty (l_s2 s) = [] /\ no_upd s.
Lemma J_crash s b1 b2 : J s -> idle s -> survives crc (l_s1 s) b1 -> survives crc (l_s2 s) b2 -> l_mem (step s (ECrash b1 b2)) = l_mem s.
Proof.
  intros I (D1 & D2 & Q) A B. unfold survives in A, B. rewrite D1 in A. rewrite D2 in B. subst b1 b2.
  cbn [LatModel.step]. rewrite open_fresh. exact (J_kill s I Q).
Qed.
Lemma settled_idle s : settled s -> idle s.
Proof. intros (Q & D1 & D2). split; [exact D1|split; [exact D2|]]. intros w. rewrite Q. reflexivity. Qed.

(* ---------- paced histories ---------- *)
(* either nothing is in flight, or one update is *)
Record flight (s : lc) (prev : N * N) : Prop := {
  g_cur : slot_value (f_now (file_of (other (l_cur s)) s)) = prev;
  g_clean : f_dirty (file_of (other (l_cur s)) s) = [];
  g_lt : later prev (l_mem s);
  g_disk : not_later (slot_value (f_disk (file_of (l_cur s) s))) prev;
  g_state : (f_dirty (file_of (l_cur s) s) = [] /\
               exists o q, l_queue s = Update o (l_mem s) (l_cur s) :: q /\ forall w, flat_map (to_slot w) q = [])
         \/ (f_dirty (file_of (l_cur s) s) = [f_now (file_of (l_cur s) s)] /\
               slot_value (f_now (file_of (l_cur s) s)) = l_mem s /\ no_upd s);
  g_val : valid (l_mem s)
}.
Definition file_wf (f : file) : Prop := f_dirty f = [] -> f_now f = f_disk f.
Definition W (s : lc) : Prop := file_wf (l_s1 s) /\ file_wf (l_s2 s).
Lemma wf_sync y f : file_wf f -> file_wf (sync y f). Proof. intros H. destruct y; [intros _; reflexivity|exact H]. Qed.
Lemma wf_overwrite k b f : file_wf (overwrite k b f). Proof. intros H. discriminate H. Qed.
Lemma open_files f1 f2 : l_s1 (open_slots crc f1 f2) = f1 /\ l_s2 (open_slots crc f1 f2) = f2.
Proof. unfold open_slots. destruct (choose_slot _ _); split; reflexivity. Qed.
Lemma W_step s e : W s -> W (step s e).
Proof.
  intros [A B]. destruct e as [v| | |k y1 y2| |b1 b2]; cbn [LatModel.step]; try (split; assumption).
  - unfold turn. destruct (l_open s); [|split; assumption]. destruct (l_queue s) as [|[old v w| |] q]; try (split; assumption).
    + destruct ((16 <=? k)%nat && negb (old =? fst v)); destruct w; split; cbn; try assumption; try apply wf_sync; apply wf_overwrite.
    + split; cbn; apply wf_sync; assumption.
    + split; cbn; apply wf_sync; assumption.
  - destruct (open_files (l_s1 s) (l_s2 s)) as [E1 E2]. unfold W. rewrite E1, E2. split; assumption.
  - destruct (open_files (fresh b1) (fresh b2)) as [E1 E2]. unfold W. rewrite E1, E2. split; intros _; reflexivity.
Qed.
Lemma W_file s w : W s -> file_wf (file_of w s). Proof. intros [A B]. destruct w; assumption. Qed.
Lemma no_upd_head s c q : no_upd s -> l_queue s = c :: q -> forall o v w, c <> Update o v w.
Proof. intros Q E o v w ->. specialize (Q w). rewrite E in Q. cbn [flat_map] in Q. rewrite to_slot_same in Q. discriminate. Qed.
Lemma no_upd_tail s c q : no_upd s -> l_queue s = c :: q -> forall w, flat_map (to_slot w) q = [].
Proof. intros Q E w. specialize (Q w). rewrite E in Q. cbn [flat_map] in Q. apply app_eq_nil in Q. apply Q. Qed.
Lemma idle_open f1 f2 : f_dirty f1 = [] -> f_dirty f2 = [] -> idle (open_slots crc f1 f2).
Proof.
  intros A B. destruct (open_files f1 f2) as [E1 E2]. split; [rewrite E1; exact A|split; [rewrite E2; exact B|]].
  intros w. pose proof (open_mem f1 f2) as (_ & _ & -> & _). reflexivity.
Qed.

Lemma idle_step s e : J s -> W s -> idle s -> ev_ok s e -> (match e with EUpdate _ => settled s | _ => True end) ->
  match e with EUpdate _ => flight (step s e) (l_mem s) | _ => idle (step s e) end.
Proof.
  intros I Wf (D1 & D2 & Q) O P. destruct e as [v| | |k y1 y2| |b1 b2]; cbn [LatModel.step].
  - destruct O as [Vv Lv]. destruct P as (Qe & _). unfold update.
    pose proof (j_cur _ I) as C1. pose proof (j_oth _ I) as C2. unfold drained in C1, C2. rewrite Qe in C1, C2. cbn in C1, C2.
    constructor; cbn [l_cur l_mem l_queue]; rewrite ?other_other.
    + replace (file_of (l_cur s) _) with (file_of (l_cur s) s) by (destruct (l_cur s); reflexivity). exact C1.
    + destruct (l_cur s); assumption.
    + exact Lv.
    + replace (file_of (other (l_cur s)) _) with (file_of (other (l_cur s)) s) by (destruct (l_cur s); reflexivity).
      rewrite <- (W_file s (other (l_cur s)) Wf); [exact C2|]. destruct (l_cur s); assumption.
    + left. split; [destruct (l_cur s); assumption|]. exists (fst (l_mem s)), []. rewrite Qe. split; reflexivity.
    + exact Vv.
  - split; [exact D1|split; [exact D2|]]. intros w. cbn. rewrite flat_map_app, Q. reflexivity.
  - split; [exact D1|split; [exact D2|]]. intros w. cbn. rewrite flat_map_app, Q. reflexivity.
  - unfold turn. destruct (l_open s); [|exact (conj D1 (conj D2 Q))]. destruct (l_queue s) as [|c q] eqn:EQ; [exact (conj D1 (conj D2 Q))|].
    pose proof (no_upd_head s c q Q EQ) as Hc. pose proof (no_upd_tail s c q Q EQ) as Hq.
    destruct c as [old v w| |]; [exfalso; exact (Hc old v w eq_refl)| |].
    + split; [|split]; cbn; [destruct y1; [reflexivity|exact D1]|destruct y2; [reflexivity|exact D2]|exact Hq].
    + split; [|split]; cbn; [destruct y1; [reflexivity|exact D1]|destruct y2; [reflexivity|exact D2]|exact Hq].
  - apply idle_open; assumption.
  - apply idle_open; reflexivity.
Qed.

Lemma both_dirty s w : f_dirty (file_of w s) = [] -> f_dirty (file_of (other w) s) = [] -> f_dirty (l_s1 s) = [] /\ f_dirty (l_s2 s) = [].
Proof. destruct w; cbn; auto. Qed.
Lemma sync_file y1 y2 m c s1 s2 q o a w :
  file_of w (mkL m c (sync y1 s1) (sync y2 s2) q o a) = sync (match w with Slot1 => y1 | Slot2 => y2 end) (match w with Slot1 => s1 | Slot2 => s2 end).
Proof. destruct w; reflexivity. Qed.

(* syncing while one update is in flight *)
Lemma flight_sync s prev y1 y2 q op a :
  flight s prev -> f_dirty (file_of (l_cur s) s) <> [] -> (forall w, flat_map (to_slot w) q = []) ->
  let s' := mkL (l_mem s) (l_cur s) (sync y1 (l_s1 s)) (sync y2 (l_s2 s)) q op a in
  idle s' \/ flight s' prev.
Proof.
  intros G ND Hq s'. destruct (g_state _ _ G) as [[X _]|(X1 & X2 & X3)]; [contradiction|].
  set (y := match l_cur s with Slot1 => y1 | Slot2 => y2 end).
  assert (Fc : file_of (l_cur s) s' = sync y (file_of (l_cur s) s)) by (unfold s', y; destruct (l_cur s); reflexivity).
  assert (Fo : exists y', file_of (other (l_cur s)) s' = sync y' (file_of (other (l_cur s)) s)).
  { unfold s'. destruct (l_cur s); [exists y2|exists y1]; reflexivity. }
  destruct Fo as [y' Fo].
  assert (Do : f_dirty (file_of (other (l_cur s)) s') = []).
  { rewrite Fo. destruct y'; [reflexivity|apply G]. }
  destruct y.
  - left. destruct (both_dirty s' (l_cur s)) as [B1 B2]; [rewrite Fc; reflexivity|exact Do|]. split; [exact B1|split; [exact B2|exact Hq]].
  - right. cbn [sync] in Fc. constructor; cbn [l_cur l_mem].
    + change (l_cur s') with (l_cur s). rewrite Fo, sync_now. apply G.
    + exact Do.
    + apply G.
    + change (l_cur s') with (l_cur s). rewrite Fc. apply G.
    + change (l_cur s') with (l_cur s). rewrite Fc. right. split; [exact X1|split; [exact X2|exact Hq]].
    + apply G.
Qed.

Lemma flight_step s prev e : J s -> W s -> flight s prev -> ev_ok s e -> (forall k y1 y2, e = ETurn k y1 y2 -> (16 <= k)%nat) ->
  (match e with EUpdate _ => settled s | _ => True end) ->
  match e with EUpdate _ => flight (step s e) (l_mem s) | _ => idle (step s e) \/ flight (step s e) prev end.
Proof.
  intros I Wf G O K P.
  destruct e as [v| | |k y1 y2| |b1 b2]; cbn [LatModel.step].
  - exfalso. destruct P as (Qe & D1 & D2). destruct (g_state _ _ G) as [(_ & o & q & X & _)|(X & _)].
    + rewrite Qe in X. discriminate.
    + destruct (l_cur s); cbn in X; [rewrite D1 in X|rewrite D2 in X]; discriminate.
  - right. destruct G as [G1 G2 G3 G4 G5 G6]. constructor; cbn [enqueue l_cur l_mem]; try (destruct (l_cur s); assumption); try assumption.
    destruct G5 as [(X1 & o & q & X2 & X3)|(X1 & X2 & X3)].
    + left. split; [destruct (l_cur s); exact X1|]. exists o, (q ++ [Persist]). split; [cbn; rewrite X2; reflexivity|].
      intros w. rewrite flat_map_app, X3. reflexivity.
    + right. split; [destruct (l_cur s); exact X1|]. split; [destruct (l_cur s); exact X2|]. intros w. cbn. rewrite flat_map_app, X3. reflexivity.
  - right. destruct G as [G1 G2 G3 G4 G5 G6]. constructor; cbn [enqueue l_cur l_mem]; try (destruct (l_cur s); assumption); try assumption.
    destruct G5 as [(X1 & o & q & X2 & X3)|(X1 & X2 & X3)].
    + left. split; [destruct (l_cur s); exact X1|]. exists o, (q ++ [Shutdown]). split; [cbn; rewrite X2; reflexivity|].
      intros w. rewrite flat_map_app, X3. reflexivity.
    + right. split; [destruct (l_cur s); exact X1|]. split; [destruct (l_cur s); exact X2|]. intros w. cbn. rewrite flat_map_app, X3. reflexivity.
  - unfold turn. destruct (l_open s); [|right; exact G]. destruct (l_queue s) as [|c q] eqn:EQ; [right; exact G|].
    specialize (K k y1 y2 eq_refl). destruct (g_state _ _ G) as [(X1 & o & q' & X2 & X3)|(X1 & X2 & X3)].
    + rewrite EQ in X2. injection X2 as -> ->.
      set (s0 := mkL _ _ _ _ q' true _). set (w := l_cur s).
      assert (Fw : file_of w s0 = file_of w s) by (destruct w; reflexivity).
      assert (Fo : file_of (other w) s0 = file_of (other w) s) by (destruct w; reflexivity).
      set (f := overwrite k (encode_slot (l_mem s)) (file_of w s0)).
      assert (Fn : slot_value (f_now f) = l_mem s).
      { unfold f. rewrite overwrite_full by exact K. apply value_encode. apply G. }
      destruct ((16 <=? k)%nat && negb (o =? fst (l_mem s))).
      * destruct y1.
        -- left. destruct (both_dirty (set_file w (sync true f) s0) w) as [B1 B2].
           ++ rewrite file_set_same. reflexivity.
           ++ rewrite file_set_other, Fo. apply G.
           ++ split; [exact B1|split; [exact B2|]]. intros w'. destruct (set_file_rest w (sync true f) s0) as (_ & _ & -> & _). apply X3.
        -- right. cbn [sync]. destruct (set_file_rest w f s0) as (R1 & R2 & R3 & _).
           constructor; rewrite ?R1, ?R2; change (l_cur s0) with w; rewrite ?file_set_same, ?file_set_other, ?Fo.
           ++ apply G.
           ++ apply G.
           ++ apply G.
           ++ unfold f. cbn [f_disk overwrite]. rewrite Fw. apply G.
           ++ right. split; [unfold f; cbn [f_dirty overwrite f_now]; rewrite Fw; unfold w at 2; rewrite X1; reflexivity|].
              split; [exact Fn|]. intros w'. rewrite R3. apply X3.
           ++ apply G.
      * right. destruct (set_file_rest w f s0) as (R1 & R2 & R3 & _).
        constructor; rewrite ?R1, ?R2; change (l_cur s0) with w; rewrite ?file_set_same, ?file_set_other, ?Fo.
        -- apply G.
        -- apply G.
        -- apply G.
        -- unfold f. cbn [f_disk overwrite]. rewrite Fw. apply G.
        -- right. split; [unfold f; cbn [f_dirty overwrite f_now]; rewrite Fw; unfold w at 2; rewrite X1; reflexivity|].
           split; [exact Fn|]. intros w'. rewrite R3. apply X3.
        -- apply G.
    + pose proof (no_upd_head s c q X3 EQ) as Hc. pose proof (no_upd_tail s c q X3 EQ) as Hq.
      assert (ND : f_dirty (file_of (l_cur s) s) <> []) by (rewrite X1; discriminate).
      destruct c as [old v w| |]; [exfalso; exact (Hc old v w eq_refl)| |]; apply (flight_sync s prev); assumption.
  - pose proof (open_mem (l_s1 s) (l_s2 s)) as (E1 & E2 & E3 & _ & E4 & E5). set (s' := open_slots crc (l_s1 s) (l_s2 s)) in *.
    assert (Fs : forall w, file_of w s' = file_of w s) by (intros w; destruct w; assumption).
    destruct (g_state _ _ G) as [(X1 & o & q & X2 & X3)|(X1 & X2 & X3)].
    + left. destruct (both_dirty s' (l_cur s)) as [B1 B2]; [rewrite Fs; exact X1|rewrite Fs; apply G|].
      split; [exact B1|split; [exact B2|]]. intros w. rewrite E3. reflexivity.
    + right. assert (M : l_mem s' = l_mem s) by exact (J_kill s I X3).
      assert (C : l_cur s' = l_cur s).
      { destruct (which_cases (l_cur s) (l_cur s')) as [C|C]; [exact C|]. exfalso. rewrite C, Fs, M in E4.
        rewrite (g_cur _ _ G) in E4. pose proof (g_lt _ _ G) as L. rewrite E4 in L. exact (later_irr _ L). }
      constructor; rewrite ?C, ?M, ?Fs; try apply G. right. split; [exact X1|split; [exact X2|]]. intros w. rewrite E3. reflexivity.
  - left. apply idle_open; reflexivity.
Qed.

(* a crash while one update is in flight: the value before it, or it *)
Lemma flight_crash s prev b1 b2 : W s -> flight s prev -> survives crc (l_s1 s) b1 -> survives crc (l_s2 s) b2 ->
  l_mem (step s (ECrash b1 b2)) = l_mem s \/ l_mem (step s (ECrash b1 b2)) = prev.
Proof.
  intros Wf G A B. cbn [LatModel.step]. set (b := fun w => match w with Slot1 => b1 | Slot2 => b2 end).
  assert (S : forall w, survives crc (file_of w s) (b w)) by (intros w; destruct w; assumption).
  pose proof (S (other (l_cur s))) as So. pose proof (S (l_cur s)) as Sc. unfold survives in So. rewrite (g_clean _ _ G) in So.
  assert (Vo : slot_value (b (other (l_cur s))) = prev) by (rewrite So; apply G).
  assert (Vc : slot_value (b (l_cur s)) = l_mem s \/ not_later (slot_value (b (l_cur s))) prev).
  { unfold survives in Sc. destruct (f_dirty (file_of (l_cur s) s)) as [|d ds] eqn:ED.
    - destruct (g_state _ _ G) as [(X1 & o & q & X2 & X3)|(X1 & _)]; [|rewrite ED in X1; discriminate].
      right. rewrite Sc. rewrite (W_file s (l_cur s) Wf ED). apply G.
    - destruct Sc as [->|[H|H]].
      + right. apply G.
      + left. destruct (g_state _ _ G) as [[X1 _]|(X1 & X2 & _)]; [rewrite ED in X1; discriminate|]. rewrite ED in X1. rewrite X1 in H.
        destruct H as [<-|[]]. exact X2.
      + right. unfold LatModel.slot_value. rewrite H. apply nl_zero. }
  destruct Vc as [Vc|Vc].
  - left. apply (open_value _ _ (l_cur s)); destruct (l_cur s); cbn in *; try exact Vc; rewrite Vo; right; apply G.
  - right. apply (open_value _ _ (other (l_cur s))); destruct (l_cur s); cbn in *; assumption.
Qed.
End P.
