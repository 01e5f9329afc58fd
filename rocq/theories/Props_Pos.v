(* C25: the position index is an append-only array. *)
From Verif Require Import Util FileModel FileSpec FileProofs PackModel PackProofs PosModel PosSpec PosProofs.

(* the two value types of the code *)
Lemma u64_ok : pcodec_ok u64_pc (fun v => v < 2 ^ 64)%N.
Proof.
  constructor; cbn [u64_pc pc_len pc_enc pc_dec]; [lia|intros; apply le_length|].
  intros v Hv. now rewrite unle_le_id.
Qed.
Lemma pair_ok : pcodec_ok pair_pc (fun v => fst v < 2 ^ 64 /\ snd v < 2 ^ 64)%N.
Proof.
  constructor; cbn [pair_pc pc_len pc_enc pc_dec]; [lia|intros; rewrite app_length, !le_length; reflexivity|].
  intros [a b] [Ha Hb]. cbn [fst snd] in *. rewrite slice_cat_l by now rewrite le_length.
  rewrite slice_cat_r0 by apply le_length. rewrite <- (le_length 8 b) at 2. rewrite slice_all.
  now rewrite !unle_le_id.
Qed.

Section C25.
Context {T : Type}.
Variable P : pcodec T.
Variable good : T -> Prop.
Variable crcf : bytes -> N.
Variable rsz wsz : nat.
Variable dh : header.
Notation step := (pdx_step P crcf rsz wsz dh).
Notation run := (pdx_run P crcf rsz wsz dh).
(* buffers that can hold the header, header fields and checksums of their sizes *)
Definition setting : Prop :=
  pcodec_ok P good /\ (forall b, crcf b < 2 ^ 32)%N /\ 0 < rsz /\ PDX_HEADER_SIZE < wsz /\
  (h_version dh < 2 ^ 16 /\ h_uid dh < 2 ^ 64 /\ h_app dh < 2 ^ 32)%N.

(* A new index opens, and every sequence of operations on it - saves, loads, iterations, truncations, syncs, reopenings and
   crashes at any point - answers like the list of PosSpec.v. *)
Theorem C25_behaves_like_list : setting ->
  exists f0, pdx_open P crcf rsz wsz dh [] 0 false = IOk f0 /\
  forall ops, Forall (iop_ok good) ops -> exists s, arr_run (mk_arr [] 0 false) ops (fst (run ops f0)) s.
Proof.
  intros (A & B & C & D & E). destruct (fresh_pinv P good A crcf B rsz wsz C D dh E) as (f0 & E0 & I).
  exists f0. split; auto. intros ops F. destruct (pdx_run_ok P good A crcf B rsz wsz C D dh E ops f0 _ I F) as (s & R & _). eauto.
Qed.

Lemma run_inv ops f0 : setting -> pdx_open P crcf rsz wsz dh [] 0 false = IOk f0 -> Forall (iop_ok good) ops ->
  exists s, pinv P good crcf dh (snd (run ops f0)) s.
Proof.
  intros (A & B & C & D & E) E0 F. destruct (fresh_pinv P good A crcf B rsz wsz C D dh E) as (f & E1 & I).
  rewrite E0 in E1. injection E1 as <-. destruct (pdx_run_ok P good A crcf B rsz wsz C D dh E ops f0 _ I F) as (s & _ & I'). eauto.
Qed.

(* operations that cannot remove entry n *)
Definition keeps_entry (n : nat) (o : iop (T := T)) : Prop :=
  match o with JTruncTo k => n <= k | JTruncAll | JCrash _ => False | _ => True end.
Definition keeps_entry_or_crash (n : nat) (o : iop (T := T)) : Prop :=
  match o with JTruncTo k => n <= k | JTruncAll => False | _ => True end.

Lemma nth_error_firstn_lt {A} (l : list A) k n : n < k -> nth_error (firstn k l) n = nth_error l n.
Proof. revert l n. induction k as [|k IH]; intros l n H; [lia|]. destruct l, n; simpl; auto. apply IH. lia. Qed.

Lemma keep_entry_step s o x s' n v : arr_step s o x s' -> nth_error (a_vals s) n = Some v -> keeps_entry n o -> nth_error (a_vals s') n = Some v.
Proof.
  intros S E K. assert (L : n < length (a_vals s)) by (apply nth_error_Some; congruence).
  destruct S; cbn [keeps_entry] in K; cbn [a_vals]; auto; try contradiction.
  - now rewrite nth_error_app1.
  - rewrite nth_error_firstn_lt; auto. lia.
Qed.
Lemma safe_entry_step s o x s' n v : arr_step s o x s' -> nth_error (a_vals s) n = Some v -> n < a_safe s -> keeps_entry_or_crash n o ->
  nth_error (a_vals s') n = Some v /\ n < a_safe s'.
Proof.
  intros S E Hs K. assert (L : n < length (a_vals s)) by (apply nth_error_Some; congruence).
  destruct S; cbn [keeps_entry_or_crash] in K; cbn [a_vals a_safe]; try contradiction;
    rewrite ?nth_error_app1, ?nth_error_firstn_lt by lia; split; auto; lia.
Qed.

Lemma keep_entry_run ops n v : setting -> forall f s, pinv P good crcf dh f s -> Forall (iop_ok good) ops -> Forall (keeps_entry n) ops ->
  nth_error (a_vals s) n = Some v -> exists s', pinv P good crcf dh (snd (run ops f)) s' /\ nth_error (a_vals s') n = Some v.
Proof.
  intros (A & B & C & D & E). induction ops as [|o ops IH]; intros f s I F K En; [eauto|].
  inversion F; subst. inversion K; subst. cbn [pdx_run].
  destruct (pdx_step_ok P good A crcf B rsz wsz C D dh E o f s I H1) as (s1 & S1 & I1).
  destruct (step o f) as [x f1]. cbn [fst snd] in *.
  destruct (IH f1 s1 I1 H2 H4) as (s2 & I2 & E2); [eapply keep_entry_step; eauto|].
  destruct (run ops f1) as [xs f2]. cbn [snd] in *. eauto.
Qed.
Lemma safe_entry_run ops n v : setting -> forall f s, pinv P good crcf dh f s -> Forall (iop_ok good) ops -> Forall (keeps_entry_or_crash n) ops ->
  nth_error (a_vals s) n = Some v -> n < a_safe s ->
  exists s', pinv P good crcf dh (snd (run ops f)) s' /\ nth_error (a_vals s') n = Some v.
Proof.
  intros (A & B & C & D & E). induction ops as [|o ops IH]; intros f s I F K En Hs; [eauto|].
  inversion F; subst. inversion K; subst. cbn [pdx_run].
  destruct (pdx_step_ok P good A crcf B rsz wsz C D dh E o f s I H1) as (s1 & S1 & I1).
  destruct (step o f) as [x f1]. cbn [fst snd] in *.
  destruct (safe_entry_step _ _ _ _ _ _ S1 En Hs H3) as [E1 Hs1].
  destruct (IH f1 s1 I1 H2 H4 E1 Hs1) as (s2 & I2 & E2).
  destruct (run ops f1) as [xs f2]. cbn [snd] in *. eauto.
Qed.
Lemma load_entry f s n v : setting -> pinv P good crcf dh f s -> nth_error (a_vals s) n = Some v -> fst (step (JLoad n) f) = YVal v.
Proof.
  intros (A & B & C & D & E) I En.
  destruct (pdx_step_ok P good A crcf B rsz wsz C D dh E (JLoad n) f s I Logic.I) as (s1 & S1 & _).
  revert S1. generalize (fst (step (JLoad n) f)). intros x S1. inversion S1; subst; congruence.
Qed.
Lemma save_entry f s n v : setting -> pinv P good crcf dh f s -> good v -> fst (step (JSave n v) f) = YUnit ->
  exists s', pinv P good crcf dh (snd (step (JSave n v) f)) s' /\ nth_error (a_vals s') n = Some v.
Proof.
  intros (A & B & C & D & E) I G Ex.
  destruct (pdx_step_ok P good A crcf B rsz wsz C D dh E (JSave n v) f s I G) as (s1 & S1 & I1).
  exists s1. split; auto. rewrite Ex in S1. inversion S1; subst. cbn [a_vals]. rewrite nth_error_app2, Nat.sub_diag; auto.
Qed.

(* A value saved under a key is what load returns for that key, after any operations that do not truncate it away. *)
Theorem C25_load_returns_saved : forall f0 before n v after, setting ->
  pdx_open P crcf rsz wsz dh [] 0 false = IOk f0 -> Forall (iop_ok good) (before ++ JSave n v :: after) ->
  let f1 := snd (run before f0) in
  fst (step (JSave n v) f1) = YUnit ->
  Forall (keeps_entry n) after ->
  fst (step (JLoad n) (snd (run after (snd (step (JSave n v) f1))))) = YVal v.
Proof.
  intros f0 before n v after HS E0 F f1 Ex K. apply Forall_app in F. destruct F as [F1 F]. inversion F; subst.
  destruct (run_inv before f0 HS E0 F1) as (s & I). fold f1 in I.
  destruct (save_entry f1 s n v HS I H1 Ex) as (s1 & I1 & E1).
  destruct (keep_entry_run after n v HS _ s1 I1 H2 K E1) as (s2 & I2 & E2).
  eapply load_entry; eauto.
Qed.

(* Once synced, it also survives every later crash. *)
Theorem C25_synced_entry_survives_crash : forall f0 before n v between after, setting ->
  pdx_open P crcf rsz wsz dh [] 0 false = IOk f0 -> Forall (iop_ok good) (before ++ JSave n v :: between ++ after) ->
  let f1 := snd (run before f0) in
  fst (step (JSave n v) f1) = YUnit ->
  Forall (keeps_entry n) between ->
  let f2 := snd (run between (snd (step (JSave n v) f1))) in
  Forall (keeps_entry_or_crash n) after ->
  fst (step (JLoad n) (snd (run after (snd (step JSync f2))))) = YVal v.
Proof.
  intros f0 before n v between after HS E0 F f1 Ex K f2 K'. apply Forall_app in F. destruct F as [F1 F]. inversion F; subst.
  apply Forall_app in H2. destruct H2 as [F2 F3].
  destruct (run_inv before f0 HS E0 F1) as (s & I). fold f1 in I.
  destruct (save_entry f1 s n v HS I H1 Ex) as (s1 & I1 & E1).
  destruct (keep_entry_run between n v HS _ s1 I1 F2 K E1) as (s2 & I2 & E2). fold f2 in I2.
  pose proof HS as (A & B & C & D & E).
  destruct (pdx_step_ok P good A crcf B rsz wsz C D dh E JSync f2 s2 I2 Logic.I) as (s3 & S3 & I3).
  assert (Q : a_vals s3 = a_vals s2 /\ a_safe s3 = length (a_vals s2)) by (inversion S3; subst; auto).
  destruct Q as [Q1 Q2].
  destruct (safe_entry_run after n v HS _ s3 I3 F3 K') as (s4 & I4 & E4); [now rewrite Q1|rewrite Q2; apply nth_error_Some; congruence|].
  eapply load_entry; eauto.
Qed.

(* The header of a new index is only buffered: a crash that leaves 1 to 25 of its bytes makes every later open fail, so
   the index has to be deleted by hand. *)
Theorem C25_torn_header_refuted : forall n ro, 0 < rsz -> 0 < n -> n < 26 ->
  pdx_open P crcf rsz wsz dh (firstn n (pdx_header crcf dh)) 0 ro = IFail (IIo Eof).
Proof.
  intros n ro Hr Hn Hlt. unfold pdx_open.
  set (os := firstn n (pdx_header crcf dh)).
  assert (L : length os = n) by (unfold os; rewrite firstn_length, head_length; lia).
  destruct (open_ok rsz os 0 ro (Nat.le_0_l _)) as (f & -> & W & A & O & S).
  assert (Ld : df_len f = n) by (rewrite <- abs_len, A by auto; cbn [p_bytes]; exact L).
  destruct (Nat.eqb_spec (df_len f) 0); [lia|]. rewrite seek_start.
  destruct (read_exact_ok rsz PDX_HEADER_SIZE (set_pos f 0) Hr (wf_set_pos _ _ W)) as (r & f1 & -> & _ & _ & _ & HH).
  change (df_len (set_pos f 0)) with (df_len f) in HH. cbn [f_pos set_pos] in HH. unfold PDX_HEADER_SIZE in HH.
  destruct HH as [(HH & _)|(_ & -> & _)]; [lia|reflexivity].
Qed.
End C25.

(* a concrete index of pairs with tiny buffers, through every kind of operation *)
Definition ex_hdr : header := mk_hdr 1 77 1 false.
Definition ex_crc (b : bytes) : N := (fold_left (fun a x => a * 31 + x + 1) b 7 mod 2 ^ 32)%N.
Example C25_setting_met : setting pair_pc (fun v => fst v < 2 ^ 64 /\ snd v < 2 ^ 64)%N ex_crc 5 30 ex_hdr.
Proof.
  split; [apply pair_ok|]. split; [intros b; unfold ex_crc; apply N.mod_lt; discriminate|].
  unfold PDX_HEADER_SIZE. split; [lia|]. split; [lia|]. repeat split; reflexivity.
Qed.
Definition ex_ops : list (iop (T := N * N)) :=
  [JSave 0 (7, 8)%N; JSave 2 (1, 1)%N; JSave 1 (9, 300)%N; JSync; JSave 2 (5, 6)%N; JLoad 1; JLoad 3; JIter 9; JRevIter 2; JCrash 64; JLen;
   JSave 2 (4, 4)%N; JTruncTo 1; JLen; JTruncTo 5; JReopen true; JSave 2 (1, 1)%N; JRevIter 9; JTruncAll; JReopen false; JTruncAll; JIter 3; JCrash 0; JLen].
Example C25_example :
  Forall (iop_ok (fun v => fst v < 2 ^ 64 /\ snd v < 2 ^ 64)%N) ex_ops /\
  match pdx_open pair_pc ex_crc 5 30 ex_hdr [] 0 false with IOk f => fst (pdx_run pair_pc ex_crc 5 30 ex_hdr ex_ops f) | _ => [] end
  = [YUnit; YFail INotNext; YUnit; YUnit; YUnit; YVal (9, 300)%N; YFail INotFound; YVals [Some (7, 8); Some (9, 300); Some (5, 6)]%N;
     YVals [Some (5, 6); Some (9, 300)]%N; YUnit; YNum 2; YUnit; YUnit; YNum 2; YUnit; YUnit; YFail (IIo ReadOnly); YVals [Some (9, 300); Some (7, 8)]%N; YFail (IIo OsErr);
     YUnit; YUnit; YVals []; YUnit; YNum 0].
Proof.
  split.
  - apply Forall_forall. intros o Ho. unfold ex_ops in Ho. cbn [In] in Ho.
    repeat (destruct Ho as [<-|Ho]; [unfold iop_ok, PDX_HEADER_SIZE; first [exact Logic.I | split; reflexivity | lia]|]). destruct Ho.
  - vm_compute. reflexivity.
Qed.
