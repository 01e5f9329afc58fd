(* C26: the digest index is a map. *)
From Verif Require Import Util HdxModel HdxSpec HdxProofs HdxProofs2.

(* Whatever the hash function, bucket size, split threshold, cache size and order of the bucket cache: every run of
   saves, loads, length queries, syncs, reopenings and crashes answers exactly as a map from keys to the position last
   saved, with a durable copy taken by sync and by closing. No step panics or fails to stop. *)
Theorem C26_index_is_a_map c n ops xs s :
  hcfg_ok c -> Forall no_rot ops -> hrun c (new_hdx c n) ops = (xs, s) ->
  exists sp, hspec_run false (mk_hspec (mk_hmap [] n) (mk_hmap [] n) false) ops xs sp.
Proof.
  intros OK Hn Hr.
  destruct (run_spec c OK true ops _ _ _ _ (fresh_inv c OK true n) (fun _ => Hn) (fun H => False_ind _ (diff_true_false H)) Hr)
    as [sp [H _]]. eauto.
Qed.

(* The same in one formula: after any run, looking up a key gives the position last saved for it, or NotFound. *)
Definition saved_since_start (ops : list hop) : list elem :=
  rev (flat_map (fun o => match o with HSave k p => [(k, p)] | _ => [] end) ops).
Definition volatile_free (o : hop) : Prop := match o with HCrash _ | HReopen true => False | _ => no_rot o end.

Lemma run_cons_inv rot s o os xs s2 : hspec_run rot s (o :: os) xs s2 ->
  exists x xs' s1, xs = x :: xs' /\ hspec_step rot s o x s1 /\ hspec_run rot s1 os xs' s2.
Proof. intros H. inversion H; subst. eauto 8. Qed.

Lemma spec_run_saves rot ops : forall sp xs sp', Forall volatile_free ops -> p_ro sp = false ->
  hspec_run rot sp ops xs sp' -> m_saves (p_cur sp') = saved_since_start ops ++ m_saves (p_cur sp).
Proof.
  unfold saved_since_start.
  induction ops as [|o ops IH]; intros sp xs sp' Hv Hro Hr.
  - inversion Hr; subst. auto.
  - inversion Hv; subst. apply run_cons_inv in Hr as (x & xs0 & s1 & -> & H4 & Hr). cbn [flat_map]. rewrite rev_app_distr, <- app_assoc.
    assert (Hx : p_ro s1 = false /\ m_saves (p_cur s1) = rev (match o with HSave k p => [(k, p)] | _ => [] end) ++ m_saves (p_cur sp)).
    { inversion H4; subst; cbn; try (unfold saves_of; auto; fail); try congruence; try tauto; try contradiction.
      destruct ro; cbn in *; auto; contradiction. }
    destruct Hx as [Hx1 Hx2]. rewrite <- Hx2. apply IH with xs0; auto.
Qed.

Theorem C26_lookup c n ops k xs s :
  hcfg_ok c -> Forall volatile_free ops ->
  hrun c (new_hdx c n) (ops ++ [HLoad k]) = (xs, s) ->
  (forall p, latest k (saved_since_start ops) (Some p) -> last xs ZUnit = ZPos p) /\
  (latest k (saved_since_start ops) None -> last xs ZUnit = ZFail HNotFound).
Proof.
  intros OK Hv Hr.
  assert (Hn : Forall no_rot (ops ++ [HLoad k])).
  { apply Forall_app. split; [|repeat constructor]. eapply Forall_impl; [|exact Hv].
    intros o. destruct o as [ | | | | | |[|]| | | | ]; cbn; auto. }
  destruct (C26_index_is_a_map c n _ _ _ OK Hn Hr) as [sp Hs]. clear Hr Hn.
  assert (Hsplit : exists xs1 x sp1, xs = xs1 ++ [x] /\ hspec_run false (mk_hspec (mk_hmap [] n) (mk_hmap [] n) false) ops xs1 sp1 /\
             hspec_step false sp1 (HLoad k) x sp).
  { clear Hv. revert xs Hs. generalize (mk_hspec (mk_hmap [] n) (mk_hmap [] n) false).
    induction ops as [|o ops IH]; intros sp0 xs Hs; cbn [app] in Hs; apply run_cons_inv in Hs as (x & xs0 & s1 & -> & Hst & Hs').
    - inversion Hs'; subst. exists [], x, sp0. split; auto. split; [constructor|auto].
    - destruct (IH _ _ Hs') as (xs1 & y & sp1 & -> & Ha & Hb). exists (x :: xs1), y, sp1. split; auto. split; auto.
      econstructor; eauto. }
  destruct Hsplit as (xs1 & x & sp1 & -> & H1 & H2). rewrite last_last.
  apply spec_run_saves in H1; auto. cbn [p_cur m_saves] in H1. rewrite app_nil_r in H1. rewrite <- H1.
  assert (Hdet : forall r1 r2, latest k (m_saves (p_cur sp1)) r1 -> latest k (m_saves (p_cur sp1)) r2 -> r1 = r2).
  { intros r1 r2 A B. apply latest_find in A, B. congruence. }
  unfold saves_of in *. inversion H2; subst; try discriminate.
  - split; [intros q Hq; specialize (Hdet _ _ Hq H3); injection Hdet as ->; auto|intros Hq; specialize (Hdet _ _ Hq H3); discriminate].
  - split; [intros q Hq; specialize (Hdet _ _ Hq H3); discriminate|auto].
Qed.

(* With damage to the files at any time: as long as no save reported an error, a lookup answers the position last saved
   or an error, never another position. *)
Theorem C26_damage_never_lies c n ops xs s :
  hcfg_ok c -> hrun c (new_hdx c n) ops = (xs, s) -> Forall2 save_ok ops xs ->
  exists sp, hspec_run true (mk_hspec (mk_hmap [] n) (mk_hmap [] n) false) ops xs sp.
Proof.
  intros OK Hr Hs.
  destruct (run_spec c OK false ops _ _ _ _ (fresh_inv c OK false n) (fun H => False_ind _ (diff_false_true H)) (fun _ => Hs) Hr)
    as [sp [H _]]. eauto.
Qed.

(* the bloom filter never hides a key accrued into it, whatever was accrued after *)
Theorem C26_bloom_no_false_negative c ks1 k ks2 : hcfg_ok c ->
  bl_contains c (fold_left (bl_accrue c) (ks1 ++ k :: ks2) (repeat 0%N (hc_bloom c))) k = true.
Proof.
  intros OK.
  assert (H : forall ks bl sv, bloom_ok c true bl sv -> bloom_ok c true (fold_left (bl_accrue c) ks bl) (rev (map (fun k => (k, 0%N)) ks) ++ sv)).
  { induction ks as [|a ks IH]; intros bl sv Hb; cbn [fold_left map rev app]; auto.
    rewrite <- app_assoc. cbn [app]. apply IH. apply bloom_ok_accrue; auto. }
  destruct (H (ks1 ++ k :: ks2) (repeat 0%N (hc_bloom c)) []) as [_ Hc].
  { split; [apply repeat_length|]. intros _ x []. }
  apply Hc; auto. rewrite app_nil_r, map_rev, map_map. cbn [fst]. rewrite map_id, <- in_rev. apply in_or_app. right; left; auto.
Qed.

(* ---------- the configuration of the code meets the hypotheses (the threshold in exact arithmetic) ---------- *)
Definition code_cfg (h : key -> N) : hcfg :=
  mk_hcfg 32 1000 (16 + 40 * 32) (400 * 1000) (2 * 1024 * 1024) 8
          (fun cap => N.to_nat (N.of_nat cap * 32767 / 65535)) h (fun l => l).
Theorem C26_code_cfg_ok h : hcfg_ok (code_cfg h).
Proof.
  constructor; cbn [code_cfg hc_elems hc_init hc_bsize hc_bloom hc_thresh hc_drain].
  - lia.
  - apply Nat.lt_0_succ.
  - apply Nat.lt_0_succ.
  - apply Nat.mul_pos_pos; [apply Nat.mul_pos_pos; [apply Nat.lt_0_succ|apply Nat.lt_0_succ]|apply Nat.lt_0_succ].
  - intros n. lia.
  - intros l. apply Permutation_refl.
Qed.

(* ---------- a small configuration: 2 elements per bucket, 1 bucket, cache of 1, all keys collide modulo 4 ---------- *)
Definition tiny : hcfg := mk_hcfg 2 1 100 1 4 3 (fun cap => cap) (fun k => (4 * nth 0 k 0)%N) (fun l => l).
Theorem C26_tiny_ok : hcfg_ok tiny.
Proof. constructor; cbn; try lia. intros l. apply Permutation_refl. Qed.
Definition kk (n : N) : key := [n; (7 * n)%N; (n * n)%N].
Arguments kk _%N_scope.
(* six collisions: overflow chain, splits, a re-save, a close and a read-only reopening *)
Definition tiny_ops : list hop :=
  [HSave (kk 1) 10; HSave (kk 2) 20; HSave (kk 3) 30; HSave (kk 4) 40; HSave (kk 5) 50; HSave (kk 1) 11;
   HLoad (kk 1); HLoad (kk 3); HLoad (kk 6); HReopen true; HLoad (kk 1); HSave (kk 9) 9; HLoad (kk 5)].
Theorem C26_tiny_run :
  fst (hrun tiny (new_hdx tiny 26) tiny_ops) =
    [ZUnit; ZUnit; ZUnit; ZUnit; ZUnit; ZUnit; ZPos 11; ZPos 30; ZFail HNotFound; ZUnit; ZPos 11; ZFail HReadOnly; ZPos 50]
  /\ 1 < hx_buckets (snd (hrun tiny (new_hdx tiny 26) tiny_ops))
  /\ length (o_recs (hx_odx (snd (hrun tiny (new_hdx tiny 26) tiny_ops)))) > 0
  /\ Forall no_rot tiny_ops.
Proof. split; [vm_compute; reflexivity|]. split; [vm_compute; lia|]. split; [vm_compute; lia|]. repeat constructor. Qed.

(* a crash brings back the last synced map *)
Theorem C26_crash_run :
  fst (hrun tiny (new_hdx tiny 26)
        [HSave (kk 1) 10; HSave (kk 2) 20; HSave (kk 3) 30; HSync; HSave (kk 4) 40; HSave (kk 1) 11; HSave (kk 5) 50; HCrash 200;
         HLoad (kk 1); HLoad (kk 3); HLoad (kk 4)]) =
    [ZUnit; ZUnit; ZUnit; ZUnit; ZUnit; ZUnit; ZUnit; ZUnit; ZPos 10; ZPos 30; ZFail HNotFound].
Proof. vm_compute. reflexivity. Qed.

(* ---------- what is not true ---------- *)
(* length counts a key again when its earlier entry has moved to an overflow record: two keys, length three *)
Definition wide : hcfg := mk_hcfg 2 1 100 1 4 3 (fun cap => 10 * cap) (fun k => 0%N) (fun l => l).
Theorem C26_length_is_not_key_count_refuted :
  exists ops, (forall k p, In (HSave k p) ops -> k = kk 1 \/ k = kk 2) /\
    last (fst (hrun wide (new_hdx wide 26) (ops ++ [HLen]))) ZUnit = ZNum 3.
Proof.
  exists [HSave (kk 1) 10; HSave (kk 2) 20; HSave (kk 1) 11]. split.
  - intros k p H. cbn [In] in H. destruct H as [H|[H|[H|[]]]]; injection H as <- <-; auto.
  - vm_compute. reflexivity.
Qed.

(* an overflow record that cannot be read (as opposed to one with a bad checksum) makes a stored key NotFound *)
Theorem C26_unreadable_overflow_refuted :
  fst (hrun wide (new_hdx wide 26)
    [HSave (kk 1) 10; HSave (kk 2) 20; HSave (kk 3) 30; HRotOverflow 28 false; HLoad (kk 1); HLoad (kk 3)])
  = [ZUnit; ZUnit; ZUnit; ZUnit; ZFail HNotFound; ZPos 30].
Proof. vm_compute. reflexivity. Qed.

(* A save that fails because the bucket being split has a damaged overflow record throws the bucket's unsynced contents
   away: the key saved as 12, and read back as 12, then
   reads as 11. *)
Definition slow : hcfg := mk_hcfg 2 1 100 1 4 3 (fun cap => cap + 2) (fun k => 0%N) (fun l => l).
Theorem C26_failed_split_refuted :
  fst (hrun slow (new_hdx slow 26)
    [HSave (kk 1) 10; HSave (kk 2) 20; HSave (kk 1) 11; HSync; HSave (kk 1) 12; HSave (kk 3) 30; HLoad (kk 1);
     HRotOverflow 28 true; HSave (kk 4) 40; HLoad (kk 1); HLoad (kk 3)])
  = [ZUnit; ZUnit; ZUnit; ZUnit; ZUnit; ZUnit; ZPos 12; ZUnit; ZFail HCrc; ZPos 11; ZFail HCrc].
Proof. vm_compute. reflexivity. Qed.

(* A stop between writing the buckets and writing the header loses keys that an earlier sync had made durable. *)
Definition par : hcfg := mk_hcfg 2 1 100 1 4 3 (fun cap => cap) (fun k => nth 0 k 0%N) (fun l => l).
Theorem C26_crash_in_sync_refuted :
  let s1 := snd (hrun par (new_hdx par 26) [HSave (kk 1) 10; HSave (kk 2) 20; HSync; HSave (kk 4) 40]) in
  fst (hstep par s1 (HLoad (kk 1))) = ZPos 10 /\
  fst (hstep par (crash_in_sync par s1 2) (HLoad (kk 1))) = ZFail HNotFound.
Proof. split; vm_compute; reflexivity. Qed.

(* the configurations used above are admissible, so the failures come from the code and not from odd constants *)
Theorem C26_refuting_cfgs_ok : hcfg_ok wide /\ hcfg_ok slow /\ hcfg_ok par.
Proof. repeat split; cbn; try lia; intros l; apply Permutation_refl. Qed.
