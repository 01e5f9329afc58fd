(* The buffered file refines the plain byte array. *)
From Verif Require Import Util FileModel FileSpec.

Lemma slice_length l off n : length (slice l off n) = Nat.min n (length l - off).
Proof. unfold slice. now rewrite firstn_length, skipn_length. Qed.
Lemma slice_full l off n : off + n <= length l -> length (slice l off n) = n.
Proof. intros. rewrite slice_length. lia. Qed.
Lemma slice_0 l off : slice l off 0 = [].
Proof. reflexivity. Qed.
Lemma slice_all l : slice l 0 (length l) = l.
Proof. unfold slice; simpl. apply firstn_all. Qed.
Lemma slice_past l off n : length l <= off -> slice l off n = [].
Proof. intros. unfold slice. rewrite skipn_all2 by lia. now rewrite firstn_nil. Qed.
Lemma skipn_skipn' {A} (l : list A) a b : skipn a (skipn b l) = skipn (b + a) l.
Proof.
  revert l; induction b as [|b IH]; intros l; simpl; auto.
  destruct l; simpl; auto. now rewrite skipn_nil.
Qed.
Lemma slice_slice l o n o' n' : o' + n' <= n -> slice (slice l o n) o' n' = slice l (o + o') n'.
Proof.
  intros H. unfold slice. rewrite skipn_firstn_comm, firstn_firstn, skipn_skipn'.
  f_equal. lia.
Qed.
Lemma slice_app_l a b o n : o + n <= length a -> slice (a ++ b) o n = slice a o n.
Proof.
  intros H. unfold slice. rewrite skipn_app, firstn_app, skipn_length.
  replace (n - (length a - o)) with 0 by lia. simpl. now rewrite app_nil_r.
Qed.
Lemma slice_app_r a b o n : length a <= o -> slice (a ++ b) o n = slice b (o - length a) n.
Proof. intros H. unfold slice. rewrite skipn_app, skipn_all2 by lia. reflexivity. Qed.
Lemma slice_firstn l k o n : o + n <= k -> slice (firstn k l) o n = slice l o n.
Proof.
  intros H. unfold slice. rewrite skipn_firstn_comm, firstn_firstn. f_equal. lia.
Qed.
Lemma slice_app_cat l o n m : slice l o n ++ slice l (o + n) m = slice l o (n + m).
Proof.
  unfold slice. rewrite <- skipn_skipn'.
  generalize (skipn o l) as k; clear. induction n as [|n IH]; intros k; simpl; auto.
  destruct k; simpl; [now rewrite firstn_nil|]. now rewrite IH.
Qed.

Record wf_df (f : dfile) : Prop := {
  wf_end : f_end f <= length (f_os f);
  wf_rw : f_ro f = false -> f_end f = length (f_os f);
  wf_w : f_ro f = true -> f_w f = [];
  wf_r : f_r f = slice (f_os f) (f_rs f) (length (f_r f));
  wf_rend : f_rs f + length (f_r f) <= f_end f;
  wf_safe : f_safe f <= length (f_os f) }.

Definition abs (f : dfile) : plain :=
  mk_plain (firstn (f_end f) (f_os f) ++ f_w f) (skipn (f_end f) (f_os f)) (f_pos f) (f_ro f).

Lemma abs_len f : wf_df f -> length (p_bytes (abs f)) = df_len f.
Proof. intros H. unfold abs, df_len; simpl. rewrite app_length, firstn_length. pose proof (wf_end _ H). lia. Qed.

Lemma os_read_ok os off n : off + n <= length os -> os_read os off n = FOk (slice os off n).
Proof. intros H. unfold os_read. destruct (Nat.leb_spec (off + n) (length os)); [auto|lia]. Qed.

Lemma open_ok rsz os safe ro : safe <= length os ->
  exists f, df_open rsz os safe ro = FOk f /\ wf_df f /\ abs f = mk_plain os [] 0 ro /\ f_os f = os /\ f_safe f = safe.
Proof.
  intros Hs. unfold df_open.
  set (n := if length os <? rsz then length os else rsz).
  assert (n <= length os) by (unfold n; destruct (Nat.ltb_spec (length os) rsz); lia).
  rewrite os_read_ok by lia. eexists; split; [reflexivity|]. split; [|split; [|split; reflexivity]].
  - constructor; simpl; auto.
    + rewrite slice_full by lia. reflexivity.
    + rewrite slice_full by lia. lia.
  - unfold abs; simpl. now rewrite firstn_all, skipn_all, app_nil_r.
Qed.

Lemma drain_ok f : wf_df f -> f_ro f = false ->
  wf_df (df_drain f) /\ abs (df_drain f) = abs f.
Proof.
  intros H Hro. pose proof (wf_rw _ H Hro) as He. destruct H. split.
  - constructor; simpl; rewrite ?app_length; try lia; auto.
    rewrite slice_app_l by lia. auto.
  - unfold abs; simpl. rewrite He.
    rewrite (firstn_all2 (f_os f ++ f_w f)), (skipn_all2 (f_os f ++ f_w f)) by (rewrite app_length; lia).
    rewrite firstn_all, skipn_all, app_nil_r. reflexivity.
Qed.

Lemma flush_ok f : wf_df f -> wf_df (df_flush f) /\ abs (df_flush f) = abs f.
Proof. intros H. unfold df_flush. destruct (f_ro f) eqn:E; auto. now apply drain_ok. Qed.

Lemma sync_ok f : wf_df f -> wf_df (df_sync f) /\ abs (df_sync f) = abs f.
Proof.
  intros H. unfold df_sync. destruct (f_ro f) eqn:E; auto. destruct H.
  split; [|unfold abs; simpl; now rewrite E].
  constructor; simpl; auto. all: congruence.
Qed.

Lemma firstn_set_len os n : length (os_set_len os n) = n.
Proof. unfold os_set_len. rewrite app_length, firstn_length, repeat_length. lia. Qed.
Lemma slice_set_len os n o k : o + k <= n -> o + k <= length os -> slice (os_set_len os n) o k = slice os o k.
Proof.
  intros H1 H2. unfold os_set_len. rewrite slice_app_l by (rewrite firstn_length; lia). apply slice_firstn; lia.
Qed.

Lemma set_len_ok rsz n f : wf_df f ->
  exists x f', df_set_len rsz n f = (x, f') /\ wf_df f' /\
    plain_step (abs f) (OSetLen n) (out_unit x) (abs f').
Proof.
  intros H. unfold df_set_len.
  set (f1 := if negb (f_ro f) && negb match f_w f with [] => true | _ => false end then df_drain f else f).
  assert (H1 : wf_df f1 /\ abs f1 = abs f /\ f_ro f1 = f_ro f /\ f_w f1 = []).
  { unfold f1. destruct (f_ro f) eqn:E; simpl.
    - repeat split; auto using wf_w; apply H || auto.
    - destruct (f_w f) eqn:Ew; simpl; [repeat split; auto; apply H|].
      destruct (drain_ok f H E). repeat split; auto; try apply H0; simpl; auto. }
  destruct H1 as (Hw & Ha & Hr & Hwn). clearbody f1. rewrite Hr, <- Ha.
  destruct (f_ro f) eqn:E; cbn [negb andb].
  - exists (FErr OsErr), f1. split; [reflexivity|]. split; [auto|]. apply PSetLenRo. unfold abs; simpl. congruence.
  - pose proof (wf_rw _ Hw Hr) as He. cbn [f_rs f_r f_end f_os].
    set (g := mk_df (os_set_len (f_os f1) n) (Nat.min (f_safe f1) n) n (f_w f1) (f_r f1) (f_rs f1) (f_pos f1) false).
    assert (Hg : forall r s, abs (set_rbuf g r s) = with_bytes (abs f1)
        (firstn n (p_bytes (abs f1)) ++ repeat 0%N (n - length (p_bytes (abs f1))))).
    { intros r s. unfold abs, with_bytes, g; simpl. rewrite Hwn, !app_nil_r, He, firstn_all.
      rewrite (firstn_all2 (os_set_len _ _)), (skipn_all2 (os_set_len _ _)) by (rewrite firstn_set_len; lia).
      rewrite skipn_all, Hr. unfold os_set_len. reflexivity. }
    assert (Hg0 : abs g = abs (set_rbuf g (f_r f1) (f_rs f1))) by reflexivity.
    assert (Hwg : forall r s, r = slice (os_set_len (f_os f1) n) s (length r) -> s + length r <= n -> wf_df (set_rbuf g r s)).
    { intros r s Hr1 Hr2. destruct Hw. constructor; simpl; rewrite ?firstn_set_len; auto; try lia. }
    assert (Hg1 : g = set_rbuf g (f_r f1) (f_rs f1)) by reflexivity.
    destruct (Nat.ltb_spec n (f_rs f1 + length (f_r f1))) as [Hlt|Hge].
    + destruct (Nat.ltb_spec 0 n) as [Hn|Hn].
      * set (k := if n <? rsz then n else rsz).
        assert (Hk : k <= n) by (unfold k; destruct (Nat.ltb_spec n rsz); lia).
        rewrite os_read_ok by (rewrite firstn_set_len; lia).
        exists (FOk tt), (set_rbuf g (slice (os_set_len (f_os f1) n) 0 k) 0). split; [reflexivity|]. split.
        -- apply Hwg; rewrite slice_full by (rewrite firstn_set_len; lia); auto.
        -- rewrite Hg. now apply PSetLen.
      * exists (FOk tt), (set_rbuf g [] 0). split; [reflexivity|]. split.
        -- apply Hwg; simpl; auto; lia.
        -- rewrite Hg. now apply PSetLen.
    + exists (FOk tt), g. split; [reflexivity|]. split.
      * rewrite Hg1. apply Hwg; [|lia]. destruct Hw. rewrite slice_set_len by lia. auto.
      * rewrite Hg0, Hg. now apply PSetLen.
Qed.

(* the core of a read: n > 0 bytes wanted *)
Lemma read_ok rsz n f : 0 < rsz -> wf_df f ->
  exists bs f', df_read rsz n f = (FOk bs, f') /\ wf_df f' /\ abs f' = at_pos (abs f) (f_pos f + length bs) /\
    f_os f' = f_os f /\ f_safe f' = f_safe f /\
    bs = slice (p_bytes (abs f)) (f_pos f) (length bs) /\ length bs <= n /\
    (bs = [] -> n = 0 \/ df_len f <= f_pos f).
Proof.
  intros Hsz H. unfold df_read.
  destruct (Nat.eqb_spec n 0) as [->|Hn].
  { exists [], f. split; [auto|]. split; [auto|].
    split; [unfold abs, at_pos; simpl; f_equal; lia|]. repeat split; auto. }
  assert (Hcopy : forall r s, r = slice (f_os f) s (length r) -> s + length r <= f_end f ->
            s <= f_pos f < s + length r ->
            exists bs f', df_copy n (set_rbuf f r s) = (FOk bs, f') /\ wf_df f' /\
              abs f' = at_pos (abs f) (f_pos f + length bs) /\
              f_os f' = f_os f /\ f_safe f' = f_safe f /\
              bs = slice (p_bytes (abs f)) (f_pos f) (length bs) /\ length bs <= n /\
              (bs = [] -> n = 0 \/ df_len f <= f_pos f)).
  { intros r s Hr Hre Hp. unfold df_copy; cbn [f_pos f_rs f_r set_rbuf set_pos].
    set (d := f_pos f - s).
    set (size := if length r <? d + n then length r - d else n).
    assert (Hs : 0 < size /\ d + size <= length r /\ size <= n).
    { unfold size, d. destruct (Nat.ltb_spec (length r) (f_pos f - s + n)); lia. }
    destruct (Nat.eqb_spec size 0); [lia|].
    eexists _, _. split; [reflexivity|].
    assert (Hl : length (slice r d size) = size) by (apply slice_full; lia).
    rewrite Hl. split.
    { destruct H. constructor; simpl; auto. }
    split; [reflexivity|]. split; [reflexivity|]. split; [reflexivity|]. split; [|split].
    - rewrite Hr. rewrite slice_slice by lia. unfold abs; cbn [p_bytes].
      pose proof (wf_end _ H).
      rewrite slice_app_l by (rewrite firstn_length; unfold d in *; lia).
      rewrite slice_firstn by (unfold d in *; lia). f_equal. unfold d; lia.
    - lia.
    - intros He. rewrite He in Hl; simpl in Hl; lia. }
  destruct (Nat.leb_spec (f_end f) (f_pos f)) as [Hp|Hp].
  - destruct (Nat.ltb_spec (f_pos f - f_end f) (length (f_w f))) as [Hw|Hw].
    + set (wp := f_pos f - f_end f).
      set (size := if length (f_w f) <? wp + n then length (f_w f) - wp else n).
      assert (Hs : 0 < size /\ wp + size <= length (f_w f) /\ size <= n).
      { unfold size, wp. destruct (Nat.ltb_spec (length (f_w f)) (f_pos f - f_end f + n)); lia. }
      assert (Hl : length (slice (f_w f) wp size) = size) by (apply slice_full; lia).
      eexists _, _. split; [reflexivity|]. rewrite Hl. split.
      { destruct H; constructor; simpl; auto. }
      split; [reflexivity|]. split; [reflexivity|]. split; [reflexivity|]. split; [|split].
      * unfold abs; cbn [p_bytes]. pose proof (wf_end _ H).
        rewrite slice_app_r by (rewrite firstn_length; lia). f_equal. rewrite firstn_length. unfold wp; lia.
      * lia.
      * intros He. rewrite He in Hl; simpl in Hl; lia.
    + exists [], f. split; [auto|]. split; [auto|].
      split; [unfold abs, at_pos; simpl; f_equal; lia|]. repeat split; auto; simpl; try lia.
      right. unfold df_len. lia.
  - destruct (Nat.leb_spec (f_rs f) (f_pos f)) as [Hr1|Hr1]; [destruct (Nat.ltb_spec (f_pos f) (f_rs f + length (f_r f))) as [Hr2|Hr2]|];
      cbn [andb].
    1: { destruct H as [A1 A2 A3 A4 A5 A6]. replace f with (set_rbuf f (f_r f) (f_rs f)) at 1 by (destruct f; reflexivity).
         apply Hcopy; auto. }
    all: set (sp := if f_end f - f_pos f <? rsz then f_end f - rsz else f_pos f - rsz / 2).
    all: assert (Hsp : sp <= f_pos f /\ f_pos f < sp + (if f_end f - sp <? rsz then f_end f - sp else rsz))
      by (unfold sp; destruct (Nat.ltb_spec (f_end f - f_pos f) rsz);
          [destruct (Nat.ltb_spec (f_end f - (f_end f - rsz)) rsz); lia|];
          pose proof (Nat.div_lt rsz 2 Hsz ltac:(lia));
          destruct (Nat.ltb_spec (f_end f - (f_pos f - rsz / 2)) rsz); lia).
    all: set (k := if f_end f - sp <? rsz then f_end f - sp else rsz) in *.
    all: assert (Hk : sp + k <= f_end f) by (unfold k; destruct (Nat.ltb_spec (f_end f - sp) rsz); lia).
    all: destruct (Nat.ltb_spec 0 (f_end f - sp)); [|lia].
    all: pose proof (wf_end _ H); rewrite os_read_ok by lia.
    all: apply Hcopy; rewrite slice_full by lia; auto; lia.
Qed.

Lemma read_exact_loop_ok rsz fuel n acc f : 0 < rsz -> wf_df f -> n <= fuel ->
  exists r f', df_read_exact_loop rsz fuel n acc f = (r, f') /\ wf_df f' /\ f_os f' = f_os f /\ f_safe f' = f_safe f /\
    ((n = 0 \/ f_pos f + n <= df_len f) /\ r = FOk (acc ++ slice (p_bytes (abs f)) (f_pos f) n) /\
       abs f' = at_pos (abs f) (f_pos f + n)
     \/ (0 < n /\ df_len f < f_pos f + n) /\ r = FErr Eof /\ abs f' = at_pos (abs f) (Nat.max (f_pos f) (df_len f))).
Proof.
  intros Hsz. revert n acc f. induction fuel as [|fuel IH]; intros n acc f H Hn.
  - assert (n = 0) by lia; subst. simpl. exists (FOk acc), f. split; [auto|]. split; [auto|]. split; [auto|]. split; [auto|]. left. repeat split; auto.
    + now rewrite slice_0, app_nil_r.
    + unfold abs, at_pos; simpl; f_equal; lia.
  - simpl. destruct (Nat.eqb_spec n 0) as [->|Hn0].
    { exists (FOk acc), f. split; [auto|]. split; [auto|]. split; [auto|]. split; [auto|]. left. repeat split; auto.
      - now rewrite slice_0, app_nil_r.
      - unfold abs, at_pos; simpl; f_equal; lia. }
    destruct (read_ok rsz n f Hsz H) as (bs & f1 & -> & H1 & Ha & Ho & Hsf & Hb & Hl & He).
    destruct (Nat.eqb_spec (length bs) 0) as [E|E].
    { exists (FErr Eof), f1. split; [auto|]. split; [auto|]. split; [auto|]. split; [auto|]. right.
      destruct bs; [|discriminate]. destruct (He eq_refl); [lia|]. repeat split; auto; try lia.
      rewrite Ha. simpl. f_equal. lia. }
    destruct (IH (n - length bs) (acc ++ bs) f1 H1 ltac:(lia)) as (r & f2 & -> & H2 & Ho2 & Hs2 & Hc).
    exists r, f2. split; [auto|]. split; [auto|]. split; [congruence|]. split; [congruence|].
    assert (Hp1 : f_pos f1 = f_pos f + length bs) by (change (p_pos (abs f1) = f_pos f + length bs); rewrite Ha; reflexivity).
    assert (Hl1 : df_len f1 = df_len f) by (rewrite <- !abs_len, Ha by auto; reflexivity).
    rewrite Hp1, Hl1, Ha in Hc. cbn [p_bytes at_pos] in Hc.
    assert (Hbl : length bs <= df_len f - f_pos f) by (rewrite <- abs_len by auto; rewrite Hb, slice_length; lia).
    destruct Hc as [(A & B & C)|(A & B & C)].
    + left. split; [lia|]. split.
      * rewrite B, <- app_assoc. do 2 f_equal. rewrite Hb at 1. rewrite slice_app_cat. f_equal. lia.
      * rewrite C. unfold at_pos; simpl; f_equal; lia.
    + right. split; [lia|]. split; auto. rewrite C. unfold at_pos; simpl; f_equal; lia.
Qed.

Lemma read_exact_ok rsz n f : 0 < rsz -> wf_df f ->
  exists r f', df_read_exact rsz n f = (r, f') /\ wf_df f' /\ f_os f' = f_os f /\ f_safe f' = f_safe f /\
    ((n = 0 \/ f_pos f + n <= df_len f) /\ r = FOk (slice (p_bytes (abs f)) (f_pos f) n) /\
       abs f' = at_pos (abs f) (f_pos f + n)
     \/ (0 < n /\ df_len f < f_pos f + n) /\ r = FErr Eof /\ abs f' = at_pos (abs f) (Nat.max (f_pos f) (df_len f))).
Proof.
  intros Hsz H. unfold df_read_exact.
  destruct (read_exact_loop_ok rsz n n [] f Hsz H ltac:(lia)) as (r & f' & A & B & C). eauto 10.
Qed.

Lemma abs_push f bs : abs (push_w f bs) = with_bytes (abs f) (p_bytes (abs f) ++ bs).
Proof. unfold abs, with_bytes; simpl. now rewrite app_assoc. Qed.

Lemma write_ok wsz bs f : 0 < wsz -> wf_df f -> f_ro f = false ->
  exists k f', df_write wsz bs f = (FOk k, f') /\ wf_df f' /\ f_ro f' = false /\ k <= length bs /\ (k = 0 -> bs = []) /\
    abs f' = with_bytes (abs f) (p_bytes (abs f) ++ firstn k bs) /\ f_safe f' = f_safe f /\
    firstn (length (f_os f)) (f_os f') = f_os f.
Proof.
  intros Hsz H Hro. unfold df_write. rewrite Hro.
  set (g := if wsz <=? length (f_w f) then df_drain f else f).
  assert (Hg : wf_df g /\ abs g = abs f /\ f_ro g = false /\ length (f_w g) < wsz /\ f_safe g = f_safe f /\
     (exists t, f_os g = f_os f ++ t)).
  { unfold g. destruct (Nat.leb_spec wsz (length (f_w f))).
    - destruct (drain_ok f H Hro). repeat split; auto; try apply H1; simpl; eauto; try lia.
    - repeat split; auto; try apply H. exists []. now rewrite app_nil_r. }
  destruct Hg as (G1 & G2 & G3 & G4 & G5 & G6 & G7). clearbody g.
  assert (Hpush : forall b, wf_df (push_w g b)).
  { intros b. destruct G1; constructor; simpl; auto. congruence. }
  destruct (Nat.ltb_spec (length bs) (wsz - length (f_w g))) as [Hlt|Hge].
  - exists (length bs), (push_w g bs). split; [auto|]. split; [auto|]. split; [auto|]. split; [auto|].
    split; [destruct bs; simpl; auto; discriminate|]. split; [|split; [auto|]].
    + now rewrite abs_push, G2, firstn_all.
    + simpl. rewrite G7. now rewrite firstn_app, firstn_all, Nat.sub_diag, firstn_O, app_nil_r.
  - exists (wsz - length (f_w g)), (df_drain (push_w g (firstn (wsz - length (f_w g)) bs))).
    destruct (drain_ok (push_w g (firstn (wsz - length (f_w g)) bs)) (Hpush _) G3) as [D1 D2].
    split; [auto|]. split; [auto|]. split; [auto|]. split; [auto|]. split; [lia|]. split; [|split; [auto|]].
    + now rewrite D2, abs_push, G2.
    + simpl. rewrite G7, <- !app_assoc. now rewrite firstn_app, firstn_all, Nat.sub_diag, firstn_O, app_nil_r.
Qed.

Lemma firstn_pre {A} (a b c : list A) : firstn (length a) b = a -> firstn (length b) c = b -> firstn (length a) c = a.
Proof.
  intros H1 H2. assert (length a <= length b) by (rewrite <- H1, firstn_length; lia).
  rewrite <- H1 at 2. rewrite <- H2. rewrite firstn_firstn. f_equal. lia.
Qed.

Lemma write_all_loop_ok wsz fuel bs f : 0 < wsz -> wf_df f -> f_ro f = false -> length bs <= fuel ->
  exists f', df_write_all_loop wsz fuel bs f = (FOk tt, f') /\ wf_df f' /\ f_ro f' = false /\
    abs f' = with_bytes (abs f) (p_bytes (abs f) ++ bs) /\ f_safe f' = f_safe f /\
    firstn (length (f_os f)) (f_os f') = f_os f.
Proof.
  intros Hsz. revert bs f. induction fuel as [|fuel IH]; intros bs f H Hro Hl.
  - destruct bs; [|simpl in Hl; lia]. exists f. simpl. rewrite firstn_all, app_nil_r. repeat split; auto; apply H.
  - destruct bs as [|b bs0]. { exists f. simpl. rewrite firstn_all, app_nil_r. repeat split; auto; apply H. }
    cbn [df_write_all_loop]. set (bs := b :: bs0) in *.
    destruct (write_ok wsz bs f Hsz H Hro) as (k & f1 & -> & H1 & Hr1 & Hk & Hk0 & Ha & Hs1 & Ho1).
    destruct (Nat.eqb_spec k 0) as [E|E]. { specialize (Hk0 E). discriminate. }
    destruct (IH (skipn k bs) f1 H1 Hr1) as (f2 & -> & H2 & Hr2 & Ha2 & Hs2 & Ho2).
    { rewrite skipn_length. lia. }
    exists f2. split; [auto|]. split; [auto|]. split; [auto|]. split; [|split; [congruence|]].
    + rewrite Ha2, Ha. unfold with_bytes; simpl. rewrite <- app_assoc, firstn_skipn. reflexivity.
    + eapply firstn_pre; eauto.
Qed.

Lemma write_all_ok wsz bs f : 0 < wsz -> wf_df f -> f_ro f = false ->
  exists f', df_write_all wsz bs f = (FOk tt, f') /\ wf_df f' /\ f_ro f' = false /\
    abs f' = with_bytes (abs f) (p_bytes (abs f) ++ bs) /\ f_safe f' = f_safe f /\
    firstn (length (f_os f)) (f_os f') = f_os f.
Proof. intros. apply write_all_loop_ok; auto. Qed.

Lemma abs_with_bytes_id p : with_bytes p (p_bytes p ++ []) = p.
Proof. destruct p; unfold with_bytes; simpl. now rewrite app_nil_r. Qed.

Lemma step_ok rsz wsz o f : 0 < rsz -> 0 < wsz -> wf_df f ->
  wf_df (snd (df_step rsz wsz o f)) /\ plain_step (abs f) o (fst (df_step rsz wsz o f)) (abs (snd (df_step rsz wsz o f))).
Proof.
  intros Hr Hw H. destruct o; simpl.
  - destruct (read_ok rsz n f Hr H) as (bs & f' & -> & H' & Ha & _ & _ & Hb & Hl & He). simpl. split; auto.
    rewrite Ha. apply PRead; auto. intros E. rewrite abs_len by auto. auto.
  - destruct (read_exact_ok rsz n f Hr H) as (r & f' & -> & H' & _ & _ & [(A & -> & C)|(A & -> & C)]); simpl; split; auto; rewrite C.
    + apply PReadExact. rewrite abs_len by auto. auto.
    + rewrite <- abs_len by auto. apply PReadEof; rewrite ?abs_len by auto; simpl; lia.
  - destruct (f_ro f) eqn:E.
    + unfold df_write. rewrite E. simpl. split; auto. now apply PWriteRo.
    + destruct (write_ok wsz bs f Hw H E) as (k & f' & -> & H' & _ & Hk & Hk0 & Ha & _). simpl. split; auto.
      rewrite Ha. now apply PWrite.
  - destruct (f_ro f) eqn:E.
    + unfold df_write_all. destruct bs as [|b bs]; simpl.
      * split; auto. rewrite <- (abs_with_bytes_id (abs f)) at 2. apply PWriteAll. auto.
      * unfold df_write. rewrite E. simpl. split; auto. apply PWriteAllRo; auto. discriminate.
    + destruct (write_all_ok wsz bs f Hw H E) as (f' & -> & H' & _ & Ha & _). simpl. split; auto.
      rewrite Ha. apply PWriteAll. auto.
  - destruct (flush_ok f H) as [A ->]. split; auto. constructor.
  - destruct (sync_ok f H) as [A ->]. split; auto. constructor.
  - assert (Hset : forall n, wf_df (set_pos f n)) by (intros; destruct H; constructor; simpl; auto).
    destruct s as [n|z|z]; simpl.
    + split; auto. apply PSeekStart.
    + destruct (Z.leb_spec 0 (Z.of_nat (df_len f) + z)); simpl; split; auto.
      * apply (PSeekEnd (abs f)). rewrite abs_len by auto. lia.
      * apply PSeekEndNeg. rewrite abs_len by auto. lia.
    + destruct (Z.leb_spec 0 (Z.of_nat (f_pos f) + z)); simpl; split; auto.
      * apply (PSeekCur (abs f)). simpl. lia.
      * apply PSeekCurNeg. simpl. lia.
  - destruct (set_len_ok rsz n f H) as (x & f' & -> & H' & Hs). simpl. split; auto.
  - split; auto. rewrite <- abs_len by auto. apply PLen.
  - pose proof (wf_end _ H). split.
    + destruct H; constructor; simpl; auto; lia.
    + replace (abs (df_refresh f)) with (mk_plain (p_bytes (abs f) ++ p_more (abs f)) [] (p_pos (abs f)) (p_ro (abs f))); [apply PRefresh|].
      unfold abs, df_refresh; simpl. rewrite firstn_all, skipn_all. f_equal.
      destruct (f_ro f) eqn:E.
      * rewrite (wf_w _ H E), !app_nil_r. apply firstn_skipn.
      * rewrite (wf_rw _ H E), firstn_all, skipn_all, app_nil_r. reflexivity.
  - assert (Hd : wf_df (df_drop f) /\ f_os (df_drop f) = p_bytes (abs f) ++ p_more (abs f)).
    { unfold df_drop. destruct (flush_ok f H) as [A B]. destruct (sync_ok _ A) as [C D]. split; auto.
      unfold df_sync. destruct (f_ro (df_flush f)) eqn:E; unfold df_flush in *; destruct (f_ro f) eqn:E'; simpl in *; try congruence.
      - rewrite (wf_w _ H E'), app_nil_r, firstn_skipn. reflexivity.
      - rewrite (wf_rw _ H E'), firstn_all, skipn_all, app_nil_r. reflexivity. }
    destruct Hd as [D1 D2].
    destruct (open_ok rsz (f_os (df_drop f)) (f_safe (df_drop f)) ro (wf_safe _ D1)) as (f' & -> & H' & Ha & _). simpl. split; auto.
    rewrite Ha, D2. apply PReopen.
  - destruct (f_ro f) eqn:E; simpl.
    + split.
      * destruct H; constructor; simpl; rewrite ?app_length; try lia; try congruence; auto.
        rewrite slice_app_l by lia. auto.
      * pose proof (PGrow (abs f) bs) as P. eapply eq_ind; [exact P|].
        unfold abs; simpl. rewrite E. pose proof (wf_end _ H). f_equal.
        -- rewrite firstn_app. replace (f_end f - length (f_os f)) with 0 by lia. now rewrite firstn_O, app_nil_r.
        -- rewrite skipn_app. now replace (f_end f - length (f_os f)) with 0 by lia.
    + split; auto. pose proof (PGrow (abs f) bs) as P. simpl in P. rewrite E, app_nil_r in P.
      unfold abs in *. simpl in *. rewrite E in *. exact P.
Qed.

Lemma run_ok rsz wsz ops f : 0 < rsz -> 0 < wsz -> wf_df f ->
  wf_df (snd (df_run rsz wsz ops f)) /\
  plain_run (abs f) ops (fst (df_run rsz wsz ops f)) (abs (snd (df_run rsz wsz ops f))).
Proof.
  intros Hr Hw. revert f. induction ops as [|o ops IH]; intros f H; simpl; [split; [auto|constructor]|].
  destruct (df_step rsz wsz o f) as [x f1] eqn:E1. destruct (step_ok rsz wsz o f Hr Hw H) as [A B]. rewrite E1 in *. simpl in *.
  destruct (df_run rsz wsz ops f1) as [xs f2] eqn:E2. destruct (IH f1 A) as [C D]. rewrite E2 in *. simpl in *.
  split; auto. econstructor; eauto.
Qed.
