(** Proofs about the byte encodings. *)
From Verif Require Import Util WireModel WireSpec.
Local Open Scope N_scope.

Lemma pow7 : 2 ^ 7 = 128. Proof. reflexivity. Qed.

(** [reads p e v]: the parser gets [v] off the front of any input starting with [e].
    [canon p put P]: whatever the parser gets was the encoding of it, and is a [P]. *)
Definition reads {A} (p : parser A) (e : bytes) (v : A) : Prop := forall rest, p (e ++ rest) = Some (v, rest).
Definition canon {A} (p : parser A) (put : A -> bytes) (P : A -> Prop) : Prop :=
  forall bs v rest, Forall byte bs -> p bs = Some (v, rest) -> bs = put v ++ rest /\ P v /\ Forall byte rest.

Lemma reads_ret {A} (v : A) : reads (ret v) [] v. Proof. intros rest. reflexivity. Qed.
Lemma reads_bind {A B} (p : parser A) (f : A -> parser B) e1 e2 x y :
  reads p e1 x -> reads (f x) e2 y -> reads (bind p f) (e1 ++ e2) y.
Proof. intros H1 H2 rest. unfold bind. rewrite <- app_assoc, H1. apply H2. Qed.
Lemma reads_bind_last {A B} (p : parser A) (f : A -> parser B) e x y :
  reads p e x -> f x = ret y -> reads (bind p f) e y.
Proof. intros H1 H2 rest. unfold bind. rewrite H1, H2. reflexivity. Qed.
Lemma reads_from {A} (p : parser A) e v : reads p e v -> from_bytes p e = Some v.
Proof. intros H. unfold from_bytes. specialize (H []). rewrite app_nil_r in H. rewrite H. reflexivity. Qed.

Lemma bind_some {A B} (p : parser A) (f : A -> parser B) bs y rest :
  bind p f bs = Some (y, rest) -> exists x r, p bs = Some (x, r) /\ f x r = Some (y, rest).
Proof. unfold bind. destruct (p bs) as [[x r]|] eqn:E; [|discriminate 1]. eauto. Qed.
Lemma from_some {A} (p : parser A) bs v : from_bytes p bs = Some v -> p bs = Some (v, []).
Proof. unfold from_bytes. destruct (p bs) as [[x [|? ?]]|]; try discriminate 1. intros [= ->]. reflexivity. Qed.

(* ---------- integers ---------- *)
Lemma le_length k n : length (le k n) = k.
Proof. revert n; induction k as [|k IH]; intros n; cbn [le length]; [reflexivity | rewrite IH; reflexivity]. Qed.
Lemma le_bytes k n : Forall byte (le k n).
Proof. revert n; induction k as [|k IH]; intros n; cbn [le]; constructor; auto. unfold byte. apply N.mod_lt. lia. Qed.
Lemma unle_le k n : n < 256 ^ N.of_nat k -> unle (le k n) = n.
Proof.
  revert n; induction k as [|k IH]; intros n Hn; cbn [le unle].
  - cbn in Hn. lia.
  - rewrite IH; [pose proof (N.div_mod' n 256); lia|].
    rewrite Nat2N.inj_succ, N.pow_succ_r' in Hn. apply N.div_lt_upper_bound; lia.
Qed.
Lemma le_unle bs : Forall byte bs -> le (length bs) (unle bs) = bs /\ unle bs < 256 ^ N.of_nat (length bs).
Proof.
  induction 1 as [|b t Hb Ht IH]; [cbn; split; [reflexivity | lia]|]. destruct IH as [IH1 IH2].
  cbn [length le unle]. unfold byte in Hb. split.
  - f_equal.
    + rewrite N.mul_comm, N.mod_add by lia. apply N.mod_small. lia.
    + rewrite N.mul_comm, N.div_add by lia. rewrite N.div_small by lia. rewrite N.add_0_l. exact IH1.
  - rewrite Nat2N.inj_succ, N.pow_succ_r'. lia.
Qed.
Lemma le_inj k a b : a < 256 ^ N.of_nat k -> b < 256 ^ N.of_nat k -> le k a = le k b -> a = b.
Proof. intros Ha Hb E. rewrite <- (unle_le k a Ha), <- (unle_le k b Hb), E. reflexivity. Qed.

Lemma take_reads b : reads (take (length b)) b b.
Proof.
  intros rest. unfold take. rewrite app_length.
  replace (Nat.leb (length b) (length b + length rest)) with true by (symmetry; apply Nat.leb_le; lia).
  rewrite firstn_app, skipn_app, Nat.sub_diag, firstn_all, skipn_all. cbn [firstn skipn app]. rewrite app_nil_r. reflexivity.
Qed.
Lemma take_reads' k b : length b = k -> reads (take k) b b.
Proof. intros <-. apply take_reads. Qed.
Lemma Forall_app_r {A} (P : A -> Prop) l r : Forall P (l ++ r) -> Forall P l /\ Forall P r.
Proof. apply Forall_app. Qed.
Lemma take_canon k : canon (take k) (fun b => b) (arr k).
Proof.
  intros bs v rest Hb. unfold take. destruct (Nat.leb_spec k (length bs)); [|discriminate 1].
  intros [= <- <-]. rewrite firstn_skipn. split; [reflexivity|].
  rewrite <- (firstn_skipn k bs) in Hb. apply Forall_app in Hb as [H1 H2]. repeat split; auto. apply firstn_length_le. exact H.
Qed.
Lemma int_reads k n : n < 256 ^ N.of_nat k -> reads (get_int k) (le k n) n.
Proof.
  intros Hn. unfold get_int. eapply reads_bind_last; [apply take_reads', le_length|]. rewrite unle_le by exact Hn. reflexivity.
Qed.
Lemma int_canon k : canon (get_int k) (le k) (fun n => n < 256 ^ N.of_nat k).
Proof.
  intros bs v rest Hb Hp. apply bind_some in Hp as (x & r & Hp & [= <- <-]).
  destruct (take_canon _ _ _ _ Hb Hp) as (-> & [Hl Hx] & Hr). destruct (le_unle x Hx) as [H1 H2]. rewrite Hl in H1, H2.
  rewrite H1. auto.
Qed.

(* ---------- lengths ---------- *)
Lemma uleb_step f n : uleb_f (S f) n = if n <? 128 then [n] else (n mod 128 + 128) :: uleb_f f (n / 128).
Proof. reflexivity. Qed.
Lemma get_uleb_step f sh acc b t : get_uleb_f (S f) sh acc (b :: t) =
   let digit := b mod 128 in let acc' := acc + digit * 2 ^ sh in
      if b <? 128
      then if (0 <? sh) && (digit =? 0) then None else if acc' <? 2 ^ 32 then Some (acc', t) else None
      else get_uleb_f f (sh + 7) acc' t.
Proof. reflexivity. Qed.

Lemma uleb_reads_f f : forall n sh acc rest, n < 128 ^ N.of_nat (S f) -> acc + n * 2 ^ sh < 2 ^ 32 -> (0 < sh -> n <> 0) ->
  get_uleb_f (S f) sh acc (uleb_f f n ++ rest) = Some (acc + n * 2 ^ sh, rest).
Proof.
  induction f as [|f IH]; intros n sh acc rest Hn Ha Hz.
  - cbn [uleb_f app]. rewrite get_uleb_step. cbv zeta. change (128 ^ N.of_nat 1) with 128 in Hn.
    rewrite (N.mod_small n 128 Hn). destruct (N.ltb_spec n 128); [|lia].
    replace ((0 <? sh) && (n =? 0)) with false.
    + destruct (N.ltb_spec (acc + n * 2 ^ sh) (2 ^ 32)); [reflexivity|lia].
    + destruct (N.ltb_spec 0 sh); [|reflexivity]. destruct (N.eqb_spec n 0); [|reflexivity]. exfalso. apply Hz; lia.
  - rewrite uleb_step. destruct (N.ltb_spec n 128) as [L|L].
    + cbn [app]. rewrite get_uleb_step. cbv zeta. rewrite (N.mod_small n 128 L). destruct (N.ltb_spec n 128); [|lia].
      replace ((0 <? sh) && (n =? 0)) with false.
      * destruct (N.ltb_spec (acc + n * 2 ^ sh) (2 ^ 32)); [reflexivity|lia].
      * destruct (N.ltb_spec 0 sh); [|reflexivity]. destruct (N.eqb_spec n 0); [|reflexivity]. exfalso. apply Hz; lia.
    + cbn [app]. rewrite get_uleb_step. cbv zeta.
      destruct (N.ltb_spec (n mod 128 + 128) 128); [pose proof (N.le_0_l (n mod 128)); lia|].
      assert (E : (n mod 128 + 128) mod 128 = n mod 128).
      { replace (n mod 128 + 128) with (n mod 128 + 1 * 128) by lia. rewrite N.mod_add by lia. apply N.mod_mod. lia. }
      rewrite E.
      assert (E2 : acc + n mod 128 * 2 ^ sh + n / 128 * 2 ^ (sh + 7) = acc + n * 2 ^ sh).
      { rewrite N.pow_add_r, pow7. pose proof (N.div_mod' n 128) as D. rewrite D at 3. ring. }
      rewrite IH; [rewrite E2; reflexivity | | rewrite E2; exact Ha | ].
      * rewrite Nat2N.inj_succ, N.pow_succ_r' in Hn. apply N.div_lt_upper_bound; lia.
      * intros _ Z. apply N.div_small_iff in Z; lia.
Qed.

Lemma uleb_reads n : n < 2 ^ 32 -> reads get_uleb (uleb n) n.
Proof.
  intros Hn rest. unfold get_uleb, uleb. rewrite uleb_reads_f.
  - rewrite N.mul_1_r. reflexivity.
  - eapply N.lt_trans; [exact Hn|reflexivity].
  - rewrite N.mul_1_r. exact Hn.
  - lia.
Qed.

Lemma uleb_canon_f f : forall bs sh acc v rest, Forall byte bs -> get_uleb_f (S f) sh acc bs = Some (v, rest) ->
  exists n, v = acc + n * 2 ^ sh /\ bs = uleb_f f n ++ rest /\ (0 < sh -> n <> 0) /\ v < 2 ^ 32 /\ Forall byte rest.
Proof.
  induction f as [|f IH]; intros bs sh acc v rest Hb Hp.
  - destruct bs as [|b t]; [discriminate Hp|]. rewrite get_uleb_step in Hp. cbv zeta in Hp. inversion Hb; subst.
    destruct (N.ltb_spec b 128) as [L|L]; [|destruct t; discriminate Hp].
    rewrite (N.mod_small b 128 L) in Hp. destruct ((0 <? sh) && (b =? 0)) eqn:Z; [discriminate Hp|].
    destruct (N.ltb_spec (acc + b * 2 ^ sh) (2 ^ 32)) as [V|V]; [|discriminate Hp]. injection Hp as <- <-.
    exists b. repeat split; auto. intros Hs ->. destruct (N.ltb_spec 0 sh); [discriminate Z|lia].
  - destruct bs as [|b t]; [discriminate Hp|]. rewrite get_uleb_step in Hp. cbv zeta in Hp. inversion Hb; subst.
    destruct (N.ltb_spec b 128) as [L|L].
    + rewrite (N.mod_small b 128 L) in Hp. destruct ((0 <? sh) && (b =? 0)) eqn:Z; [discriminate Hp|].
      destruct (N.ltb_spec (acc + b * 2 ^ sh) (2 ^ 32)) as [V|V]; [|discriminate Hp]. injection Hp as <- <-.
      exists b. rewrite uleb_step. destruct (N.ltb_spec b 128); [|lia].
      repeat split; auto. intros Hs ->. destruct (N.ltb_spec 0 sh); [discriminate Z|lia].
    + apply IH in Hp; [|assumption]. destruct Hp as (n & -> & -> & Hz & V & Hr).
      assert (Hn : n <> 0) by (apply Hz; lia). unfold byte in *.
      exists (b mod 128 + 128 * n). rewrite uleb_step.
      assert (M : b mod 128 = b - 128).
      { symmetry. apply (N.mod_unique b 128 1); lia. }
      destruct (N.ltb_spec (b mod 128 + 128 * n) 128); [lia|].
      assert (B128 : b mod 128 < 128) by (apply N.mod_lt; lia).
      assert (E1 : (b mod 128 + 128 * n) mod 128 = b mod 128).
      { rewrite (N.mul_comm 128 n), N.mod_add by lia. apply N.mod_small. exact B128. }
      assert (E2 : (b mod 128 + 128 * n) / 128 = n).
      { rewrite (N.mul_comm 128 n), N.div_add by lia. rewrite N.div_small by exact B128. lia. }
      rewrite E1, E2. split; [rewrite N.pow_add_r, pow7; ring|]. split.
      { cbn [app]. f_equal. lia. }
      repeat split; auto. intros _. lia.
Qed.
Lemma uleb_canon : canon get_uleb uleb (fun n => n < 2 ^ 32).
Proof.
  intros bs v rest Hb Hp. apply uleb_canon_f in Hp; [|exact Hb]. destruct Hp as (n & -> & -> & _ & V & Hr).
  change (2 ^ 0) with 1 in *. rewrite N.mul_1_r, N.add_0_l in *. auto.
Qed.

Lemma len_reads n : n < 2 ^ 31 -> reads get_len (uleb n) n.
Proof.
  intros Hn. unfold get_len. eapply reads_bind_last; [apply uleb_reads; eapply N.lt_trans; [exact Hn | reflexivity]|].
  destruct (N.leb_spec n (2 ^ 31 - 1)); [reflexivity|]. change (2 ^ 31) with 2147483648 in *. lia.
Qed.
Lemma len_canon : canon get_len uleb (fun n => n < 2 ^ 31).
Proof.
  intros bs v rest Hb Hp. apply bind_some in Hp as (n & r & Hp & Hq). apply uleb_canon in Hp as (-> & _ & Hr); [|exact Hb].
  destruct (N.leb_spec n (2 ^ 31 - 1)); [|discriminate Hq]. injection Hq as <- <-. change (2 ^ 31) with 2147483648 in *.
  repeat split; auto. lia.
Qed.

Lemma fixed_reads k b : length b = k -> N.of_nat k < 2 ^ 31 -> reads (get_fixed k) (put_fixed b) b.
Proof.
  intros <- Hk. unfold get_fixed, put_fixed. eapply reads_bind; [apply len_reads, Hk|]. rewrite N.eqb_refl. apply take_reads.
Qed.
Lemma fixed_canon k : canon (get_fixed k) put_fixed (arr k).
Proof.
  intros bs v rest Hb Hp. apply bind_some in Hp as (n & r & Hp & Hq). apply len_canon in Hp as (-> & _ & Hr); [|exact Hb].
  destruct (N.eqb_spec n (N.of_nat k)) as [->|]; [|discriminate Hq]. apply take_canon in Hq as (-> & [Hl Hv] & Hr'); [|exact Hr].
  unfold put_fixed. rewrite Hl, <- app_assoc. repeat split; auto.
Qed.
Lemma vec_reads b : N.of_nat (length b) < 2 ^ 31 -> reads get_vec (put_fixed b) b.
Proof.
  intros Hk. unfold get_vec, put_fixed. eapply reads_bind; [apply len_reads, Hk|]. rewrite Nat2N.id. apply take_reads.
Qed.
Lemma vec_canon : canon get_vec put_fixed buf.
Proof.
  intros bs v rest Hb Hp. apply bind_some in Hp as (n & r & Hp & Hq). apply len_canon in Hp as (-> & Hn & Hr); [|exact Hb].
  apply take_canon in Hq as (-> & [Hl Hv] & Hr'); [|exact Hr].
  unfold put_fixed, buf. rewrite Hl, N2Nat.id, <- app_assoc. repeat split; auto.
Qed.

(* ---------- sequences ---------- *)
Lemma many_reads {A} (p : parser A) put l : Forall (fun x => reads p (put x) x) l ->
  reads (get_many (length l) p) (concat (map put l)) l.
Proof.
  induction 1 as [|x t Hx Ht IH]; [apply reads_ret|]. cbn [length get_many map concat].
  eapply reads_bind; [exact Hx|]. eapply reads_bind_last; [exact IH | reflexivity].
Qed.
Lemma many_canon {A} (p : parser A) put P : canon p put P -> forall k,
  canon (get_many k p) (fun l => concat (map put l)) (fun l => length l = k /\ Forall P l).
Proof.
  intros Hc. induction k as [|k IH]; intros bs v rest Hb Hp; cbn [get_many] in Hp.
  - injection Hp as <- <-. repeat split; auto.
  - apply bind_some in Hp as (x & r & Hp & Hq). apply bind_some in Hq as (t & r' & Hq & [= <- <-]).
    apply Hc in Hp as (-> & HP & Hr); [|exact Hb]. apply IH in Hq as (-> & [Hl Ht] & Hr'); [|exact Hr].
    cbn [map concat length]. rewrite <- app_assoc. repeat split; auto.
Qed.
Lemma seq_reads {A} (p : parser A) put l : fits l -> Forall (fun x => reads p (put x) x) l ->
  reads (get_seq p) (put_seq put l) l.
Proof.
  intros Hf Hl. unfold get_seq, put_seq. eapply reads_bind; [apply len_reads, Hf|]. rewrite Nat2N.id. apply many_reads, Hl.
Qed.
Lemma seq_canon {A} (p : parser A) put P : canon p put P -> canon (get_seq p) (put_seq put) (fun l => fits l /\ Forall P l).
Proof.
  intros Hc bs v rest Hb Hp. apply bind_some in Hp as (n & r & Hp & Hq). apply len_canon in Hp as (-> & Hn & Hr); [|exact Hb].
  apply (many_canon p put P Hc) in Hq as (-> & [Hl Hv] & Hr'); [|exact Hr].
  unfold put_seq, fits. rewrite Hl, N2Nat.id, <- app_assoc. repeat split; auto.
Qed.

(* ---------- sets and maps ---------- *)
Lemma beqb_spec a b : reflect (a = b) (beqb a b).
Proof. unfold beqb. destruct (list_eq_dec N.eq_dec a b); constructor; auto. Qed.
Lemma blt_irr a : blt a a = false.
Proof. induction a as [|x a IH]; [reflexivity|]. cbn [blt]. rewrite IH, N.ltb_irrefl, andb_false_r. reflexivity. Qed.
Lemma blt_trans a : forall b c, blt a b = true -> blt b c = true -> blt a c = true.
Proof.
  induction a as [|x a IH]; intros [|y b] [|z c]; cbn [blt]; intros H1 H2; try discriminate H1; try discriminate H2; try reflexivity.
  apply orb_true_iff in H1, H2. apply orb_true_iff. rewrite andb_true_iff, N.ltb_lt, N.eqb_eq in *.
  destruct H1 as [H1|[-> H1]], H2 as [H2|[-> H2]]; [left; lia | left; lia | left; lia | right; eauto].
Qed.
Lemma blt_total a : forall b, blt a b = false -> a <> b -> blt b a = true.
Proof.
  induction a as [|x a IH]; intros [|y b]; cbn [blt]; intros H1 H2; try discriminate H1; try reflexivity; [congruence|].
  apply orb_false_iff in H1 as [H1 H3]. apply N.ltb_ge in H1. apply orb_true_iff. rewrite andb_true_iff, N.ltb_lt, N.eqb_eq.
  destruct (N.eq_dec x y) as [->|]; [right | left; lia]. split; [reflexivity|]. rewrite N.eqb_refl in H3. apply IH; [exact H3|congruence].
Qed.

Lemma imap_insert_new k v m : ~ In k (map fst m) -> imap_insert k v m = m ++ [(k, v)].
Proof.
  induction m as [|[k' v'] t IH]; [reflexivity|]. cbn [imap_insert map fst app]. intros Hn.
  destruct (beqb_spec k k') as [->|]; [exfalso; apply Hn; left; reflexivity|]. rewrite IH; [reflexivity|]. intros I; apply Hn; right; exact I.
Qed.
Lemma imap_fold_nodup l : forall m, NoDup (map fst (m ++ l)) -> fold_left (fun m p => imap_insert (fst p) (snd p) m) l m = m ++ l.
Proof.
  induction l as [|[k v] t IH]; intros m Hn; cbn [fold_left fst snd]; [rewrite app_nil_r; reflexivity|].
  rewrite imap_insert_new.
  - rewrite IH; rewrite <- app_assoc; [reflexivity|]. exact Hn.
  - rewrite map_app in Hn. apply NoDup_remove_2 in Hn. rewrite in_app_iff in Hn. tauto.
Qed.
Lemma imap_of_nodup l : NoDup (map fst l) -> imap_of l = l.
Proof. intros Hn. apply (imap_fold_nodup l []). exact Hn. Qed.
Lemma imap_insert_keys k v m x : In x (map fst (imap_insert k v m)) <-> x = k \/ In x (map fst m).
Proof.
  induction m as [|[k' v'] t IH]; cbn [imap_insert map fst In]; [intuition congruence|].
  destruct (beqb_spec k k') as [->|]; cbn [map fst In]; [intuition congruence | rewrite IH; tauto].
Qed.
Lemma imap_insert_ok (P : bytes * N -> Prop) k v m : P (k, v) -> NoDup (map fst m) -> Forall P m ->
  NoDup (map fst (imap_insert k v m)) /\ Forall P (imap_insert k v m) /\ (length (imap_insert k v m) <= S (length m))%nat.
Proof.
  intros Hp. induction m as [|[k' v'] t IH]; cbn [imap_insert map fst]; intros Hn Hf.
  - repeat split; [constructor; [intros []|constructor] | constructor; auto | cbn; lia].
  - inversion Hn; subst. inversion Hf; subst. destruct (beqb_spec k k') as [->|Ne].
    + cbn [map fst]. repeat split; [constructor; auto | constructor; auto | cbn [length]; lia].
    + destruct (IH ltac:(assumption) ltac:(assumption)) as (I1 & I2 & I3). cbn [map fst length]. repeat split; [|constructor; auto | lia].
      constructor; [|exact I1]. rewrite imap_insert_keys. intros [->|I]; [congruence | contradiction].
Qed.
Lemma imap_of_ok (P : bytes * N -> Prop) l : Forall P l ->
  NoDup (map fst (imap_of l)) /\ Forall P (imap_of l) /\ (length (imap_of l) <= length l)%nat.
Proof.
  unfold imap_of. intros Hl.
  assert (G : forall l m, Forall P l -> NoDup (map fst m) -> Forall P m ->
     let r := fold_left (fun m p => imap_insert (fst p) (snd p) m) l m in
     NoDup (map fst r) /\ Forall P r /\ (length r <= length m + length l)%nat).
  { clear. induction l as [|[k v] t IH]; intros m Hl Hn Hm; cbn [fold_left fst snd length]; cbv zeta.
    - repeat split; auto. lia.
    - inversion Hl as [|? ? Hkv Ht]; subst. destruct (imap_insert_ok P k v m Hkv Hn Hm) as (I1 & I2 & I3).
      destruct (IH _ Ht I1 I2) as (J1 & J2 & J3). repeat split; auto. cbv zeta in J3. lia. }
  apply (G l []); auto. constructor.
Qed.

Lemma bset_insert_last k s : Forall (fun x => blt x k = true) s -> bset_insert k s = s ++ [k].
Proof.
  induction 1 as [|x t Hx Ht IH]; [reflexivity|]. cbn [bset_insert app].
  destruct (blt k x) eqn:E.
  - exfalso. pose proof (blt_trans _ _ _ Hx E) as C. rewrite blt_irr in C. discriminate C.
  - destruct (beqb_spec k x) as [->|]; [rewrite blt_irr in Hx; discriminate Hx|]. rewrite IH. reflexivity.
Qed.
Lemma ordered_mid a x b : ordered (a ++ x :: b) -> Forall (fun y => blt y x = true) a.
Proof.
  induction a as [|y a IH]; intros Ho; [constructor|]. cbn [app] in Ho. inversion Ho as [|? ? Ht Hf]; subst.
  constructor; [|apply IH; exact Ht]. apply Forall_app in Hf as [_ Hf]. inversion Hf; auto.
Qed.
Lemma bset_of_ordered l : ordered l -> bset_of l = l.
Proof.
  unfold bset_of. assert (G : forall l m, ordered (m ++ l) -> fold_left (fun s k => bset_insert k s) l m = m ++ l).
  { clear. induction l as [|k t IH]; intros m Ho; cbn [fold_left]; [rewrite app_nil_r; reflexivity|].
    rewrite bset_insert_last by (eapply ordered_mid; exact Ho). rewrite IH; rewrite <- app_assoc; [reflexivity|exact Ho]. }
  intros Ho. apply (G l []). exact Ho.
Qed.
Lemma bset_insert_in k s x : In x (bset_insert k s) <-> x = k \/ In x s.
Proof.
  induction s as [|y t IH]; cbn [bset_insert In]; [intuition congruence|].
  destruct (blt k y); [cbn [In]; intuition congruence|]. destruct (beqb_spec k y) as [->|]; cbn [In]; [intuition congruence|]. rewrite IH. tauto.
Qed.
Lemma bset_insert_ok k s : ordered s -> ordered (bset_insert k s) /\ (length (bset_insert k s) <= S (length s))%nat.
Proof.
  induction 1 as [|y t Ht IH Hy]; cbn [bset_insert].
  - split; [constructor; constructor | cbn; lia].
  - destruct (blt k y) eqn:E.
    + split; [|cbn [length]; lia]. constructor; [constructor; auto|]. constructor; [exact E|].
      rewrite Forall_forall in *. intros z Hz. eapply blt_trans; [exact E | apply Hy, Hz].
    + destruct (beqb_spec k y) as [->|Ne]; [split; [constructor; auto | cbn [length]; lia]|].
      destruct IH as [I1 I2]. split; [|cbn [length]; lia]. constructor; [exact I1|].
      rewrite Forall_forall in *. intros z Hz. apply bset_insert_in in Hz as [->|Hz]; [|apply Hy, Hz]. apply blt_total; auto.
Qed.
Lemma bset_of_ok (P : bytes -> Prop) l : Forall P l -> ordered (bset_of l) /\ Forall P (bset_of l) /\ (length (bset_of l) <= length l)%nat.
Proof.
  unfold bset_of. intros Hl.
  assert (G : forall l m, Forall P l -> ordered m -> Forall P m ->
     let r := fold_left (fun s k => bset_insert k s) l m in ordered r /\ Forall P r /\ (length r <= length m + length l)%nat).
  { clear. induction l as [|k t IH]; intros m Hl Hm Hp; cbn [fold_left length]; cbv zeta.
    - repeat split; auto. lia.
    - inversion Hl; subst. destruct (bset_insert_ok k m Hm) as (I1 & I3).
      destruct (IH (bset_insert k m) ltac:(assumption) I1) as (J1 & J2 & J3).
      + rewrite Forall_forall in *. intros z Hz. apply bset_insert_in in Hz as [->|Hz]; auto.
      + repeat split; auto. cbv zeta in J3. lia. }
  apply (G l []); auto. constructor.
Qed.

(* ---------- headers ---------- *)
Section Hd.
Variable active : N -> bool.

Lemma pair_reads p : arr 32 (fst p) /\ u16 (snd p) ->
  reads (d <- get_fixed 32 ;; w <- get_int 2 ;; ret (d, w)) (put_fixed (fst p) ++ le 2 (snd p)) p.
Proof.
  intros [[Hl _] Hu]. destruct p as [d w]. cbn [fst snd] in *. eapply reads_bind; [apply fixed_reads; [exact Hl|reflexivity]|].
  eapply reads_bind_last; [apply int_reads; exact Hu | reflexivity].
Qed.
Lemma pair_canon : canon (d <- get_fixed 32 ;; w <- get_int 2 ;; ret (d, w)) (fun p => put_fixed (fst p) ++ le 2 (snd p))
   (fun p => arr 32 (fst p) /\ u16 (snd p)).
Proof.
  intros bs v rest Hb Hp. apply bind_some in Hp as (d & r & Hp & Hq). apply bind_some in Hq as (w & r' & Hq & [= <- <-]).
  apply fixed_canon in Hp as (-> & Hd & Hr); [|exact Hb]. apply int_canon in Hq as (-> & Hw & Hr'); [|exact Hr].
  cbn [fst snd]. rewrite <- app_assoc. repeat split; auto; apply Hd.
Qed.

Lemma header_reads h : header_wf h -> reads (get_header active) (put_header active h) (visible active h).
Proof.
  intros ([Ha _] & Hr & He & Hc & Hpf & Hpp & Hpn & Hqf & Hqp & Hqo & Hen & [Heh _] & [Hs _]).
  unfold get_header, put_header.
  eapply reads_bind; [apply take_reads'; exact Ha|].
  eapply reads_bind; [apply int_reads; exact Hr|].
  eapply reads_bind; [apply int_reads; exact He|].
  eapply reads_bind; [apply int_reads; exact Hc|].
  eapply reads_bind; [apply (seq_reads _ (fun p => put_fixed (fst p) ++ le 2 (snd p))); [exact Hpf|]|].
  { eapply Forall_impl; [|exact Hpp]. intros p. apply pair_reads. }
  eapply reads_bind; [apply (seq_reads _ put_fixed); [exact Hqf|]|].
  { eapply Forall_impl; [|exact Hqp]. intros p [Hl _]. apply fixed_reads; [exact Hl | reflexivity]. }
  eapply reads_bind; [apply int_reads; exact Hen|].
  eapply reads_bind; [apply fixed_reads; [exact Heh | reflexivity]|].
  rewrite imap_of_nodup, bset_of_ordered by assumption. unfold visible. destruct (active (w_epoch h)) eqn:E.
  - eapply reads_bind_last; [apply fixed_reads; [exact Hs | reflexivity]|]. destruct h; reflexivity.
  - eapply reads_bind_last; [apply reads_ret|]. reflexivity.
Qed.

Lemma zero_sig_arr : arr 48 zero_sig.
Proof. split; [apply repeat_length|]. apply Forall_forall. intros x Hx. apply repeat_spec in Hx. subst. reflexivity. Qed.

Lemma visible_wf h : header_wf h -> header_wf (visible active h).
Proof. unfold visible. destruct (active (w_epoch h)); auto. unfold header_wf. cbn. pose proof zero_sig_arr. tauto. Qed.
Lemma visible_idem h : visible active (visible active h) = visible active h.
Proof. unfold visible. destruct (active (w_epoch h)) eqn:E; cbn; rewrite E; reflexivity. Qed.
Lemma put_visible h : put_header active (visible active h) = put_header active h.
Proof. unfold visible. destruct (active (w_epoch h)) eqn:E; [reflexivity|]. unfold put_header. cbn [w_author w_round w_epoch w_created w_payload w_parents w_enum w_ehash w_seed]. rewrite E. reflexivity. Qed.

(** Everything the decoder lets through is a proper header and nothing but what it shows. *)
Lemma header_decoded bs h : Forall byte bs -> from_bytes (get_header active) bs = Some h ->
  header_wf h /\ visible active h = h.
Proof.
  intros Hb Hd. apply from_some in Hd. unfold get_header in Hd.
  apply bind_some in Hd as (au & r1 & P1 & Hd). apply take_canon in P1 as (_ & A1 & B1); [|exact Hb].
  apply bind_some in Hd as (ro & r2 & P2 & Hd). apply int_canon in P2 as (_ & A2 & B2); [|exact B1].
  apply bind_some in Hd as (ep & r3 & P3 & Hd). apply int_canon in P3 as (_ & A3 & B3); [|exact B2].
  apply bind_some in Hd as (cr & r4 & P4 & Hd). apply int_canon in P4 as (_ & A4 & B4); [|exact B3].
  apply bind_some in Hd as (pl & r5 & P5 & Hd). apply (seq_canon _ _ _ pair_canon) in P5 as (_ & [A5 A5'] & B5); [|exact B4].
  apply bind_some in Hd as (pa & r6 & P6 & Hd). apply (seq_canon _ _ _ (fixed_canon 32)) in P6 as (_ & [A6 A6'] & B6); [|exact B5].
  apply bind_some in Hd as (en & r7 & P7 & Hd). apply int_canon in P7 as (_ & A7 & B7); [|exact B6].
  apply bind_some in Hd as (eh & r8 & P8 & Hd). apply fixed_canon in P8 as (_ & A8 & B8); [|exact B7].
  apply bind_some in Hd as (sg & r9 & P9 & [= <- ->]).
  destruct (imap_of_ok _ _ A5') as (I1 & I2 & I3). destruct (bset_of_ok _ _ A6') as (J1 & J2 & J3).
  assert (S9 : arr 48 sg /\ (active ep = false -> sg = zero_sig)).
  { destruct (active ep); [apply fixed_canon in P9 as (_ & A9 & _); [|exact B8]; split; [exact A9|discriminate 1]|].
    injection P9 as <- _. split; [apply zero_sig_arr|reflexivity]. }
  destruct S9 as [S9 S9'].
  split.
  - unfold header_wf. cbn [w_author w_round w_epoch w_created w_payload w_parents w_enum w_ehash w_seed].
    unfold fits in *. repeat (split; [solve [assumption | lia]|]). assumption.
  - unfold visible. cbn [w_author w_round w_epoch w_created w_payload w_parents w_enum w_ehash w_seed].
    destruct (active ep); [reflexivity|]. rewrite S9' by reflexivity. reflexivity.
Qed.

Lemma put_header_inj a b : header_wf a -> header_wf b -> put_header active a = put_header active b -> visible active a = visible active b.
Proof.
  intros Ha Hb E. pose proof (reads_from _ _ _ (header_reads a Ha)) as Ra. pose proof (reads_from _ _ _ (header_reads b Hb)) as Rb.
  rewrite E in Ra. congruence.
Qed.
End Hd.

(* ---------- batches, epoch records ---------- *)
Lemma batch_reads b : batch_wf b -> reads get_batch (put_batch b) b.
Proof.
  intros (Hf & Ht & He & [Ha _] & Hfee & Hw). unfold get_batch, put_batch.
  eapply reads_bind; [apply (seq_reads _ put_fixed); [exact Hf|]|].
  { eapply Forall_impl; [|exact Ht]. intros t [Hl _]. apply vec_reads; exact Hl. }
  eapply reads_bind; [apply int_reads; exact He|].
  eapply reads_bind; [apply fixed_reads; [exact Ha|reflexivity]|].
  eapply reads_bind; [apply int_reads; exact Hfee|].
  eapply reads_bind_last; [apply int_reads; exact Hw|]. destruct b; reflexivity.
Qed.
Lemma batch_canon : canon get_batch put_batch batch_wf.
Proof.
  intros bs v rest Hb Hd. unfold get_batch in Hd.
  apply bind_some in Hd as (tx & r1 & P1 & Hd). apply (seq_canon _ _ _ vec_canon) in P1 as (-> & [A1 A1'] & B1); [|exact Hb].
  apply bind_some in Hd as (ep & r2 & P2 & Hd). apply int_canon in P2 as (-> & A2 & B2); [|exact B1].
  apply bind_some in Hd as (be_ & r3 & P3 & Hd). apply fixed_canon in P3 as (-> & A3 & B3); [|exact B2].
  apply bind_some in Hd as (fe & r4 & P4 & Hd). apply int_canon in P4 as (-> & A4 & B4); [|exact B3].
  apply bind_some in Hd as (wo & r5 & P5 & [= <- <-]). apply int_canon in P5 as (-> & A5 & B5); [|exact B4].
  unfold put_batch. cbn [b_txs b_epoch b_benef b_fee b_worker]. rewrite <- !app_assoc. split; [reflexivity|]. split; [|exact B5].
  unfold batch_wf. cbn [b_txs b_epoch b_benef b_fee b_worker]. repeat (split; [assumption|]). exact A5.
Qed.
Lemma erec_reads r : erec_wf r -> reads get_erec (put_erec r) r.
Proof.
  intros (He & Hcf & Hc & Hnf & Hn & [Hp _] & Hsn & [Hsh _] & Hcn & [Hch _]). unfold get_erec, put_erec.
  eapply reads_bind; [apply int_reads; exact He|].
  eapply reads_bind; [apply (seq_reads _ put_fixed); [exact Hcf|]|].
  { eapply Forall_impl; [|exact Hc]. intros t [Hl _]. apply fixed_reads; [exact Hl|reflexivity]. }
  eapply reads_bind; [apply (seq_reads _ put_fixed); [exact Hnf|]|].
  { eapply Forall_impl; [|exact Hn]. intros t [Hl _]. apply fixed_reads; [exact Hl|reflexivity]. }
  eapply reads_bind; [apply fixed_reads; [exact Hp|reflexivity]|].
  eapply reads_bind; [apply int_reads; exact Hsn|].
  eapply reads_bind; [apply fixed_reads; [exact Hsh|reflexivity]|].
  eapply reads_bind; [apply int_reads; exact Hcn|].
  eapply reads_bind_last; [apply fixed_reads; [exact Hch|reflexivity]|]. destruct r; reflexivity.
Qed.
Lemma erec_canon : canon get_erec put_erec erec_wf.
Proof.
  intros bs v rest Hb Hd. unfold get_erec in Hd.
  apply bind_some in Hd as (ep & r1 & P1 & Hd). apply int_canon in P1 as (-> & A1 & B1); [|exact Hb].
  apply bind_some in Hd as (co & r2 & P2 & Hd). apply (seq_canon _ _ _ (fixed_canon 96)) in P2 as (-> & [A2 A2'] & B2); [|exact B1].
  apply bind_some in Hd as (ne & r3 & P3 & Hd). apply (seq_canon _ _ _ (fixed_canon 96)) in P3 as (-> & [A3 A3'] & B3); [|exact B2].
  apply bind_some in Hd as (pa & r4 & P4 & Hd). apply fixed_canon in P4 as (-> & A4 & B4); [|exact B3].
  apply bind_some in Hd as (sn & r5 & P5 & Hd). apply int_canon in P5 as (-> & A5 & B5); [|exact B4].
  apply bind_some in Hd as (sh & r6 & P6 & Hd). apply fixed_canon in P6 as (-> & A6 & B6); [|exact B5].
  apply bind_some in Hd as (cn & r7 & P7 & Hd). apply int_canon in P7 as (-> & A7 & B7); [|exact B6].
  apply bind_some in Hd as (ch & r8 & P8 & [= <- <-]). apply fixed_canon in P8 as (-> & A8 & B8); [|exact B7].
  unfold put_erec. cbn [r_epoch r_comm r_next r_parent r_snum r_shash r_cnum r_chash]. rewrite <- !app_assoc. split; [reflexivity|]. split; [|exact B8].
  unfold erec_wf. cbn [r_epoch r_comm r_next r_parent r_snum r_shash r_cnum r_chash]. repeat (split; [assumption|]). exact A8.
Qed.
Lemma put_batch_inj a b : batch_wf a -> batch_wf b -> put_batch a = put_batch b -> a = b.
Proof.
  intros Ha Hb E. pose proof (reads_from _ _ _ (batch_reads a Ha)) as Ra. pose proof (reads_from _ _ _ (batch_reads b Hb)) as Rb.
  rewrite E in Ra. congruence.
Qed.
Lemma put_erec_inj a b : erec_wf a -> erec_wf b -> put_erec a = put_erec b -> a = b.
Proof.
  intros Ha Hb E. pose proof (reads_from _ _ _ (erec_reads a Ha)) as Ra. pose proof (reads_from _ _ _ (erec_reads b Hb)) as Rb.
  rewrite E in Ra. congruence.
Qed.

(* ---------- node records ---------- *)
Lemma option_reads {A} (p : parser A) put o : (forall x, o = Some x -> reads p (put x) x) -> reads (get_option p) (put_option put o) o.
Proof.
  intros Hp. destruct o as [x|]; unfold get_option, put_option.
  - change (1 :: put x) with ([1] ++ put x). eapply reads_bind; [apply take_reads'; reflexivity|].
    cbv beta match. eapply reads_bind_last; [apply Hp; reflexivity | reflexivity].
  - eapply reads_bind_last; [apply take_reads'; reflexivity | reflexivity].
Qed.
Lemma option_canon {A} (p : parser A) put P : canon p put P ->
  canon (get_option p) (put_option put) (fun o => match o with None => True | Some x => P x end).
Proof.
  intros Hc bs v rest Hb Hp. apply bind_some in Hp as (t & r & Hp & Hq).
  apply take_canon in Hp as (-> & [Hl Ht] & Hr); [|exact Hb].
  destruct t as [|b [|? ?]]; try discriminate Hl. destruct b as [|[?|?|]]; try discriminate Hq.
  - injection Hq as <- <-. repeat split; auto.
  - apply bind_some in Hq as (x & r' & Hq & [= <- <-]). apply Hc in Hq as (-> & Hx & Hr'); [|exact Hr]. repeat split; auto.
Qed.
Lemma legacy_reads n : node_wf n -> n_rpc n = None -> reads get_legacy (put_legacy n) n.
Proof.
  intros ([Hk _] & Hf & Ha & Ht & _) Hr. unfold get_legacy, put_legacy.
  eapply reads_bind; [apply vec_reads; exact Hk|].
  eapply reads_bind; [apply (seq_reads _ put_fixed); [exact Hf|]|].
  { eapply Forall_impl; [|exact Ha]. intros t [Hl _]. apply vec_reads; exact Hl. }
  eapply reads_bind_last; [apply int_reads; exact Ht|]. destruct n; cbn in *. rewrite Hr. reflexivity.
Qed.
Definition bare (n : node) : node := {| n_key := n_key n; n_addrs := n_addrs n; n_ts := n_ts n; n_rpc := None |}.
Lemma bare_wf n : node_wf n -> node_wf (bare n).
Proof. unfold node_wf. cbn. tauto. Qed.
Lemma node_reads n : node_wf n -> reads get_node (put_node n) n.
Proof.
  intros W. unfold get_node, put_node.
  eapply reads_bind; [apply (legacy_reads (bare n)); [apply bare_wf, W | reflexivity]|].
  eapply reads_bind_last; [apply (option_reads _ (fun p => put_fixed (fst p) ++ put_option put_fixed (snd p)))|].
  { intros [h w] E. destruct W as (_ & _ & _ & _ & W). rewrite E in W. destruct W as [[Wh _] Ww]. cbn [fst snd].
    eapply reads_bind; [apply vec_reads; exact Wh|].
    eapply reads_bind_last; [apply (option_reads _ put_fixed)|reflexivity].
    intros u ->. apply vec_reads. apply Ww. }
  destruct n; reflexivity.
Qed.
Lemma legacy_canon : canon get_legacy put_legacy (fun n => node_wf n /\ n_rpc n = None).
Proof.
  intros bs v rest Hb Hd. unfold get_legacy in Hd.
  apply bind_some in Hd as (k & r1 & P1 & Hd). apply vec_canon in P1 as (-> & A1 & B1); [|exact Hb].
  apply bind_some in Hd as (a & r2 & P2 & Hd). apply (seq_canon _ _ _ vec_canon) in P2 as (-> & [A2 A2'] & B2); [|exact B1].
  apply bind_some in Hd as (t & r3 & P3 & [= <- <-]). apply int_canon in P3 as (-> & A3 & B3); [|exact B2].
  unfold put_legacy. cbn [n_key n_addrs n_ts n_rpc]. rewrite <- !app_assoc. split; [reflexivity|]. split; [|exact B3].
  split; [|reflexivity]. unfold node_wf. cbn [n_key n_addrs n_ts n_rpc]. repeat (split; [assumption|]). exact I.
Qed.
Lemma rpc_canon : canon (h <- get_vec ;; w <- get_option get_vec ;; ret (h, w))
  (fun p => put_fixed (fst p) ++ put_option put_fixed (snd p))
  (fun p => let '(h, w) := p in buf h /\ match w with None => True | Some u => buf u end).
Proof.
  intros bs v rest Hb Hd.
  apply bind_some in Hd as (k & r1 & P1 & Hd). apply vec_canon in P1 as (-> & A1 & B1); [|exact Hb].
  apply bind_some in Hd as (a & r2 & P2 & [= <- <-]). apply (option_canon _ _ _ vec_canon) in P2 as (-> & A2 & B2); [|exact B1].
  cbn [fst snd]. rewrite <- !app_assoc. auto.
Qed.
Lemma node_canon : canon get_node put_node node_wf.
Proof.
  intros bs v rest Hb Hd. unfold get_node in Hd.
  apply bind_some in Hd as (l & r1 & P1 & Hd). apply legacy_canon in P1 as (-> & [A1 A1'] & B1); [|exact Hb].
  apply bind_some in Hd as (r & r2 & P2 & [= <- <-]). apply (option_canon _ _ _ rpc_canon) in P2 as (-> & A2 & B2); [|exact B1].
  unfold put_node. cbn [n_rpc]. rewrite <- !app_assoc. split; [reflexivity|]. split; [|exact B2].
  destruct A1 as (? & ? & ? & ? & _). unfold node_wf. cbn [n_key n_addrs n_ts n_rpc]. repeat (split; [assumption|]). exact A2.
Qed.
Lemma record_reads n s : node_wf n -> length s = 48%nat -> reads get_record (put_record n s) (n, s).
Proof.
  intros W Hs. unfold get_record, put_record. eapply reads_bind; [apply node_reads, W|].
  eapply reads_bind_last; [apply fixed_reads; [exact Hs|reflexivity]|reflexivity].
Qed.
Lemma legacy_record_reads n s : node_wf n -> n_rpc n = None -> length s = 48%nat -> reads get_legacy_record (put_legacy_record n s) (n, s).
Proof.
  intros W R Hs. unfold get_legacy_record, put_legacy_record. eapply reads_bind; [apply legacy_reads; assumption|].
  eapply reads_bind_last; [apply fixed_reads; [exact Hs|reflexivity]|reflexivity].
Qed.
Lemma layouts_exclusive bs a b : Forall byte bs -> get_record bs = Some a -> get_legacy_record bs = Some b -> False.
Proof.
  destruct a as [va ra], b as [vb rb]. intros Hb Ha Hl. apply bind_some in Ha as (n & r & Pn & _). apply bind_some in Pn as (l & r1 & P1 & Pn).
  apply bind_some in Hl as (l' & r1' & P1' & Pl). rewrite P1 in P1'. injection P1' as <- <-.
  apply legacy_canon in P1 as (_ & _ & B1); [|exact Hb].
  apply bind_some in Pl as (s & r2 & Ps & _). apply fixed_canon in Ps as (-> & [Hs _] & _); [|exact B1].
  apply bind_some in Pn as (o & r3 & Po & _). unfold put_fixed in Po. rewrite Hs in Po.
  change (uleb (N.of_nat 48)) with [48] in Po. unfold get_option, bind, take in Po. cbn in Po. discriminate Po.
Qed.

(* ---------- fixed-size preimages ---------- *)
Lemma app_inj_len {A} (a b c d : list A) : length a = length c -> a ++ b = c ++ d -> a = c /\ b = d.
Proof.
  revert c; induction a as [|x a IH]; intros [|y c]; cbn [length app]; intros L E; try discriminate L; [auto|].
  injection E as -> E. destruct (IH c ltac:(lia) E) as [-> ->]. auto.
Qed.
Lemma put_fixed_inj a b : length a = length b -> put_fixed a = put_fixed b -> a = b.
Proof. unfold put_fixed. intros <- E. apply app_inv_head in E. exact E. Qed.
Lemma be_inj k a b : a < 256 ^ N.of_nat k -> b < 256 ^ N.of_nat k -> be k a = be k b -> a = b.
Proof. intros Ha Hb E. unfold be in E. apply (le_inj k); auto. rewrite <- (rev_involutive (le k a)), E, rev_involutive. reflexivity. Qed.
Lemma be_length k n : length (be k n) = k.
Proof. unfold be. rewrite rev_length. apply le_length. Qed.
Lemma result_inj e r n x e' r' n' x' : u32 e -> u32 r -> u64 n -> u32 e' -> u32 r' -> u64 n' ->
  result_preimage e r n x = result_preimage e' r' n' x' -> e = e' /\ r = r' /\ n = n' /\ x = x'.
Proof.
  unfold result_preimage. intros H1 H2 H3 H4 H5 H6 E.
  apply app_inj_len in E as [E1 E]; [|rewrite !be_length; reflexivity].
  apply app_inj_len in E as [E2 E]; [|rewrite !be_length; reflexivity].
  apply app_inj_len in E as [E3 E]; [|rewrite !be_length; reflexivity].
  apply be_inj in E1; [|assumption|assumption]. apply be_inj in E2; [|assumption|assumption]. apply be_inj in E3; [|assumption|assumption]. auto.
Qed.
Lemma chead_inj p s n p' s' n' : length p = length p' -> length s = length s' -> u64 n -> u64 n' ->
  chead_preimage p s n = chead_preimage p' s' n' -> p = p' /\ s = s' /\ n = n'.
Proof.
  unfold chead_preimage. intros H1 H2 H3 H4 E.
  apply app_inj_len in E as [E1 E]; [|exact H1]. apply app_inj_len in E as [E2 E]; [|exact H2].
  apply app_inj_len in E as [E3 E]; [|rewrite !le_length; reflexivity]. apply le_inj in E3; auto.
Qed.
Lemma root_inj e e' : u32 e -> u32 e' -> root_preimage e = root_preimage e' -> e = e'.
Proof. unfold root_preimage. intros H1 H2 E. apply app_inv_head in E. apply le_inj in E; auto. Qed.
Lemma fold_inj v r s v' r' s' : length v = length v' -> u32 r -> u32 r' ->
  fold_preimage v r s = fold_preimage v' r' s' -> v = v' /\ r = r' /\ s = s'.
Proof.
  unfold fold_preimage. intros H1 H2 H3 E. apply app_inv_head in E.
  apply app_inj_len in E as [E1 E]; [|exact H1]. apply app_inj_len in E as [E2 E]; [|rewrite !le_length; reflexivity].
  apply le_inj in E2; auto.
Qed.

(* ---------- messages ---------- *)
Lemma put_header_long active h : header_wf h -> (91 <= length (put_header active h))%nat.
Proof.
  intros ([Ha _] & _ & _ & _ & _ & _ & _ & _ & _ & _ & _ & [Heh _] & _). unfold put_header.
  rewrite !app_length, !le_length. unfold put_seq, put_fixed at 3. rewrite !app_length, Ha, Heh.
  change (length (uleb (N.of_nat 32))) with 1%nat.
  assert (U : forall n, (1 <= length (uleb n))%nat).
  { intros n. unfold uleb. rewrite uleb_step. destruct (n <? 128); cbn [length]; lia. }
  pose proof (U (N.of_nat (length (w_payload h)))). pose proof (U (N.of_nat (length (w_parents h)))). lia.
Qed.
Lemma result_length e r n x : length x = 32%nat -> length (result_preimage e r n x) = 48%nat.
Proof. intros Hx. unfold result_preimage. rewrite !app_length, !be_length, Hx. reflexivity. Qed.

Lemma put_node_head n : length (n_key n) = 36%nat -> exists t, put_node n = 36 :: t.
Proof. intros L. unfold put_node, put_legacy, put_fixed at 1. rewrite L. change (uleb (N.of_nat 36)) with [36]. eexists. reflexivity. Qed.
Lemma put_legacy_head n : length (n_key n) = 36%nat -> exists t, put_legacy n = 36 :: t.
Proof. intros L. unfold put_legacy, put_fixed at 1. rewrite L. change (uleb (N.of_nat 36)) with [36]. eexists. reflexivity. Qed.
Lemma put_node_inj a b : node_wf a -> node_wf b -> put_node a = put_node b -> a = b.
Proof.
  intros Ha Hb E. pose proof (reads_from _ _ _ (node_reads a Ha)) as Ra. pose proof (reads_from _ _ _ (node_reads b Hb)) as Rb.
  rewrite E in Ra. congruence.
Qed.
Lemma put_legacy_inj a b : node_wf a -> node_wf b -> n_rpc a = None -> n_rpc b = None -> put_legacy a = put_legacy b -> a = b.
Proof.
  intros Ha Hb Na Nb E. pose proof (reads_from _ _ _ (legacy_reads a Ha Na)) as Ra. pose proof (reads_from _ _ _ (legacy_reads b Hb Nb)) as Rb.
  rewrite E in Ra. congruence.
Qed.
Lemma node_not_legacy a b : node_wf a -> node_wf b -> n_rpc b = None -> put_node a = put_legacy b -> False.
Proof.
  intros Ha Hb Nb E. pose proof (legacy_reads b Hb Nb []) as Rb. rewrite app_nil_r, <- E in Rb.
  pose proof (legacy_reads (bare a) (bare_wf _ Ha) eq_refl (put_option (fun p => put_fixed (fst p) ++ put_option put_fixed (snd p)) (n_rpc a))) as Ra.
  unfold put_node in Rb. change (put_legacy (bare a)) with (put_legacy a) in Ra. rewrite Ra in Rb. injection Rb as _ Rb.
  destruct (n_rpc a); discriminate Rb.
Qed.

Section Msg.
Variable active : N -> bool.
Variable H : bytes -> bytes.
Hypothesis H32 : hash32 H.

(** One byte tells the scopes apart. *)
Definition tag (m : signed) : N :=
  match m with SVote _ | SResult _ _ _ _ => 2 | SEpoch _ => 1 | SSeed _ _ _ => 4 | SPossession _ _ => 0
  | SNode _ | SOldNode _ => 36 | SNetKey w => if w then 119 else 112 end.
Lemma message_tag m : signed_wf m -> exists t, message active H m = tag m :: t.
Proof.
  destruct m as [h|e r n x|r|e r p|k a|n|n|w]; intros W; try (eexists; reflexivity).
  - apply put_node_head. apply W.
  - apply put_legacy_head. apply W.
  - destruct w; eexists; reflexivity.
Qed.

Lemma hash_msg a b : put_fixed (H a) = put_fixed (H b) -> H a = H b.
Proof. apply put_fixed_inj. destruct (H32 a) as [-> _], (H32 b) as [-> _]. reflexivity. Qed.

Lemma bytes_dec (a b : bytes) : {a = b} + {a <> b}.
Proof. apply list_eq_dec, N.eq_dec. Qed.

Lemma message_inj a b : signed_wf a -> signed_wf b -> message active H a = message active H b ->
  content active a = content active b \/ collides H (hashed active a) (hashed active b).
Proof.
  intros Wa Wb E.
  assert (T : tag a = tag b).
  { destruct (message_tag a Wa) as [ta Ea], (message_tag b Wb) as [tb Eb]. rewrite Ea, Eb in E. injection E as E _. exact E. }
  destruct a as [h|e r n x|r|e r p|k a|n|n|w], b as [h'|e' r' n' x'|r'|e' r' p'|k' a'|n'|n'|w']; cbn [tag] in T;
    try discriminate T; try (destruct w; discriminate T); try (destruct w'; discriminate T);
    cbn [message content hashed signed_wf] in *; unfold intent in E.
  - injection E as E. apply hash_msg in E. destruct (bytes_dec (put_header active h) (put_header active h')) as [D|D]; [|right; split; auto].
    left. f_equal. apply put_header_inj; auto.
  - right. injection E as E. apply hash_msg in E. split; [|exact E]. intros D.
    pose proof (put_header_long active h Wa). destruct Wb as (_ & _ & _ & [Lx _]). pose proof (result_length e' r' n' x' Lx) as L.
    rewrite <- D in L. lia.
  - right. injection E as E. apply hash_msg in E. split; [|exact E]. intros D.
    pose proof (put_header_long active h' Wb). destruct Wa as (_ & _ & _ & [Lx _]). pose proof (result_length e r n x Lx) as L.
    rewrite D in L. lia.
  - injection E as E. apply hash_msg in E. destruct (bytes_dec (result_preimage e r n x) (result_preimage e' r' n' x')) as [D|D]; [|right; split; auto].
    left. destruct Wa as (? & ? & ? & _), Wb as (? & ? & ? & _). apply result_inj in D; auto. destruct D as (-> & -> & -> & ->). reflexivity.
  - injection E as E. apply hash_msg in E. destruct (bytes_dec (put_erec r) (put_erec r')) as [D|D]; [|right; split; auto].
    left. f_equal. apply put_erec_inj; auto.
  - left. destruct Wa as (? & ? & [La _]), Wb as (? & ? & [Lb _]).
    apply app_inj_len in E as [_ E]; [|reflexivity].
    apply app_inj_len in E as [E1 E]; [|rewrite !le_length; reflexivity]. apply app_inj_len in E as [E2 E]; [|rewrite !le_length; reflexivity].
    apply le_inj in E1; auto. apply le_inj in E2; auto. apply put_fixed_inj in E; [|congruence]. subst. reflexivity.
  - left. destruct Wa as ([La _] & _), Wb as ([Lb _] & _). apply app_inj_len in E as [_ E]; [|reflexivity].
    apply app_inj_len in E as [-> ->]; [|congruence]. reflexivity.
  - left. f_equal. apply put_node_inj; [apply Wa | apply Wb | exact E].
  - exfalso. eapply node_not_legacy; [apply Wa | apply Wb | apply Wb | exact E].
  - exfalso. eapply node_not_legacy; [apply Wb | apply Wa | apply Wa | symmetry; exact E].
  - left. f_equal. apply put_legacy_inj; auto; try apply Wa; try apply Wb.
  - left. destruct w, w'; try discriminate T; reflexivity.
Qed.
End Msg.

(* ---------- sub-dags ---------- *)
Lemma concat_len {A} (k : nat) (l : list (list A)) : Forall (fun b => length b = k) l -> length (concat l) = (k * length l)%nat.
Proof. induction 1 as [|x t Hx Ht IH]; cbn [concat length]; [lia|]. rewrite app_length, Hx, IH. lia. Qed.
Lemma concat_inj {A} (k : nat) : forall (l m : list (list A)), Forall (fun b => length b = k) l -> Forall (fun b => length b = k) m ->
  length l = length m -> concat l = concat m -> l = m.
Proof.
  induction l as [|x l IH]; intros [|y m] Hl Hm L E; try discriminate L; [reflexivity|]. inversion Hl; inversion Hm; subst.
  cbn [concat] in E. apply app_inj_len in E as [-> E]; [|congruence]. f_equal. apply IH; auto.
Qed.
Definition get_score : parser (bytes * N) := k <- take 32 ;; n <- get_int 8 ;; ret (k, n).
Lemma score_reads p : arr 32 (fst p) /\ u64 (snd p) -> reads get_score (fst p ++ le 8 (snd p)) p.
Proof.
  intros [[Hl _] Hu]. destruct p as [k n]. cbn [fst snd] in *. unfold get_score. eapply reads_bind; [apply take_reads'; exact Hl|].
  eapply reads_bind_last; [apply int_reads; exact Hu|reflexivity].
Qed.
Lemma arr_lens k l : Forall (arr k) l -> Forall (fun b : bytes => length b = k) l.
Proof. intros F. eapply Forall_impl; [|exact F]. intros b Hb; apply Hb. Qed.
Lemma sdag_tail_inj sc f ts r sc' f' ts' r' : fits sc -> fits sc' ->
  Forall (fun p => arr 32 (fst p) /\ u64 (snd p)) sc -> Forall (fun p => arr 32 (fst p) /\ u64 (snd p)) sc' -> u64 ts -> u64 ts' ->
  put_scores sc f ++ le 8 ts ++ r = put_scores sc' f' ++ le 8 ts' ++ r' -> sc = sc' /\ f = f' /\ ts = ts' /\ r = r'.
Proof.
  intros Hf Hf' Hs Hs' Ht Ht' E. unfold put_scores in E. rewrite <- !app_assoc in E.
  pose proof (seq_reads get_score (fun p => fst p ++ le 8 (snd p)) sc Hf) as R.
  pose proof (seq_reads get_score (fun p => fst p ++ le 8 (snd p)) sc' Hf') as R'.
  specialize (R ltac:(eapply Forall_impl; [|exact Hs]; intros p; apply score_reads)).
  specialize (R' ltac:(eapply Forall_impl; [|exact Hs']; intros p; apply score_reads)).
  specialize (R ([if f then 1 else 0] ++ le 8 ts ++ r)). specialize (R' ([if f' then 1 else 0] ++ le 8 ts' ++ r')).
  pose proof (eq_trans (eq_sym R) (eq_trans (f_equal (get_seq get_score) E) R')) as X.
  clear R R' E. remember (le 8 ts ++ r) as t1. remember (le 8 ts' ++ r') as t2. cbn [app] in X. injection X as Esc F Er. subst sc'. subst t1 t2.
  apply app_inj_len in Er as [Et ->]; [|rewrite !le_length; reflexivity].
  apply le_inj in Et; auto. repeat split; auto. destruct f, f'; try discriminate F; reflexivity.
Qed.
Lemma scores_len sc f : Forall (fun p => arr 32 (fst p) /\ u64 (snd p)) sc ->
  length (put_scores sc f) = (length (uleb (N.of_nat (length sc))) + 40 * length sc + 1)%nat.
Proof.
  intros Hs. unfold put_scores, put_seq. rewrite !app_length. rewrite (concat_len 40), map_length; [change (length [if f then 1 else 0]) with 1%nat; unfold bytes in *; lia|].
  apply Forall_forall. intros b Hb. apply in_map_iff in Hb as (p & <- & Hp). rewrite Forall_forall in Hs. destruct (Hs p Hp) as [[L _] _].
  unfold bytes in *. rewrite app_length, le_length, L. reflexivity.
Qed.
Lemma sdag_len s : sdag_wf s -> length (sdag_preimage s) =
  (32 * length (s_heads s) + (length (uleb (N.of_nat (length (s_scores s)))) + 40 * length (s_scores s) + 1) + 40)%nat.
Proof.
  intros (Hh & Hf & Hs & Ho & Ht & [Hr _]). unfold sdag_preimage. rewrite !app_length, le_length, Hr, (concat_len 32) by (apply arr_lens, Hh).
  rewrite scores_len by exact Hs. unfold bytes in *. lia.
Qed.
Lemma sdag_inj_heads a b : sdag_wf a -> sdag_wf b -> length (s_heads a) = length (s_heads b) ->
  sdag_preimage a = sdag_preimage b -> a = b.
Proof.
  intros (Hh & Hf & Hs & Ho & Ht & Hr) (Hh' & Hf' & Hs' & Ho' & Ht' & Hr') L E. unfold sdag_preimage in E.
  apply arr_lens in Hh, Hh'.
  apply app_inj_len in E as [E1 E]; [|rewrite !(concat_len 32) by assumption; f_equal; exact L].
  apply (concat_inj 32) in E1; auto. apply sdag_tail_inj in E; auto. destruct E as (? & ? & ? & ?). destruct a, b; cbn in *; congruence.
Qed.
Lemma sdag_inj_scores a b : sdag_wf a -> sdag_wf b -> length (s_scores a) = length (s_scores b) ->
  sdag_preimage a = sdag_preimage b -> a = b.
Proof.
  intros Wa Wb L E. apply sdag_inj_heads; auto. pose proof (f_equal (@length N) E) as EL. rewrite !sdag_len, L in EL by assumption. unfold bytes in *. lia.
Qed.
Lemma uleb_small n : n < 128 -> length (uleb n) = 1%nat.
Proof. intros Hn. unfold uleb. rewrite uleb_step. destruct (N.ltb_spec n 128); [reflexivity|lia]. Qed.
Lemma sdag_confused a b : sdag_wf a -> sdag_wf b -> (length (s_scores a) < 128)%nat -> (length (s_scores b) < 128)%nat ->
  sdag_preimage a = sdag_preimage b ->
  a = b \/ (length (s_scores a) <> length (s_scores b) /\
            4 * length (s_heads a) + 5 * length (s_scores a) = 4 * length (s_heads b) + 5 * length (s_scores b))%nat.
Proof.
  intros Wa Wb La Lb E. destruct (Nat.eq_dec (length (s_scores a)) (length (s_scores b))) as [D|D].
  - left. apply sdag_inj_scores; auto.
  - right. split; [exact D|]. pose proof (f_equal (@length N) E) as EL. rewrite !sdag_len in EL by assumption.
    unfold bytes in *. rewrite !uleb_small in EL by lia. lia.
Qed.

(* ---------- the chain ---------- *)
Lemma nth_error_rev_older {A} (x : A) l i y : nth_error (rev l) i = Some y -> nth_error (rev (x :: l)) i = Some y.
Proof. intros E. cbn [rev]. rewrite nth_error_app1; [exact E|]. apply nth_error_Some. congruence. Qed.
Lemma chain_arr H g l : hash32 H -> arr 32 g -> arr 32 (chain_digest H g l).
Proof. destruct l; cbn [chain_digest]; auto. Qed.
Lemma chain_inj_same H g : hash32 H -> arr 32 g -> forall l l', length l = length l' -> u64 (N.of_nat (length l)) ->
  Forall sdag_wf l -> Forall sdag_wf l' -> same_sizes l l' -> chain_digest H g l = chain_digest H g l' ->
  l = l' \/ exists x y, In x (chain_hashed H g l) /\ In y (chain_hashed H g l') /\ collides H x y.
Proof.
  intros H32 Hg. induction l as [|s l IH]; intros [|s' l'] L U W W' Sz E; try discriminate L; [left; reflexivity|].
  cbn [length] in L. injection L as L. inversion W as [|? ? Ws Wl]; inversion W' as [|? ? Ws' Wl']; subst.
  cbn [chain_digest] in E. set (c := chead_preimage (chain_digest H g l) _ _) in E. set (c' := chead_preimage (chain_digest H g l') _ _) in E.
  destruct (bytes_dec c c') as [D|D].
  2:{ right. exists c, c'. cbn [chain_hashed In]. subst c c'. repeat split; auto. }
  assert (E' := D). unfold c, c' in E'. unfold u64 in U. cbn [length] in U.
  apply chead_inj in E' as (Eo & Es & _);
    [| destruct (chain_arr H g l H32 Hg), (chain_arr H g l' H32 Hg); congruence
     | destruct (H32 (sdag_preimage s)), (H32 (sdag_preimage s')); congruence | exact U | rewrite <- L; exact U].
  destruct (bytes_dec (sdag_preimage s) (sdag_preimage s')) as [D2|D2].
  2:{ right. exists (sdag_preimage s), (sdag_preimage s'). cbn [chain_hashed In]. repeat split; auto. }
  assert (s = s').
  { apply sdag_inj_scores; auto. apply (Sz (length l)).
    - cbn [rev]. rewrite nth_error_app2; rewrite rev_length; [rewrite Nat.sub_diag; reflexivity | lia].
    - cbn [rev]. rewrite L. rewrite nth_error_app2; rewrite rev_length; [rewrite Nat.sub_diag; reflexivity | lia]. }
  subst s'. destruct (IH l' L) as [->|(x & y & Hx & Hy & C)]; auto.
  - unfold u64. lia.
  - intros i a b Ha Hb. apply (Sz i); apply nth_error_rev_older; assumption.
  - right. exists x, y. cbn [chain_hashed In]. auto.
Qed.
Lemma chain_inj H g l l' : hash32 H -> arr 32 g -> l <> [] -> l' <> [] -> u64 (N.of_nat (length l)) -> u64 (N.of_nat (length l')) ->
  Forall sdag_wf l -> Forall sdag_wf l' -> same_sizes l l' -> chain_digest H g l = chain_digest H g l' ->
  l = l' \/ exists x y, In x (chain_hashed H g l) /\ In y (chain_hashed H g l') /\ collides H x y.
Proof.
  intros H32 Hg N1 N2 U U' W W' Sz E. destruct (Nat.eq_dec (length l) (length l')) as [L|L]; [apply chain_inj_same; auto|].
  right. destruct l as [|s l]; [congruence|]. destruct l' as [|s' l']; [congruence|]. cbn [chain_digest chain_hashed] in *.
  eexists _, _. split; [left; reflexivity|]. split; [left; reflexivity|]. split; [|exact E]. intros D. cbn [length] in *.
  apply chead_inj in D as (_ & _ & D); auto.
  - lia.
  - destruct (chain_arr H g l H32 Hg), (chain_arr H g l' H32 Hg); congruence.
  - destruct (H32 (sdag_preimage s)), (H32 (sdag_preimage s')); congruence.
Qed.

(* ---------- encodings are bytes ---------- *)
Lemma uleb_f_bytes f : forall n, n < 128 ^ N.of_nat (S f) -> Forall byte (uleb_f f n).
Proof.
  induction f as [|f IH]; intros n Hn.
  - cbn [uleb_f]. constructor; [|constructor]. change (128 ^ N.of_nat 1) with 128 in Hn. unfold byte. lia.
  - rewrite uleb_step. destruct (N.ltb_spec n 128) as [L|L]; [constructor; [unfold byte; lia|constructor]|].
    constructor; [unfold byte; pose proof (N.mod_lt n 128 ltac:(lia)); lia|]. apply IH.
    rewrite Nat2N.inj_succ, N.pow_succ_r' in Hn. apply N.div_lt_upper_bound; lia.
Qed.
Lemma uleb_bytes n : n < 2 ^ 31 -> Forall byte (uleb n).
Proof. intros Hn. apply uleb_f_bytes. eapply N.lt_trans; [exact Hn|reflexivity]. Qed.
Lemma put_fixed_bytes b : buf b -> Forall byte (put_fixed b).
Proof. intros [L B]. apply Forall_app. split; [apply uleb_bytes, L | exact B]. Qed.
Lemma arr_buf k b : N.of_nat k < 2 ^ 31 -> arr k b -> buf b.
Proof. intros Hk [L B]. split; [rewrite L; exact Hk | exact B]. Qed.
Lemma put_seq_bytes {A} (put : A -> bytes) l : fits l -> Forall (fun x => Forall byte (put x)) l -> Forall byte (put_seq put l).
Proof.
  intros Hf Hl. apply Forall_app. split; [apply uleb_bytes, Hf|]. induction Hl; cbn [map concat]; [constructor|]. apply Forall_app. split; auto.
  apply IHHl. unfold fits in *. cbn [length] in Hf. lia.
Qed.
Lemma put_legacy_bytes n : node_wf n -> Forall byte (put_legacy n).
Proof.
  intros (Hk & Hf & Ha & _ & _). unfold put_legacy. repeat (rewrite Forall_app); repeat split.
  - apply put_fixed_bytes, Hk.
  - apply put_seq_bytes; [exact Hf|]. eapply Forall_impl; [|exact Ha]. intros b; apply put_fixed_bytes.
  - apply le_bytes.
Qed.
Lemma put_legacy_record_bytes n s : node_wf n -> arr 48 s -> Forall byte (put_legacy_record n s).
Proof. intros W A. apply Forall_app. split; [apply put_legacy_bytes, W | apply put_fixed_bytes, (arr_buf 48); [reflexivity | exact A]]. Qed.
Lemma put_header_bytes active h : header_wf h -> Forall byte (put_header active h).
Proof.
  intros ([_ Ha] & _ & _ & _ & Hpf & Hpp & _ & Hqf & Hqp & _ & _ & Heh & Hs). unfold put_header.
  rewrite !Forall_app; repeat split; try apply le_bytes; auto.
  - apply put_seq_bytes; [exact Hpf|]. eapply Forall_impl; [|exact Hpp]. intros p [Hp _]. apply Forall_app. split; [|apply le_bytes].
    apply put_fixed_bytes, (arr_buf 32); [reflexivity|exact Hp].
  - apply put_seq_bytes; [exact Hqf|]. eapply Forall_impl; [|exact Hqp]. intros p Hp. apply put_fixed_bytes, (arr_buf 32); [reflexivity|exact Hp].
  - apply put_fixed_bytes, (arr_buf 32); [reflexivity|exact Heh].
  - destruct (active (w_epoch h)); [|constructor]. apply put_fixed_bytes, (arr_buf 48); [reflexivity|exact Hs].
Qed.
