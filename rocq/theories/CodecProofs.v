(** Proofs for C64. *)
From Verif Require Import Util CodecModel CodecSpec.
Local Open Scope N_scope.

Lemma lenN_app a b : lenN (a ++ b) = lenN a + lenN b.
Proof. unfold lenN. rewrite app_length. lia. Qed.
Lemma lenN_firstn n l : n <= lenN l -> lenN (firstn (N.to_nat n) l) = n.
Proof. unfold lenN. intros. rewrite firstn_length_le; lia. Qed.
Lemma lenN_nil_inv l : lenN l = 0 -> l = [].
Proof. destruct l; unfold lenN; simpl; [auto|lia]. Qed.
Lemma to_nat_lenN l : N.to_nat (lenN l) = length l.
Proof. unfold lenN. lia. Qed.
Lemma firstn_lenN l r : firstn (N.to_nat (lenN l)) (l ++ r) = l.
Proof. rewrite to_nat_lenN, firstn_app, firstn_all, Nat.sub_diag. simpl. apply app_nil_r. Qed.
Lemma skipn_lenN l r : skipn (N.to_nat (lenN l)) (l ++ r) = r.
Proof. rewrite to_nat_lenN, skipn_app, skipn_all, Nat.sub_diag. reflexivity. Qed.

(* ---------- numbers ---------- *)
Lemma le_length k x : length (le k x) = k.
Proof. revert x; induction k; simpl; auto. Qed.
Lemma le_byte k x : Forall is_byte (le k x).
Proof. revert x; induction k as [|k IH]; intros x; simpl; constructor; auto. unfold is_byte. apply N.mod_lt. discriminate. Qed.
Lemma of_le_le k x : x < 256 ^ N.of_nat k -> of_le (le k x) = x.
Proof.
  revert x; induction k as [|k IH]; intros x H.
  - simpl in *. lia.
  - cbn [le of_le]. rewrite IH.
    + pose proof (N.div_mod x 256 ltac:(discriminate)). lia.
    + apply N.div_lt_upper_bound; [discriminate|]. rewrite <- N.pow_succ_r'. rewrite Nat2N.inj_succ in H. exact H.
Qed.
Lemma le_of_le l : Forall is_byte l -> le (length l) (of_le l) = l.
Proof.
  induction 1 as [|b t Hb _ IH]; [reflexivity|]. unfold is_byte in Hb. cbn [length of_le le]. f_equal.
  - rewrite N.mul_comm, N.mod_add by discriminate. apply N.mod_small; auto.
  - rewrite N.mul_comm, N.div_add by discriminate. rewrite N.div_small by auto. rewrite N.add_0_l. exact IH.
Qed.
Lemma of_le_bound l : Forall is_byte l -> of_le l < 256 ^ N.of_nat (length l).
Proof.
  induction 1 as [|b t Hb _ IH]; [reflexivity|]. unfold is_byte in Hb. cbn [length of_le].
  rewrite Nat2N.inj_succ, N.pow_succ_r'. lia.
Qed.
Lemma p32 : 256 ^ N.of_nat 4 = 2 ^ 32. Proof. reflexivity. Qed.

Lemma bytes_firstn n l : Forall is_byte l -> Forall is_byte (firstn n l).
Proof. intros H; revert n; induction H; intros [|n]; simpl; constructor; auto. Qed.
Lemma bytes_skipn n l : Forall is_byte l -> Forall is_byte (skipn n l).
Proof. intros H; revert n; induction H; intros [|n]; simpl; auto. Qed.

(* ---------- reading ---------- *)
Lemma rd_spec n s t f b r : rd n {| segs := s :: t; fin := f |} = Got b r ->
  b = firstn n s /\ b ++ arrived r = s ++ concat t /\ fin r = f /\ (Forall (fun s => s <> []) t -> honest_io r).
Proof.
  unfold rd, arrived, honest_io; cbn [segs fin]. intros E. injection E as <- <-. cbn [segs fin]. split; [auto|]. split; [|split].
  - transitivity ((firstn n s ++ skipn n s) ++ concat t); [|rewrite firstn_skipn; reflexivity].
    rewrite <- app_assoc. destruct (skipn n s); reflexivity.
  - auto.
  - intros H. destruct (skipn n s); [auto|]. constructor; [discriminate|auto].
Qed.
Definition end_err (f : ending) : option err := match f with Closed => Some EEof | Failed => Some EIo | Silent => None end.
(** reading [n] bytes, at most [c] at a time, whatever the segments *)
Lemma pull_spec fuel : forall c n acc r, honest_io r -> (1 <= c)%nat -> (length (arrived r) < fuel)%nat ->
  if (n <=? length (arrived r))%nat
  then exists r', pull fuel c n acc r = Full (acc ++ firstn n (arrived r)) r' /\ arrived r' = skipn n (arrived r) /\ honest_io r' /\ fin r' = fin r
  else exists r', pull fuel c n acc r = Short (end_err (fin r)) (acc ++ arrived r) r' /\ arrived r' = [].
Proof.
  induction fuel as [|fuel IH]; intros c n acc r H Hc Hf; [lia|].
  destruct n as [|n].
  - simpl. exists r. rewrite app_nil_r. auto.
  - destruct r as [sg f]. destruct sg as [|s t].
    + unfold arrived; simpl. destruct f; simpl; eexists; rewrite ?app_nil_r; split; reflexivity.
    + inversion H as [|? ? Hs Ht]; subst. destruct s as [|x s]; [congruence|].
      cbn [pull]. match goal with |- context [rd ?p ?q] => destruct (rd p q) as [b r'| |] eqn:E end; [|discriminate E|discriminate E].
      destruct (rd_spec _ _ _ _ _ _ E) as [Eb [Ec [Ef Eh]]].
      assert (Ha : arrived {| segs := (x :: s) :: t; fin := f |} = b ++ arrived r') by (rewrite Ec; reflexivity).
      assert (Hb : (1 <= length b <= S n)%nat).
      { subst b. rewrite firstn_length. simpl length. lia. }
      assert (Hr : honest_io r') by auto.
      match goal with |- context [arrived ?R] => replace (arrived R) with (b ++ arrived r') by (symmetry; exact Ha) end.
      match type of Hf with context [arrived ?R] => replace (arrived R) with (b ++ arrived r') in Hf by (symmetry; exact Ha) end.
      rewrite !app_length. rewrite !app_length in Hf.
      assert (IH' : if (S n - length b <=? length (arrived r'))%nat
                    then exists r'', pull fuel c (S n - length b) (acc ++ b) r' = Full ((acc ++ b) ++ firstn (S n - length b) (arrived r')) r'' /\
                       arrived r'' = skipn (S n - length b) (arrived r') /\ honest_io r'' /\ fin r'' = fin r'
                    else exists r'', pull fuel c (S n - length b) (acc ++ b) r' = Short (end_err (fin r')) ((acc ++ b) ++ arrived r') r'' /\ arrived r'' = [])
        by (apply IH; auto; lia).
      destruct (Nat.leb_spec (S n) (length b + length (arrived r'))) as [L|L];
      destruct (Nat.leb_spec (S n - length b) (length (arrived r'))) as [L'|L']; try lia.
      * destruct IH' as [r'' [E1 [E2 [E3 E4]]]].
        destruct b as [|y b]; [simpl in Hb; lia|]. exists r''.
        rewrite firstn_app, firstn_all2 by lia. rewrite skipn_app, skipn_all2 by lia.
        rewrite app_assoc. cbn [fin]. rewrite <- Ef. repeat split; auto.
      * destruct IH' as [r'' [E1 E2]].
        destruct b as [|y b]; [simpl in Hb; lia|]. exists r''. rewrite app_assoc. cbn [fin]. rewrite <- Ef. repeat split; auto.
Qed.
Lemma read_exact_spec n r : honest_io r -> (1 <= n)%nat ->
  if (n <=? length (arrived r))%nat
  then exists r', read_exact n r = Full (firstn n (arrived r)) r' /\ arrived r' = skipn n (arrived r) /\ honest_io r' /\ fin r' = fin r
  else exists r', read_exact n r = Short (end_err (fin r)) (arrived r) r' /\ arrived r' = [].
Proof. intros. apply (pull_spec (fuel_of r) n n [] r); auto. Qed.
Lemma read_body_spec n r : honest_io r ->
  if (n <=? length (arrived r))%nat
  then exists r', read_body n r = Full (firstn n (arrived r)) r' /\ arrived r' = skipn n (arrived r) /\ honest_io r' /\ fin r' = fin r
  else exists r', read_body n r = Short (end_err (fin r)) (arrived r) r' /\ arrived r' = [].
Proof.
  intros. apply (pull_spec (fuel_of r) _ n [] r); auto.
  unfold BODY_READ_CHUNK_SIZE. lia.
Qed.

(* ---------- limits ---------- *)
Lemma max_compress_len_limit n : max_compress_len n = body_limit n.
Proof.
  unfold max_compress_len, body_limit, U32. change (2 ^ 32) with 4294967296.
  destruct (N.ltb_spec (4294967296 - 1) n); destruct (N.ltb_spec (32 + n + n / 6) 4294967296); try lia; cbv zeta.
  - destruct (N.ltb_spec (4294967296 - 1) (32 + n + n / 6)); lia.
  - destruct (N.ltb_spec (4294967296 - 1) (32 + n + n / 6)); lia.
Qed.
Lemma body_limit_mono a b : a <= b -> limit_ok b -> body_limit a <= body_limit b.
Proof.
  unfold body_limit, limit_ok. change (2 ^ 32) with 4294967296. intros.
  assert (a / 6 <= b / 6) by (apply N.div_le_mono; lia).
  repeat match goal with |- context [?x <? ?y] => destruct (N.ltb_spec x y) end; lia.
Qed.
Lemma body_limit_lt a : body_limit a < 2 ^ 32.
Proof. unfold body_limit. change (2 ^ 32) with 4294967296. destruct (N.ltb_spec (32 + a + a / 6) 4294967296); lia. Qed.

Section P.
Variable blk_d : bytes -> option bytes.
Variable crc : bytes -> N.
Hypothesis crc32 : forall d, crc d < 2 ^ 32.
Notation Chunk := (Chunk blk_d crc).
Notation Chunks := (Chunks blk_d crc).
Notation Payload := (Payload blk_d crc).
Notation read_chunk := (read_chunk blk_d crc).
Notation inflate_go := (inflate_go blk_d crc).
Notation inflate := (inflate blk_d crc).

(* ---------- chunks ---------- *)
Lemma read_chunk_sound ty len rest d rest' : Forall is_byte rest -> is_byte ty -> len < 2 ^ 24 ->
  read_chunk ty len rest = Some (d, rest') -> exists w, ty :: le 3 len ++ rest = w ++ rest' /\ Chunk w d /\ (ty = 255 -> w = [255; 6; 0; 0] ++ magic /\ d = []).
Proof using All.
  intros Hb Ht Hl. clear crc32. unfold CodecModel.read_chunk.
  destruct (N.ltb_spec CHUNK_MAX len) as [A|A]; [discriminate|].
  destruct (N.ltb_spec (lenN rest) len) as [B|B]; [discriminate|]. unfold CHUNK_MAX in A.
  set (body := firstn (N.to_nat len) rest). set (tl := skipn (N.to_nat len) rest). cbv zeta.
  assert (Er : rest = body ++ tl) by (symmetry; apply firstn_skipn).
  assert (El : lenN body = len) by (apply lenN_firstn; auto).
  assert (Hbody : Forall is_byte body) by (apply bytes_firstn; auto).
  destruct (N.eqb_spec ty 255) as [->|N255].
  - destruct (N.eqb_spec len 6) as [->|]; [|discriminate]. simpl andb.
    destruct (list_eq_dec N.eq_dec body magic) as [Em|]; [|discriminate]. intros E; injection E as <- <-.
    exists ([255; 6; 0; 0] ++ magic). rewrite Er, Em. split; [reflexivity|]. split; [constructor|auto].
  - destruct (N.leb_spec 128 ty) as [C|C].
    + intros E; injection E as <- <-. exists ([ty] ++ le 3 (lenN body) ++ body). rewrite El.
      split; [|split; [|congruence]].
      * simpl. f_equal. rewrite Er at 1. repeat rewrite <- app_assoc. reflexivity.
      * rewrite <- El. constructor; unfold is_byte in Ht; [lia|]. rewrite El. auto.
    + destruct (N.leb_spec 2 ty) as [D|D]; [discriminate|].
      destruct (N.ltb_spec len 4) as [F|F]; [discriminate|].
      set (h := firstn 4 body). set (z := skipn 4 body).
      assert (Eb : body = h ++ z) by (symmetry; apply firstn_skipn).
      assert (Eh : length h = 4%nat) by (unfold h; rewrite firstn_length; unfold lenN in El; lia).
      assert (Ez : 4 + lenN z = len).
      { rewrite <- El, Eb, lenN_app. unfold lenN at 2. rewrite Eh. reflexivity. }
      assert (Hh : le 4 (of_le h) = h).
      { rewrite <- Eh. apply le_of_le. apply bytes_firstn; auto. }
      destruct (N.eqb_spec ty 1) as [->|N1].
      * destruct (N.leb_spec (lenN z) BLOCK) as [G|G]; [|discriminate]. simpl andb.
        destruct (N.eqb_spec (crc z) (of_le h)) as [Ec|]; [|discriminate]. intros E; injection E as <- <-.
        exists ([1] ++ le 3 (4 + lenN z) ++ le 4 (crc z) ++ z). split; [|split; [|congruence]].
        -- rewrite Ez, Ec, Hh. simpl. do 1 f_equal. rewrite Er, Eb at 1. repeat rewrite <- app_assoc. reflexivity.
        -- constructor. auto.
      * assert (ty = 0) by lia. subst ty.
        destruct (blk_d z) as [dd|] eqn:Ed; [|discriminate].
        destruct (N.leb_spec (lenN dd) BLOCK) as [G|G]; [|discriminate]. simpl andb.
        destruct (N.eqb_spec (crc dd) (of_le h)) as [Ec|]; [|discriminate]. intros E; injection E as <- <-.
        exists ([0] ++ le 3 (4 + lenN z) ++ le 4 (crc dd) ++ z). split; [|split; [|congruence]].
        -- rewrite Ez, Ec, Hh. simpl. do 1 f_equal. rewrite Er, Eb at 1. repeat rewrite <- app_assoc. reflexivity.
        -- constructor; auto. lia.
Qed.

(** a chunk at the front is read *)
Lemma read_chunk_complete w d r : Chunk w d ->
  exists ty a b c t, w ++ r = ty :: a :: b :: c :: t /\ read_chunk ty (of_le [a; b; c]) t = Some (d, r) /\ (ty = 255 \/ hd 0 w <> 255).
Proof using All.
  assert (P3 : forall x, x < 2 ^ 24 -> of_le (le 3 x) = x) by (intros; apply of_le_le; exact H).
  assert (P4 : forall d, of_le (le 4 (crc d)) = crc d) by (intros; apply of_le_le; rewrite p32; auto).
  assert (F4 : forall x y, firstn 4 (le 4 x ++ y) = le 4 x).
  { intros x y. cbn [le app firstn]. reflexivity. }
  assert (S4 : forall x y, skipn 4 (le 4 x ++ y) = y).
  { intros x y. cbn [le app skipn]. reflexivity. }
  assert (L4 : forall x y, lenN (le 4 x ++ y) = 4 + lenN y) by (intros; rewrite lenN_app; unfold lenN; rewrite le_length; reflexivity).
  intros H; inversion H; subst.
  - exists 255, 6, 0, 0, (magic ++ r). split; [reflexivity|]. split; [|auto].
    assert (L : lenN (magic ++ r) = 6 + lenN r) by (rewrite lenN_app; reflexivity).
    unfold CodecModel.read_chunk. change (of_le [6; 0; 0]) with 6. change (CHUNK_MAX <? 6) with false. cbv iota.
    destruct (N.ltb_spec (lenN (magic ++ r)) 6) as [C|C]; [lia|]. reflexivity.
  - destruct (le 3 (4 + lenN d)) as [|a [|b [|c [|]]]] eqn:E3; try (apply (f_equal (@length N)) in E3; rewrite le_length in E3; discriminate).
    exists 1, a, b, c, (le 4 (crc d) ++ d ++ r). split; [rewrite <- ?app_assoc; reflexivity|]. split; [|right; simpl; lia].
    rewrite <- E3, P3 by lia. unfold CodecModel.read_chunk. cbv zeta.
    set (q := le 4 (crc d) ++ d).
    replace (le 4 (crc d) ++ d ++ r) with (q ++ r) by (unfold q; rewrite <- app_assoc; reflexivity).
    rewrite <- (L4 (crc d) d). fold q. rewrite firstn_lenN, skipn_lenN. rewrite lenN_app.
    destruct (N.ltb_spec CHUNK_MAX (lenN q)) as [C|_]; [unfold q in C; rewrite L4 in C; unfold CHUNK_MAX in C; lia|].
    destruct (N.ltb_spec (lenN q + lenN r) (lenN q)) as [C|_]; [lia|].
    simpl (1 =? 255). simpl (128 <=? 1). simpl (2 <=? 1). cbv iota.
    destruct (N.ltb_spec (lenN q) 4) as [C|_]; [unfold q in C; rewrite L4 in C; lia|].
    simpl (1 =? 1). cbv iota. unfold q. rewrite F4, S4, P4, N.eqb_refl.
    destruct (N.leb_spec (lenN d) BLOCK) as [_|C]; [reflexivity|unfold BLOCK in C; lia].
  - destruct (le 3 (4 + lenN z)) as [|a [|b [|c [|]]]] eqn:E3; try (apply (f_equal (@length N)) in E3; rewrite le_length in E3; discriminate).
    exists 0, a, b, c, (le 4 (crc d) ++ z ++ r). split; [rewrite <- ?app_assoc; reflexivity|]. split; [|right; simpl; lia].
    rewrite <- E3, P3 by lia. unfold CodecModel.read_chunk. cbv zeta.
    set (q := le 4 (crc d) ++ z).
    replace (le 4 (crc d) ++ z ++ r) with (q ++ r) by (unfold q; rewrite <- app_assoc; reflexivity).
    rewrite <- (L4 (crc d) z). fold q. rewrite firstn_lenN, skipn_lenN. rewrite lenN_app.
    destruct (N.ltb_spec CHUNK_MAX (lenN q)) as [C|_]; [unfold q in C; rewrite L4 in C; unfold CHUNK_MAX in C; lia|].
    destruct (N.ltb_spec (lenN q + lenN r) (lenN q)) as [C|_]; [lia|].
    simpl (0 =? 255). simpl (128 <=? 0). simpl (2 <=? 0). cbv iota.
    destruct (N.ltb_spec (lenN q) 4) as [C|_]; [unfold q in C; rewrite L4 in C; lia|].
    simpl (0 =? 1). cbv iota. unfold q. rewrite F4, S4, P4. rewrite H0, N.eqb_refl.
    destruct (N.leb_spec (lenN d) BLOCK) as [_|C]; [reflexivity|unfold BLOCK in C; lia].
  - destruct (le 3 (lenN p)) as [|a [|b [|c [|]]]] eqn:E3; try (apply (f_equal (@length N)) in E3; rewrite le_length in E3; discriminate).
    exists ty, a, b, c, (p ++ r). split; [rewrite <- ?app_assoc; reflexivity|]. split; [|right; simpl; lia].
    rewrite <- E3, P3 by lia. unfold CodecModel.read_chunk. cbv zeta.
    rewrite firstn_lenN, skipn_lenN, lenN_app.
    destruct (N.ltb_spec CHUNK_MAX (lenN p)) as [C|_]; [unfold CHUNK_MAX in C; lia|].
    destruct (N.ltb_spec (lenN p + lenN r) (lenN p)) as [C|_]; [lia|].
    destruct (N.eqb_spec ty 255); [lia|]. destruct (N.leb_spec 128 ty); [reflexivity|lia].
Qed.

(* ---------- decompression ---------- *)
Lemma inflate_bound fuel : forall limit st src acc, lenN (snd (inflate_go fuel limit st src acc)) <= limit.
Proof using Type.
  clear crc32. induction fuel as [|fuel IH]; intros limit st src acc; cbn [CodecModel.inflate_go];
    (destruct (N.leb_spec limit (lenN acc)) as [L|L]; [cbn [snd]; rewrite lenN_firstn; lia|]); [cbn [snd]; lia|].
  destruct src as [|ty [|a [|b [|c rest]]]]; cbn [snd]; try lia.
  destruct (negb st && negb (ty =? 255)); [cbn [snd]; lia|].
  destruct (read_chunk ty (of_le [a; b; c]) rest) as [[d rest']|]; [apply IH|cbn [snd]; lia].
Qed.
Lemma inflate_sound fuel : forall limit st src acc p, Forall is_byte src -> inflate_go fuel limit st src acc = (true, p) ->
  exists w rest d, src = w ++ rest /\ Chunks w d /\ p = firstn (N.to_nat limit) (acc ++ d) /\
    (st = true \/ limit <= lenN acc \/ src = [] \/ exists w', w = [255; 6; 0; 0] ++ magic ++ w' /\ Chunks w' d).
Proof using All.
  induction fuel as [|fuel IH]; intros limit st src acc p Hb; cbn [CodecModel.inflate_go];
    (destruct (N.leb_spec limit (lenN acc)) as [L|L];
     [intros E; injection E as <-; exists [], src, []; rewrite (app_nil_r acc); repeat split; auto; constructor|]); [discriminate|].
  destruct src as [|ty [|a [|b [|c rest]]]]; try discriminate.
  - intros E; injection E as <-. exists [], [], []. rewrite (app_nil_r acc), (firstn_all2 (n := N.to_nat limit) acc) by (unfold lenN in L; lia).
    repeat split; auto. constructor.
  - destruct (negb st && negb (ty =? 255)) eqn:Eg; [discriminate|].
    destruct (read_chunk ty (of_le [a; b; c]) rest) as [[d rest']|] eqn:Er; [|discriminate].
    intros E. inversion Hb as [|? ? B1 H1]; subst. inversion H1 as [|? ? B2 H2]; subst. inversion H2 as [|? ? B3 H3]; subst.
    inversion H3 as [|? ? B4 H4]; subst.
    assert (H3' : Forall is_byte [a; b; c]) by auto.
    destruct (read_chunk_sound _ _ _ _ _ H4 B1 (of_le_bound _ H3') Er) as [w [Ew [Cw Ci]]].
    change 3%nat with (length [a; b; c]) in Ew. rewrite (le_of_le _ H3') in Ew.
    change (ty :: [a; b; c] ++ rest) with (ty :: a :: b :: c :: rest) in Ew.
    assert (Hr' : Forall is_byte rest') by (rewrite Ew in Hb; apply Forall_app in Hb; apply Hb).
    destruct (IH _ _ _ _ _ Hr' E) as [w2 [r2 [d2 [E2 [C2 [P2 _]]]]]].
    exists (w ++ w2), r2, (d ++ d2). rewrite Ew, E2, <- !app_assoc. split; [auto|]. split; [constructor; auto|].
    split; [rewrite P2, app_assoc; auto|].
    destruct st; [auto|]. right; right; right. destruct (N.eqb_spec ty 255) as [->|]; [|discriminate].
    destruct (Ci eq_refl) as [-> ->]. exists w2. split; [rewrite <- app_assoc; auto|exact C2].
Qed.
Lemma inflate_complete w d : Chunks w d -> forall fuel limit st rest acc, (length (w ++ rest) < fuel)%nat -> limit <= lenN (acc ++ d) ->
  (st = true \/ limit <= lenN acc \/ exists w', w = [255; 6; 0; 0] ++ magic ++ w') ->
  inflate_go fuel limit st (w ++ rest) acc = (true, firstn (N.to_nat limit) (acc ++ d)).
Proof using All.
  induction 1 as [|w d ws ds C Cs IH]; intros fuel limit st rest acc Hf Hl Hs.
  - rewrite app_nil_r in *. destruct fuel; [simpl in Hf; lia|]. cbn [CodecModel.inflate_go].
    destruct (N.leb_spec limit (lenN acc)); [auto|lia].
  - destruct fuel as [|fuel]; [lia|]. cbn [CodecModel.inflate_go].
    destruct (N.leb_spec limit (lenN acc)) as [L|L].
    { f_equal. unfold lenN in L. rewrite firstn_app. replace (N.to_nat limit - length acc)%nat with 0%nat by lia. simpl. rewrite app_nil_r. auto. }
    rewrite <- app_assoc in *.
    destruct (read_chunk_complete _ _ (ws ++ rest) C) as [ty [a [b [c [t [Et [Er Ei]]]]]]].
    rewrite Et. assert (G : negb st && negb (ty =? 255) = false).
    { destruct st; [auto|]. destruct Hs as [?|[?|[w' Ew]]]; [discriminate|lia|]. simpl.
      destruct w as [|x w].
      - exfalso. inversion C.
      - simpl in Ew, Et. injection Ew as -> _. injection Et as <- _. reflexivity. }
    rewrite G, Er. rewrite IH; auto.
    + rewrite <- app_assoc. auto.
    + rewrite Et in Hf. assert (length (ws ++ rest) <= length t)%nat; [|simpl in Hf; lia].
      unfold CodecModel.read_chunk in Er. destruct (CHUNK_MAX <? of_le [a; b; c]); [discriminate|].
      destruct (lenN t <? of_le [a; b; c]); [discriminate|].
      assert (ws ++ rest = skipn (N.to_nat (of_le [a; b; c])) t) as ->; [|rewrite skipn_length; lia].
      revert Er. repeat match goal with |- context [if ?x then _ else _] => destruct x end; try discriminate; try (intros E; injection E; auto);
        destruct (blk_d _); try discriminate; repeat match goal with |- context [if ?x then _ else _] => destruct x end; try discriminate; intros E; injection E; auto.
    + rewrite <- app_assoc. auto.
Qed.
Lemma inflate_exact u body p : Forall is_byte body -> ((inflate u body = (true, p) /\ lenN p = u) <-> Payload u body p).
Proof using All.
  intros Hb. unfold CodecModel.inflate. split.
  - intros [E L]. destruct (inflate_sound _ _ _ _ _ _ Hb E) as [w [rest [d [Eb [C [Ep S]]]]]]. simpl app in Ep.
    destruct (N.eq_dec u 0) as [->|Nu]; [left; split; [auto|]; apply lenN_nil_inv; auto|].
    assert (Hd : u <= lenN d).
    { rewrite Ep in L. unfold lenN in *. rewrite firstn_length in L. lia. }
    right. destruct S as [S|[S|[S|[w' [Ew C']]]]]; [discriminate|change (lenN []) with 0 in S; lia| |].
    + exfalso. rewrite S in Eb. destruct w; [|discriminate]. inversion C as [|w1 d1 w2 d2 C1 C2 E1 E2]; [subst d; change (lenN []) with 0 in Hd; lia|].
      subst. destruct w1; [inversion C1|discriminate].
    + exists w', rest, d. rewrite Eb, Ew, <- !app_assoc. auto.
  - intros [[-> ->]|[w [rest [d [Eb [C [Hd Ep]]]]]]].
    + split; [|reflexivity]. cbn [CodecModel.inflate_go]. reflexivity.
    + split; [|rewrite Ep; apply lenN_firstn; auto].
      assert (C' : Chunks (([255; 6; 0; 0] ++ magic) ++ w) ([] ++ d)) by (constructor; [constructor|auto]).
      rewrite Eb, Ep. replace ([255; 6; 0; 0] ++ magic ++ w ++ rest) with ((([255; 6; 0; 0] ++ magic) ++ w) ++ rest) by (rewrite <- !app_assoc; auto).
      apply (inflate_complete _ _ C'); auto.
      right; right. exists w. rewrite <- app_assoc. auto.
Qed.
End P.
