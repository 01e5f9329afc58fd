(** Proofs for C64: compression, whole messages, streams of messages. *)
From Verif Require Import Util CodecModel CodecSpec CodecProofs.
Local Open Scope N_scope.

Lemma cut4 x t : x < 2 ^ 32 -> firstn 4 (le 4 x ++ t) = le 4 x /\ skipn 4 (le 4 x ++ t) = t /\ (4 <= length (le 4 x ++ t))%nat /\ of_le (le 4 x) = x.
Proof.
  intros H. split; [reflexivity|]. split; [reflexivity|]. split; [rewrite app_length, le_length; lia|]. apply of_le_le. rewrite p32. auto.
Qed.
Lemma cut4_inv a : Forall is_byte a -> (4 <= length a)%nat -> exists x, x < 2 ^ 32 /\ a = le 4 x ++ skipn 4 a /\ of_le (firstn 4 a) = x.
Proof.
  intros H L. exists (of_le (firstn 4 a)). pose proof (bytes_firstn 4 a H) as H4.
  assert (E : length (firstn 4 a) = 4%nat) by (rewrite firstn_length; lia).
  split; [rewrite <- p32; rewrite <- E at 2; apply of_le_bound; auto|]. split; [|auto].
  rewrite <- E at 1. rewrite (le_of_le _ H4). symmetry. apply firstn_skipn.
Qed.

Section C.
Variable blk_c : bytes -> bytes.
Variable crc : bytes -> N.
Notation chunk := (chunk blk_c crc).
Notation deflate := (deflate blk_c crc).
Notation deflate_go := (deflate_go blk_c crc).
(* ---------- compression ---------- *)
Lemma chunk_len src : lenN src <= 65536 -> lenN (chunk src) <= 8 + lenN src.
Proof using Type.
  intros.
  assert (Q : forall ty l s z, lenN (ty :: le 3 l ++ le 4 s ++ z) = 8 + lenN z).
  { intros. change (ty :: le 3 l ++ le 4 s ++ z) with ([ty] ++ le 3 l ++ le 4 s ++ z). unfold lenN. rewrite !app_length, !le_length. change (length [ty]) with 1%nat. lia. }
  unfold CodecModel.chunk. cbv zeta. destruct (N.leb_spec (lenN src - lenN src / 8) (lenN (blk_c src))) as [L|L]; rewrite Q; lia.
Qed.
Lemma deflate_go_len fuel : forall b, 65536 * lenN (deflate_go fuel b) <= 65536 * lenN b + 8 * (lenN b + 65535).
Proof using Type.
  induction fuel as [|fuel IH]; intros b; [destruct b; cbn [CodecModel.deflate_go]; unfold lenN at 1; simpl length; lia|].
  destruct b as [|x b]; [cbn [CodecModel.deflate_go]; unfold lenN at 1; simpl length; lia|].
  cbn [CodecModel.deflate_go]. rewrite lenN_app. set (l := x :: b).
  assert (Hl : 1 <= lenN l) by (unfold l, lenN; simpl length; lia).
  pose proof (IH (skipn (N.to_nat BLOCK) l)) as I.
  assert (E1 : lenN (firstn (N.to_nat BLOCK) l) = N.min 65536 (lenN l)) by (unfold lenN, BLOCK; rewrite firstn_length; lia).
  assert (E2 : lenN (skipn (N.to_nat BLOCK) l) = lenN l - 65536) by (unfold lenN, BLOCK; rewrite skipn_length; lia).
  pose proof (chunk_len (firstn (N.to_nat BLOCK) l)) as C. rewrite E1 in C. specialize (C ltac:(lia)).
  destruct (N.leb_spec (lenN l) 65536) as [A|A].
  - assert (skipn (N.to_nat BLOCK) l = []) as Ez by (apply lenN_nil_inv; lia). rewrite Ez.
    assert (lenN (deflate_go fuel []) = 0) as -> by (destruct fuel; reflexivity). lia.
  - rewrite E2 in I. lia.
Qed.
(** what the compressor makes of [u] bytes fits what a reader grants them *)
Lemma deflate_fits b : limit_ok (lenN b) -> lenN (deflate b) <= body_limit (lenN b).
Proof using Type.
  intros H. unfold body_limit. unfold limit_ok in H. destruct (N.ltb_spec (32 + lenN b + lenN b / 6) (2 ^ 32)); [|lia].
  destruct b as [|x b]; [unfold CodecModel.deflate; change (lenN []) with 0; lia|]. unfold CodecModel.deflate. rewrite lenN_app.
  pose proof (deflate_go_len (length (x :: b)) (x :: b)) as L. change (lenN ident) with 10. lia.
Qed.
End C.

Section Inv.
Variable blk_c : bytes -> bytes.
Variable blk_d : bytes -> option bytes.
Variable crc : bytes -> N.
Hypothesis crc32 : forall d, crc d < 2 ^ 32.
Hypothesis blk_inv : forall b, blk_d (blk_c b) = Some b.
Notation Chunk := (Chunk blk_d crc).
Notation Chunks := (Chunks blk_d crc).
Notation Payload := (Payload blk_d crc).
Notation inflate := (inflate blk_d crc).
Notation chunk := (chunk blk_c crc).
Notation deflate := (deflate blk_c crc).
Notation deflate_go := (deflate_go blk_c crc).
Lemma chunk_ok src : lenN src <= 65536 -> Chunk (chunk src) src.
Proof using All.
  intros. unfold CodecModel.chunk. cbv zeta. destruct (N.leb_spec (lenN src - lenN src / 8) (lenN (blk_c src))) as [L|L].
  - apply ch_plain; auto.
  - apply ch_comp; auto. lia.
Qed.
Lemma deflate_go_ok fuel : forall b, (length b <= fuel)%nat -> Chunks (deflate_go fuel b) b.
Proof using All.
  induction fuel as [|fuel IH]; intros b Hf; [destruct b; [constructor|simpl in Hf; lia]|].
  destruct b as [|x b]; [constructor|]. cbn [CodecModel.deflate_go].
  set (l := x :: b) in *. rewrite <- (firstn_skipn (N.to_nat BLOCK) l) at 3.
  constructor.
  - apply chunk_ok. unfold lenN, BLOCK. rewrite firstn_length. lia.
  - apply IH. rewrite skipn_length. unfold BLOCK. assert (1 <= length l)%nat by (unfold l; simpl; lia). lia.
Qed.
Lemma deflate_ok b : Payload (lenN b) (deflate b) b.
Proof using All.
  destruct b as [|x b]; [left; auto|]. right. exists (deflate_go (length (x :: b)) (x :: b)), [], (x :: b).
  rewrite app_nil_r. split; [unfold CodecModel.deflate; change ident with ([255; 6; 0; 0] ++ magic); rewrite <- app_assoc; reflexivity|]. split; [apply deflate_go_ok; lia|].
  split; [lia|]. rewrite to_nat_lenN, firstn_all. auto.
Qed.
Lemma inflate_deflate b : inflate (lenN b) (deflate b) = (true, b).
Proof using All.
  destruct (deflate_ok b) as [[E1 E2]|[w [rest [d [E [C [L P]]]]]]].
  - subst b. reflexivity.
  - unfold CodecModel.inflate. rewrite E.
    replace ([255; 6; 0; 0] ++ magic ++ w ++ rest) with ((([255; 6; 0; 0] ++ magic) ++ w) ++ rest) by (rewrite <- !app_assoc; auto).
    assert (C' : Chunks (([255; 6; 0; 0] ++ magic) ++ w) ([] ++ d)) by (constructor; [constructor|auto]).
    rewrite (inflate_complete _ _ crc32 _ _ C'); auto.
    + simpl app. rewrite <- P. auto.
    + right; right. exists w. rewrite <- app_assoc. auto.
Qed.
End Inv.

Section P.
Variable M : Type.
Variable dec : bytes -> option M.
Variable blk_d : bytes -> option bytes.
Variable crc : bytes -> N.
Notation Chunk := (Chunk blk_d crc).
Notation Chunks := (Chunks blk_d crc).
Notation Payload := (Payload blk_d crc).
Notation inflate := (inflate blk_d crc).
Notation decode := (decode_message M dec blk_d crc).
Notation OnWire := (OnWire M dec blk_d crc).


(* ---------- decoding as a function of the bytes ---------- *)
Definition dpure (f : ending) (max : N) (a : bytes) : dout M * bytes * bytes * bytes :=
  if (4 <=? length a)%nat then
    let u := of_le (firstn 4 a) in let a1 := skipn 4 a in
    if max <? u then (Err ETooLarge, [], [], a1)
    else if (4 <=? length a1)%nat then
      let c := of_le (firstn 4 a1) in let a2 := skipn 4 a1 in
      if max_compress_len u <? c then (Err ECompressed, [], [], a2)
      else if (N.to_nat c <=? length a2)%nat then
        let body := firstn (N.to_nat c) a2 in
        let '(ok, p) := inflate u body in
        (if negb ok then Err EFrame else if negb (lenN p =? u) then Err EMismatch
         else match dec p with Some m => Msg m | None => Err EBcs end, p, body, skipn (N.to_nat c) a2)
      else (short M (end_err f), [], a2, [])
    else (short M (end_err f), [], [], [])
  else (short M (end_err f), [], [], []).
Lemma decode_pure r db cb max : honest_io r ->
  dpure (fin r) max (arrived r) = (d_out (decode r db cb max), d_dec (decode r db cb max), d_comp (decode r db cb max), arrived (d_io (decode r db cb max))) /\
  (forall m, d_out (decode r db cb max) = Msg m -> honest_io (d_io (decode r db cb max)) /\ fin (d_io (decode r db cb max)) = fin r).
Proof using Type.
  intros H. unfold dpure, decode_message. cbv zeta.
  pose proof (read_exact_spec 4 r H ltac:(lia)) as R.
  destruct (4 <=? length (arrived r))%nat.
  2:{ destruct R as [r' [-> Ea]]. simpl. rewrite Ea. split; [auto|]. destruct (fin r); discriminate. }
  destruct R as [r1 [-> [Ea [H1 F1]]]]. destruct (max <? of_le (firstn 4 (arrived r))).
  { simpl. rewrite Ea. split; [auto|discriminate]. }
  pose proof (read_exact_spec 4 r1 H1 ltac:(lia)) as R. rewrite Ea in R.
  destruct (4 <=? length (skipn 4 (arrived r)))%nat.
  2:{ destruct R as [r' [-> Eb]]. simpl. rewrite Eb, F1. split; [auto|]. destruct (fin r); discriminate. }
  destruct R as [r2 [-> [Eb [H2 F2]]]].
  destruct (max_compress_len (of_le (firstn 4 (arrived r))) <? of_le (firstn 4 (skipn 4 (arrived r)))).
  { simpl. simpl in Eb. rewrite Eb. split; [auto|discriminate]. }
  pose proof (read_body_spec (N.to_nat (of_le (firstn 4 (skipn 4 (arrived r))))) r2 H2) as R. rewrite Eb in R.
  destruct (N.to_nat (of_le (firstn 4 (skipn 4 (arrived r)))) <=? length (skipn 4 (skipn 4 (arrived r))))%nat.
  2:{ destruct R as [r' [-> Ec]]. simpl. simpl in Ec. rewrite Ec, F2, F1. split; [auto|]. destruct (fin r); discriminate. }
  destruct R as [r3 [-> [Ec [H3 F3]]]]. cbn [app].
  destruct (inflate (of_le (firstn 4 (arrived r))) (firstn (N.to_nat (of_le (firstn 4 (skipn 4 (arrived r))))) (skipn 4 (skipn 4 (arrived r))))) as [ok p].
  cbn [app d_out d_dec d_comp d_io]. rewrite Ec. split; [auto|]. intros. split; [auto|congruence].
Qed.

(** the outcome on bytes that start like a message *)
Lemma dpure_step f max u c a : u < 2 ^ 32 -> c < 2 ^ 32 -> u <= max -> c <= body_limit u ->
  dpure f max (le 4 u ++ le 4 c ++ a) =
    if (N.to_nat c <=? length a)%nat then
      let body := firstn (N.to_nat c) a in
      let '(ok, p) := inflate u body in
      (if negb ok then Err EFrame else if negb (lenN p =? u) then Err EMismatch
       else match dec p with Some m => Msg m | None => Err EBcs end, p, body, skipn (N.to_nat c) a)
    else (short M (end_err f), [], a, []).
Proof using Type.
  intros Hu Hc Hm Hl. unfold dpure. destruct (cut4 u (le 4 c ++ a) Hu) as [E1 [E2 [E3 E4]]].
  destruct (Nat.leb_spec 4 (length (le 4 u ++ le 4 c ++ a))); [|lia]. rewrite E1, E2, E4. cbv zeta.
  destruct (N.ltb_spec max u); [lia|].
  destruct (cut4 c a Hc) as [F1 [F2 [F3 F4]]]. destruct (Nat.leb_spec 4 (length (le 4 c ++ a))); [|lia]. rewrite F1, F2, F4.
  rewrite max_compress_len_limit. destruct (N.ltb_spec (body_limit u) c); [lia|]. reflexivity.
Qed.
Section Exact.
Hypothesis crc32 : forall d, crc d < 2 ^ 32.
Lemma dpure_exact f max a m rest : Forall is_byte a ->
  ((exists p body, dpure f max a = (Msg m, p, body, rest)) <-> (exists w, a = w ++ rest /\ OnWire max w m)).
Proof using crc32.
  intros Hb. split.
  - intros [p [body E]]. unfold dpure in E.
    destruct (Nat.leb_spec 4 (length a)) as [L|L]; [|destruct f; discriminate].
    destruct (cut4_inv a Hb L) as [u [Hu [Eu Ou]]]. rewrite Ou in E. cbv zeta in E.
    destruct (N.ltb_spec max u) as [A|A]; [discriminate|].
    pose proof (bytes_skipn 4 a Hb) as Hb1. set (a1 := skipn 4 a) in *.
    destruct (Nat.leb_spec 4 (length a1)) as [L1|L1]; [|destruct f; discriminate].
    destruct (cut4_inv a1 Hb1 L1) as [c [Hc [Ec Oc]]]. rewrite Oc in E.
    pose proof (bytes_skipn 4 a1 Hb1) as Hb2. set (a2 := skipn 4 a1) in *. rewrite max_compress_len_limit in E.
    destruct (N.ltb_spec (body_limit u) c) as [B|B]; [discriminate|].
    destruct (Nat.leb_spec (N.to_nat c) (length a2)) as [L2|L2]; [|destruct f; discriminate].
    destruct (inflate u (firstn (N.to_nat c) a2)) as [ok q] eqn:Ei. injection E as E <- <- <-.
    destruct ok; [|discriminate]. simpl in E. destruct (N.eqb_spec (lenN q) u) as [Eq|]; [|discriminate]. simpl in E.
    destruct (dec q) as [m'|] eqn:Ed; [|discriminate]. injection E as ->.
    exists (le 4 u ++ le 4 c ++ firstn (N.to_nat c) a2). split.
    + rewrite <- !app_assoc, firstn_skipn. rewrite Eu. f_equal. rewrite Ec. auto.
    + assert (Lc : lenN (firstn (N.to_nat c) a2) = c) by (apply lenN_firstn; unfold lenN; lia).
      exists u, (firstn (N.to_nat c) a2), q. rewrite Lc. split; [auto|]. split; [auto|]. split; [auto|]. split; [auto|]. split; [auto|].
      split; [|auto]. apply (inflate_exact blk_d crc crc32); [apply bytes_firstn; auto|auto].
  - intros [w [-> [u [body [p [-> [Hu [Hc [Hm [Hl [Pl Hd]]]]]]]]]]].
    rewrite <- !app_assoc. exists p, body. rewrite dpure_step; auto.
    rewrite to_nat_lenN. destruct (Nat.leb_spec (length body) (length (body ++ rest))) as [_|L]; [|rewrite app_length in L; lia].
    cbv zeta. rewrite <- to_nat_lenN, firstn_lenN, skipn_lenN.
    assert (Hbb : Forall is_byte body).
    { apply Forall_app in Hb. destruct Hb as [Hb _]. apply Forall_app in Hb. destruct Hb as [_ Hb]. apply Forall_app in Hb. apply Hb. }
    destruct (proj2 (inflate_exact blk_d crc crc32 u body p Hbb) Pl) as [-> Lp]. simpl. rewrite Lp, N.eqb_refl. simpl. rewrite Hd. auto.
Qed.
End Exact.
End P.
