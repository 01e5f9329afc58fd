(** C64: concrete messages, and what does not hold. *)
From Verif Require Import Util WireModel WireSpec WireProofs CodecModel CodecSpec CodecProofs CodecMsg Props_Codec.
Local Open Scope N_scope.

(** a codec whose blocks are run lengths, so that blocks shrink: [n; b] stands for n times b if the block is constant *)
Definition allsame (b : bytes) : bool := match b with [] => false | x :: t => forallb (N.eqb x) t end.
Definition rl_c (b : bytes) : bytes := if allsame b then [1; lenN b; hd 0 b] else 0 :: b.
Definition rl_d (z : bytes) : option bytes :=
  match z with 0 :: b => Some b | [1; n; x] => Some (repeat x (N.to_nat n)) | _ => None end.
Definition sum (b : bytes) : N := fold_right N.add 0 b mod 2 ^ 32.
Definition idm (b : bytes) : option bytes := Some b.
Lemma allsame_repeat b : allsame b = true -> repeat (hd 0 b) (length b) = b.
Proof.
  destruct b as [|x t]; [discriminate|]. cbn [allsame hd length repeat]. intros H. f_equal.
  rewrite forallb_forall in H. induction t as [|y t IH]; [reflexivity|]. cbn [length repeat].
  assert (x = y) by (apply N.eqb_eq, H; left; auto). subst y. f_equal. apply IH. intros z Hz. apply H. right. auto.
Qed.
Lemma rl_inv b : rl_d (rl_c b) = Some b.
Proof.
  unfold rl_c. destruct (allsame b) eqn:E; [|reflexivity]. cbn [rl_d]. unfold lenN. rewrite Nnat.Nat2N.id, allsame_repeat by auto. reflexivity.
Qed.
Definition bytewise' (b : bytes) : list bytes := map (fun x => [x]) b.

(** The hypotheses of the C64 theorems hold of this codec; a message of two hundred equal bytes and one of five bytes, sent with used
    buffers and read byte by byte. *)
Theorem C64_example :
  (forall d, sum d < 2 ^ 32) /\ (forall b, rl_d (rl_c b) = Some b) /\ (forall m b : bytes, idm m = Some b -> idm b = Some m) /\ limit_ok 1000 /\
  (let k := {| k_buf := [9; 9]; k_comp := [8]; k_max := 1000 |} in
   let '(w, _, ok) := write_all bytes idm rl_c sum k [repeat 7 200; [1; 2; 3; 4; 5]] in
   let r := {| segs := bytewise' w ++ [[1; 0]]; fin := Silent |} in
   ok = true /\ honest_io r /\ length w = 60%nat /\
   let '(ms, o, _, r') := read_n bytes idm rl_d sum 3 k r in
   ms = [repeat 7 200; [1; 2; 3; 4; 5]] /\ o = Wait /\ r' = {| segs := []; fin := Silent |}) /\
  (* refused: too long for the limit; a wrong checksum; one byte less and one byte more than announced *)
  fst (fst (encode_message bytes idm rl_c sum (repeat 7 200) [] [] 199)) = None /\
  (let read u b := d_out (decode_message bytes idm rl_d sum {| segs := [le 4 u ++ le 4 (lenN b) ++ b]; fin := Closed |} [] [] 1000) in
   let body := ident ++ [1; 9; 0; 0] ++ [15; 0; 0; 0] ++ [1; 2; 3; 4; 5] in
   read 5 body = Msg [1; 2; 3; 4; 5] /\ read 4 body = Msg [1; 2; 3; 4] /\ read 6 body = Err EMismatch /\
   read 5 (ident ++ [1; 9; 0; 0] ++ [16; 0; 0; 0] ++ [1; 2; 3; 4; 5]) = Err EFrame /\
   read 5 (tl body) = Err EFrame /\ read 1001 body = Err ETooLarge).
Proof.
  split; [intros d; apply N.mod_lt; discriminate|]. split; [apply rl_inv|].
  split; [intros m b E; injection E as <-; reflexivity|]. split; [reflexivity|]. split.
  - vm_compute. split; [auto|]. split; [repeat (constructor; [discriminate|]); constructor|auto].
  - split; [vm_compute; reflexivity|]. vm_compute. auto 10.
Qed.

(** The bytes of a message are not determined by it, even for one codec and one checksum: a body may end with bytes nobody reads, may
    hold skippable chunks, and a block may be stored as it is or compressed. *)
Theorem C64_many_encodings_refuted : exists m, let W := OnWire bytes idm rl_d sum 1000 in
  exists a b c d, W a m /\ W b m /\ W c m /\ W d m /\ a <> b /\ a <> c /\ a <> d /\ b <> c /\ b <> d /\ c <> d.
Proof.
  assert (G : forall w, forallb (fun b => b <? 256) w = true ->
    d_out (decode_message bytes idm rl_d sum {| segs := [w]; fin := Closed |} [] [] 1000) = Msg [1; 2; 3] ->
    arrived (d_io (decode_message bytes idm rl_d sum {| segs := [w]; fin := Closed |} [] [] 1000)) = [] -> w <> [] ->
    OnWire bytes idm rl_d sum 1000 w [1; 2; 3]).
  { intros w B D R N. set (r := {| segs := [w]; fin := Closed |}) in *.
    assert (A : arrived r = w) by (unfold arrived; simpl; apply app_nil_r).
    assert (C : forall d, sum d < 2 ^ 32) by (intros d; apply N.mod_lt; discriminate).
    assert (HO : honest_io r) by (constructor; [exact N|constructor]).
    assert (HB : Forall is_byte (arrived r)).
    { rewrite A. apply Forall_forall. intros x Hx. rewrite forallb_forall in B. apply N.ltb_lt, B, Hx. }
    destruct (proj1 (C64_decode_exact bytes idm rl_d sum C r [] [] 1000 [1; 2; 3] [] HO HB) (conj D R)) as [w' [E O]].
    rewrite A, app_nil_r in E. subst w'. exact O. }
  set (plain := [1; 7; 0; 0] ++ [6; 0; 0; 0] ++ [1; 2; 3]). set (comp := [0; 8; 0; 0] ++ [6; 0; 0; 0] ++ [0; 1; 2; 3]).
  set (msg := fun b : bytes => le 4 3 ++ le 4 (lenN b) ++ b).
  exists [1; 2; 3], (msg (ident ++ plain)), (msg (ident ++ comp)), (msg (ident ++ plain ++ [99; 99])), (msg (ident ++ [200; 1; 0; 0; 5] ++ plain)).
  repeat split; try (apply G; [vm_compute; reflexivity|vm_compute; reflexivity|vm_compute; reflexivity|vm_compute; discriminate]);
    vm_compute; discriminate.
Qed.

Lemma inflate_nil d c u : 0 < u -> inflate d c u [] = (true, []).
Proof. intros H. unfold inflate. cbn [length inflate_go]. change (lenN []) with 0. destruct (N.leb_spec u 0); [lia|reflexivity]. Qed.
(** Beyond the limits of [limit_ok] a writer sends messages that no reader accepts, not even one with its own limit; whatever the codec. *)
Theorem C64_huge_limit_refuted (M : Type) enc (dec : bytes -> option M) blk_c blk_d crc m b max max' db cb db' cb' r rest :
  enc m = Some b -> 2 ^ 32 <= 32 + lenN b + lenN b / 6 -> lenN b < 2 ^ 32 -> lenN b <= max -> lenN b <= max' ->
  exists w, fst (fst (encode_message M enc blk_c crc m db cb max)) = Some w /\
    (honest_io r -> arrived r = w ++ rest ->
     let o := d_out (decode_message M dec blk_d crc r db' cb' max') in o = Err ECompressed \/ o = Err EMismatch).
Proof.
  intros Eb H1 H2 H3 H3'. unfold encode_message. cbv zeta. cbn [app]. rewrite Eb. destruct (N.ltb_spec max (lenN b)) as [HH|HH]; [lia|]. cbn [fst app].
  eexists. split; [reflexivity|]. intros H A. change U32 with (2 ^ 32) in A. rewrite N.mod_small in A by exact H2. rewrite <- !app_assoc in A.
  assert (BL : body_limit (lenN b) = 0).
  { unfold body_limit. destruct (N.ltb_spec (32 + lenN b + lenN b / 6) (2 ^ 32)); [lia|reflexivity]. }
  destruct (N.eq_dec (lenN (deflate blk_c crc b) mod 2 ^ 32) 0) as [Z|Z].
  - right. rewrite Z in A. destruct (decode_pure M dec blk_d crc r db' cb' max' H) as [E _]. rewrite A in E.
    rewrite dpure_step in E; [|exact H2|reflexivity|exact H3'|apply N.le_0_l]. cbv zeta in E.
    change (N.to_nat 0) with O in E. cbn [Nat.leb firstn skipn] in E. rewrite inflate_nil in E by lia.
    change (negb true) with false in E. change (lenN []) with 0 in E. destruct (N.eqb_spec 0 (lenN b)) as [Y|Y]; [lia|].
    injection E as X _ _ _. symmetry; exact X.
  - left. eapply (C64_overlong_body M dec blk_d crc r db' cb' max' (lenN b) (lenN (deflate blk_c crc b) mod 2 ^ 32)); eauto.
    + apply N.mod_lt. discriminate.
    + rewrite BL. lia.
Qed.
