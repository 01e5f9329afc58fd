(** C45: bytes, digests and signatures mean one thing. *)
From Verif Require Import Util WireModel WireSpec WireProofs.
Local Open Scope N_scope.

(* ---------- headers ---------- *)
(** A header that is sent is received as the same header, whatever it contains: outside the fork without
    its seed signature, which nobody can see there. *)
Theorem C45_header_round_trip : forall active h, header_wf h ->
  from_bytes (get_header active) (put_header active h) = Some (visible active h).
Proof. intros active h W. apply reads_from, header_reads, W. Qed.

(** Whatever bytes arrive, a header the decoder accepts is well formed (batch digests all different,
    parents in order and all different, seed signature only inside the fork), so that sending it on gives
    the same header again. *)
Theorem C45_header_received : forall active bs h, Forall byte bs -> from_bytes (get_header active) bs = Some h ->
  header_wf h /\ visible active h = h /\ from_bytes (get_header active) (put_header active h) = Some h.
Proof.
  intros active bs h Hb Hd. destruct (header_decoded active bs h Hb Hd) as [W V]. repeat split; try apply W; auto.
  rewrite <- V at 2. apply C45_header_round_trip, W.
Qed.

(** Two headers with one digest show the same author, round, epoch, time, payload, parents, execution
    block and (inside the fork) seed signature, unless these two very encodings are a hash collision. *)
Theorem C45_header_digest : forall active (H : bytes -> bytes) a b, header_wf a -> header_wf b ->
  H (put_header active a) = H (put_header active b) ->
  visible active a = visible active b \/ collides H (put_header active a) (put_header active b).
Proof.
  intros active H a b Wa Wb E. destruct (bytes_dec (put_header active a) (put_header active b)) as [D|D]; [left|right; split; auto].
  apply put_header_inj; auto.
Qed.

(** Nothing outside what can be seen changes a digest. *)
Theorem C45_header_digest_only_visible : forall active a b, visible active a = visible active b ->
  put_header active a = put_header active b.
Proof. intros active a b E. rewrite <- (put_visible active a), <- (put_visible active b), E. reflexivity. Qed.

Definition d32 (b : N) : bytes := repeat b 32.
Lemma d32_arr b : b < 256 -> arr 32 (d32 b).
Proof. intros L. split; [apply repeat_length|]. apply Forall_forall. intros x Hx. apply repeat_spec in Hx. subst. exact L. Qed.
Definition demo (parents : list bytes) (payload : list (bytes * N)) : header :=
  {| w_author := d32 1; w_round := 5; w_epoch := 0; w_created := 7; w_payload := payload; w_parents := parents;
     w_enum := 9; w_ehash := d32 8; w_seed := repeat 3 48 |}.

(** The bytes on the wire are not unique: parents out of order, repeated parents, or a batch listed twice
    are accepted and tidied up (bcs does not look at sets), so the digest must be computed, as the code
    does, from the decoded header and never from the bytes received. *)
Theorem C45_header_wire_unique_refuted : exists bs bs' bs'' h, bs <> bs' /\ bs <> bs'' /\ bs' <> bs'' /\
  Forall byte bs /\ Forall byte bs' /\ Forall byte bs'' /\
  from_bytes (get_header (fun _ => true)) bs = Some h /\ from_bytes (get_header (fun _ => true)) bs' = Some h /\
  from_bytes (get_header (fun _ => true)) bs'' = Some h.
Proof.
  exists (put_header (fun _ => true) (demo [d32 1; d32 2] [(d32 4, 0)])),
    (put_header (fun _ => true) (demo [d32 2; d32 1; d32 1] [(d32 4, 0)])),
    (put_header (fun _ => true) (demo [d32 1; d32 2] [(d32 4, 3); (d32 4, 0)])), (demo [d32 1; d32 2] [(d32 4, 0)]).
  repeat split; try (intros E; vm_compute in E; discriminate E); try (vm_compute; reflexivity).
  all: apply Forall_forall; intros x Hx; unfold byte; vm_compute in Hx; vm_compute; repeat (destruct Hx as [<-|Hx]; [reflexivity|]); destruct Hx.
Qed.

(** The frozen vectors of the source (header.rs 753, 761): the model gives exactly these bytes. *)
Definition golden_legacy : header :=
  {| w_author := 0 :: repeat 183 31; w_round := 3; w_epoch := 0; w_created := 1700000017; w_payload := [(d32 34, 1)];
     w_parents := [d32 77]; w_enum := 7; w_ehash := d32 94; w_seed := repeat 3 48 |}.
Definition golden_v1 : header :=
  {| w_author := 1 :: repeat 195 31; w_round := 4; w_epoch := 4294967295; w_created := 1700000042; w_payload := [(d32 51, 2)];
     w_parents := [d32 106]; w_enum := 11; w_ehash := d32 127; w_seed := [139;8;206;228;225;76;39;105;131;24;22;204;165;167;103;239;138;16;213;109;166;107;221;136;118;1;25;141;107;239;124;108;174;107;49;85;184;78;172;144;183;89;18;162;40;114;181;240] |}.
Example golden_legacy_bytes : put_header (fun e => 383 <=? e) golden_legacy =
  [0;183;183;183;183;183;183;183;183;183;183;183;183;183;183;183;183;183;183;183;183;183;183;183;183;183;183;183;183;183;183;183;3;0;0;0;0;0;0;0;17;241;83;101;0;0;0;0;1;32;34;34;34;34;34;34;34;34;34;34;34;34;34;34;34;34;34;34;34;34;34;34;34;34;34;34;34;34;34;34;34;34;1;0;1;32;77;77;77;77;77;77;77;77;77;77;77;77;77;77;77;77;77;77;77;77;77;77;77;77;77;77;77;77;77;77;77;77;7;0;0;0;0;0;0;0;32;94;94;94;94;94;94;94;94;94;94;94;94;94;94;94;94;94;94;94;94;94;94;94;94;94;94;94;94;94;94;94;94].
Proof. vm_compute. reflexivity. Qed.
Example golden_v1_bytes : put_header (fun e => 383 <=? e) golden_v1 =
  [1;195;195;195;195;195;195;195;195;195;195;195;195;195;195;195;195;195;195;195;195;195;195;195;195;195;195;195;195;195;195;195;4;0;0;0;255;255;255;255;42;241;83;101;0;0;0;0;1;32;51;51;51;51;51;51;51;51;51;51;51;51;51;51;51;51;51;51;51;51;51;51;51;51;51;51;51;51;51;51;51;51;2;0;1;32;106;106;106;106;106;106;106;106;106;106;106;106;106;106;106;106;106;106;106;106;106;106;106;106;106;106;106;106;106;106;106;106;11;0;0;0;0;0;0;0;32;127;127;127;127;127;127;127;127;127;127;127;127;127;127;127;127;127;127;127;127;127;127;127;127;127;127;127;127;127;127;127;127;48;139;8;206;228;225;76;39;105;131;24;22;204;165;167;103;239;138;16;213;109;166;107;221;136;118;1;25;141;107;239;124;108;174;107;49;85;184;78;172;144;183;89;18;162;40;114;181;240].
Proof. vm_compute. reflexivity. Qed.
Lemma forallb_bytes l : forallb (fun b => b <? 256) l = true -> Forall byte l.
Proof. intros E. apply Forall_forall. intros x Hx. apply N.ltb_lt. rewrite forallb_forall in E. apply E, Hx. Qed.
Lemma arr_dec k l : (Nat.eqb (length l) k && forallb (fun b => b <? 256) l)%bool = true -> arr k l.
Proof. intros E. apply andb_true_iff in E as [E1 E2]. split; [apply Nat.eqb_eq, E1 | apply forallb_bytes, E2]. Qed.
Example golden_wf : header_wf golden_v1 /\ header_wf golden_legacy.
Proof.
  split; unfold header_wf, golden_v1, golden_legacy; cbn [w_author w_round w_epoch w_created w_payload w_parents w_enum w_ehash w_seed].
  all: repeat (split; [first [ apply arr_dec; reflexivity | reflexivity
    | (constructor; [split; [apply arr_dec; reflexivity | reflexivity] | constructor])
    | (constructor; [intros []|constructor])
    | (constructor; [apply arr_dec; reflexivity|constructor])
    | (constructor; constructor) ]|]).
  all: apply forallb_bytes; reflexivity.
Qed.
(** So the two vectors are read back as they were written, the legacy one without its signature. *)
Example golden_back :
  from_bytes (get_header (fun e => 383 <=? e)) (put_header (fun e => 383 <=? e) golden_v1) = Some golden_v1 /\
  from_bytes (get_header (fun e => 383 <=? e)) (put_header (fun e => 383 <=? e) golden_legacy) <> Some golden_legacy.
Proof. split; vm_compute; [reflexivity | discriminate 1]. Qed.

(* ---------- batches and epoch records ---------- *)
(** Bytes are the encoding of a batch exactly if they decode to it: one batch, one byte string. *)
Theorem C45_batch_wire : forall bs b, Forall byte bs ->
  (from_bytes get_batch bs = Some b <-> bs = put_batch b /\ batch_wf b).
Proof.
  intros bs b Hb. split.
  - intros E. apply from_some in E. apply batch_canon in E as (-> & W & _); [|exact Hb]. rewrite app_nil_r. auto.
  - intros [-> W]. apply reads_from, batch_reads, W.
Qed.
Theorem C45_batch_digest : forall H a b, batch_wf a -> batch_wf b -> H (put_batch a) = H (put_batch b) ->
  a = b \/ collides H (put_batch a) (put_batch b).
Proof.
  intros H a b Wa Wb E. destruct (bytes_dec (put_batch a) (put_batch b)) as [D|D]; [left|right; split; auto]. apply put_batch_inj; auto.
Qed.
Theorem C45_epoch_record_wire : forall bs r, Forall byte bs ->
  (from_bytes get_erec bs = Some r <-> bs = put_erec r /\ erec_wf r).
Proof.
  intros bs b Hb. split.
  - intros E. apply from_some in E. apply erec_canon in E as (-> & W & _); [|exact Hb]. rewrite app_nil_r. auto.
  - intros [-> W]. apply reads_from, erec_reads, W.
Qed.
Theorem C45_epoch_record_digest : forall H a b, erec_wf a -> erec_wf b -> H (put_erec a) = H (put_erec b) ->
  a = b \/ collides H (put_erec a) (put_erec b).
Proof.
  intros H a b Wa Wb E. destruct (bytes_dec (put_erec a) (put_erec b)) as [D|D]; [left|right; split; auto]. apply put_erec_inj; auto.
Qed.
Example batch_case : batch_wf {| b_txs := [[1;2;3]; []; repeat 255 200]; b_epoch := 4; b_benef := repeat 17 20; b_fee := 1000; b_worker := 1 |} /\
  put_batch {| b_txs := [[1;2;3]; []]; b_epoch := 4; b_benef := repeat 17 20; b_fee := 1000; b_worker := 1 |} =
    [2; 3;1;2;3; 0; 4;0;0;0; 20] ++ repeat 17 20 ++ [232;3;0;0;0;0;0;0; 1;0].
Proof.
  split; [|reflexivity]. unfold batch_wf, fits, buf. cbn [b_txs b_epoch b_benef b_fee b_worker].
  repeat (split; [first [reflexivity | apply arr_dec; reflexivity | repeat constructor]|]); try reflexivity.
Qed.

(* ---------- sub-dags and the chain ---------- *)
(** Sub-dags scored over a committee of one size have one digest only if they have the same headers, the
    same scores, the same finality, time and randomness - or collide. *)
Theorem C45_sub_dag_digest : forall H a b, sdag_wf a -> sdag_wf b -> length (s_scores a) = length (s_scores b) ->
  H (sdag_preimage a) = H (sdag_preimage b) -> a = b \/ collides H (sdag_preimage a) (sdag_preimage b).
Proof.
  intros H a b Wa Wb L E. destruct (bytes_dec (sdag_preimage a) (sdag_preimage b)) as [D|D]; [left|right; split; auto].
  apply sdag_inj_scores; auto.
Qed.
(** Without knowing the committee this fails: the headers are hashed one after the other without their
    number, and five header digests (160 bytes) can be read as four more scores (160 bytes). *)
Definition rd (x : N) : bytes := x :: repeat 0 7.
Definition squash : bytes :=   (* 160 bytes: 8, then four (key, score) pairs but for the last byte *)
  [8] ++ d32 1 ++ rd 0 ++ d32 2 ++ rd 0 ++ d32 3 ++ rd 0 ++ d32 4 ++ repeat 0 7.
Definition real_scores : list (bytes * N) := [(d32 11, 6); (d32 12, 2); (d32 13, 0); (d32 14, 4)].
Definition sub_a : sdag := {| s_heads := [d32 90; firstn 32 squash; firstn 32 (skipn 32 squash); firstn 32 (skipn 64 squash);
   firstn 32 (skipn 96 squash); skipn 128 squash]; s_scores := real_scores; s_final := false; s_ts := 1700; s_rand := d32 5 |}.
Definition sub_b : sdag := {| s_heads := [d32 90];
   s_scores := [(d32 1, 0); (d32 2, 0); (d32 3, 0); (d32 4, 4 * 2 ^ 56)] ++ real_scores; s_final := false; s_ts := 1700; s_rand := d32 5 |}.
Ltac wf_sub := unfold sdag_wf, fits; cbn [s_heads s_scores s_final s_ts s_rand];
  split; [repeat (constructor; [apply arr_dec; reflexivity|]); constructor|];
  split; [reflexivity|]; split; [repeat (constructor; [split; [apply arr_dec; reflexivity | reflexivity]|]); constructor|];
  split; [cbn [map fst real_scores app]; repeat (constructor; [|repeat (constructor; [reflexivity|]); constructor]); constructor|];
  split; [reflexivity | apply arr_dec; reflexivity].
Example sub_a_wf : sdag_wf sub_a. Proof. unfold sub_a. wf_sub. Qed.
Example sub_b_wf : sdag_wf sub_b. Proof. unfold sub_b. wf_sub. Qed.
Theorem C45_sub_dag_digest_without_committee_refuted : exists a b, sdag_wf a /\ sdag_wf b /\ a <> b /\
  forall H : bytes -> bytes, H (sdag_preimage a) = H (sdag_preimage b).
Proof.
  exists sub_a, sub_b. split; [apply sub_a_wf|]. split; [apply sub_b_wf|]. split.
  - intros E. apply (f_equal (fun s => length (s_heads s))) in E. vm_compute in E. discriminate E.
  - intros H. apply f_equal. vm_compute. reflexivity.
Qed.
(** And it fails in this way only (below 128 scores): four more scores for every five headers fewer. *)
Theorem C45_sub_dag_digest_any_committee : forall H a b, sdag_wf a -> sdag_wf b ->
  (length (s_scores a) < 128)%nat -> (length (s_scores b) < 128)%nat -> H (sdag_preimage a) = H (sdag_preimage b) ->
  a = b \/ collides H (sdag_preimage a) (sdag_preimage b) \/
  (length (s_scores a) <> length (s_scores b) /\
   4 * length (s_heads a) + 5 * length (s_scores a) = 4 * length (s_heads b) + 5 * length (s_scores b))%nat.
Proof.
  intros H a b Wa Wb La Lb E. destruct (bytes_dec (sdag_preimage a) (sdag_preimage b)) as [D|D]; [|right; left; split; auto].
  destruct (sdag_confused a b Wa Wb La Lb D); auto.
Qed.

(** One digest of the consensus chain stands for the whole history: two histories that end in the same
    digest are the same, or somewhere along them two hashed values collide. *)
Theorem C45_chain_digest : forall H g l l', hash32 H -> arr 32 g -> l <> [] -> l' <> [] ->
  u64 (N.of_nat (length l)) -> u64 (N.of_nat (length l')) -> Forall sdag_wf l -> Forall sdag_wf l' -> same_sizes l l' ->
  chain_digest H g l = chain_digest H g l' ->
  l = l' \/ exists x y, In x (chain_hashed H g l) /\ In y (chain_hashed H g l') /\ collides H x y.
Proof. apply chain_inj. Qed.
Example chain_case : forall H, hash32 H -> chain_digest H (d32 0) [sub_a; sub_a] = chain_digest H (d32 0) [sub_a; sub_a] /\
  Forall sdag_wf [sub_a; sub_a] /\ same_sizes [sub_a; sub_a] [sub_a; sub_a] /\ arr 32 (d32 0).
Proof.
  intros H _. repeat split; try (apply d32_arr; reflexivity).
  - repeat (constructor; [apply sub_a_wf|]). constructor.
  - intros i s s' E E'. congruence.
Qed.
(** The digest that goes into one consensus header. *)
Theorem C45_consensus_header_digest : forall H p s n p' s' n', arr 32 p -> arr 32 p' -> arr 32 s -> arr 32 s' -> u64 n -> u64 n' ->
  H (chead_preimage p s n) = H (chead_preimage p' s' n') ->
  (p = p' /\ s = s' /\ n = n') \/ collides H (chead_preimage p s n) (chead_preimage p' s' n').
Proof.
  intros H p s n p' s' n' [P _] [P' _] [S1 _] [S2 _] U U' E.
  destruct (bytes_dec (chead_preimage p s n) (chead_preimage p' s' n')) as [D|D]; [left|right; split; auto].
  apply chead_inj in D; auto; congruence.
Qed.

(* ---------- signatures ---------- *)
(** A signature says one thing: if the same bytes are signed for two purposes - a vote, a result, an epoch
    record, a seed, a proof of possession, a node record of either layout, the text a network key is derived
    from - then the purpose and the content are the same, or the two values hashed beforehand collide. *)
Theorem C45_signature_meaning : forall active H a b, hash32 H -> signed_wf a -> signed_wf b ->
  message active H a = message active H b ->
  content active a = content active b \/ collides H (hashed active a) (hashed active b).
Proof. intros active H a b H32. apply message_inj, H32. Qed.
(** In particular the five purposes that hash nothing, or do not share a scope, never meet at all. *)
Theorem C45_signature_purposes : forall active H a b, signed_wf a -> signed_wf b ->
  message active H a = message active H b ->
  match a, b with
  | SVote _, SVote _ | SVote _, SResult _ _ _ _ | SResult _ _ _ _, SVote _ | SResult _ _ _ _, SResult _ _ _ _ => True
  | SEpoch _, SEpoch _ | SSeed _ _ _, SSeed _ _ _ | SPossession _ _, SPossession _ _ | SNode _, SNode _
  | SOldNode _, SOldNode _ | SNetKey _, SNetKey _ => True
  | _, _ => False
  end.
Proof.
  intros active H a b Wa Wb E.
  assert (T : tag a = tag b).
  { destruct (message_tag active H a Wa) as [ta Ea], (message_tag active H b Wb) as [tb Eb]. rewrite Ea, Eb in E. injection E as E _. exact E. }
  destruct a as [?|? ? ? ?|?|? ? ?|? ?|?|?|w], b as [?|? ? ? ?|?|? ? ?|? ?|?|?|w']; cbn [tag] in T; try exact I;
    try discriminate T; try (destruct w; discriminate T); try (destruct w'; discriminate T); cbn [message signed_wf] in *.
  - eapply node_not_legacy; [apply Wa | apply Wb | apply Wb | exact E].
  - eapply node_not_legacy; [apply Wb | apply Wa | apply Wa | symmetry; exact E].
Qed.
(** Votes and results share a scope; only the hash keeps them apart, and it does since their preimages
    never agree. *)
Theorem C45_vote_is_no_result : forall active h e r n x, header_wf h -> arr 32 x ->
  put_header active h <> result_preimage e r n x.
Proof.
  intros active h e r n x W [L _] E. pose proof (put_header_long active h W). rewrite E, result_length in *; auto. lia.
Qed.
Example signed_case : signed_wf (SVote golden_v1) /\ signed_wf (SResult 1 2 3 (d32 4)) /\ signed_wf (SSeed 1 2 (d32 3)) /\
  signed_wf (SPossession (repeat 9 96) (repeat 1 20)) /\
  signed_wf (SNode {| n_key := repeat 8 36; n_addrs := [[4;127;0;0;1]]; n_ts := 1700000000; n_rpc := Some ([104;116], None) |}).
Proof.
  split; [apply golden_wf|]. repeat split; try reflexivity; try (apply forallb_bytes; reflexivity).
  all: cbn; repeat constructor.
Qed.
(** vote.rs and mod.rs tests: the intent of a vote starts with 2, 0, 1 and the digest carries its length. *)
Example vote_bytes : message (fun _ => true) (fun _ => d32 7) (SVote golden_v1) = [2; 0; 1; 32] ++ d32 7.
Proof. reflexivity. Qed.

(** The seed chain: a root or a fold fixes what went into it, and no root is a fold. *)
Theorem C45_seed_chain : forall H,
  (forall e e', u32 e -> u32 e' -> H (root_preimage e) = H (root_preimage e') -> e = e' \/ collides H (root_preimage e) (root_preimage e')) /\
  (forall v r s v' r' s', arr 32 v -> arr 32 v' -> u32 r -> u32 r' -> H (fold_preimage v r s) = H (fold_preimage v' r' s') ->
     (v = v' /\ r = r' /\ s = s') \/ collides H (fold_preimage v r s) (fold_preimage v' r' s')) /\
  (forall e v r s, H (root_preimage e) = H (fold_preimage v r s) -> collides H (root_preimage e) (fold_preimage v r s)).
Proof.
  intros H. repeat split.
  - intros e e' U U' E. destruct (bytes_dec (root_preimage e) (root_preimage e')) as [D|D]; [left; apply root_inj; auto|right; split; auto].
  - intros v r s v' r' s' [V _] [V' _] U U' E.
    destruct (bytes_dec (fold_preimage v r s) (fold_preimage v' r' s')) as [D|D]; [left; apply fold_inj; auto; congruence|right; split; auto].
  - intros E. unfold root_preimage, fold_preimage in E. apply app_inj_len in E as [E _]; [discriminate E | reflexivity].
  - assumption.
Qed.

(* ---------- node records ---------- *)
(** The two layouts of a node record exclude each other: no byte string is both, so the decoder's order
    of trying them does not matter, and records of either kind are read back as they were written. *)
Theorem C45_node_layouts_exclusive : forall bs, Forall byte bs ->
  from_bytes get_record bs = None \/ from_bytes get_legacy_record bs = None.
Proof.
  intros bs Hb. destruct (from_bytes get_record bs) as [a|] eqn:A; auto. destruct (from_bytes get_legacy_record bs) as [b|] eqn:B; auto.
  exfalso. apply from_some in A, B. eapply layouts_exclusive; eauto.
Qed.
Theorem C45_node_record_round_trip : forall n s, node_wf n -> arr 48 s ->
  decode_compat (put_record n s) = Some (n, s).
Proof. intros n s W [L _]. unfold decode_compat. rewrite (reads_from _ _ _ (record_reads n s W L)). reflexivity. Qed.
Theorem C45_old_node_record_round_trip : forall n s, node_wf n -> n_rpc n = None -> arr 48 s ->
  decode_compat (put_legacy_record n s) = Some (n, s).
Proof.
  intros n s W R A. pose proof (put_legacy_record_bytes n s W A) as Hb. destruct A as [L _]. unfold decode_compat. pose proof (reads_from _ _ _ (legacy_record_reads n s W R L)) as E.
  destruct (C45_node_layouts_exclusive _ Hb) as [X|X]; [rewrite X; exact E | congruence].
Qed.
(** A record is accepted only under a signature over its own content in its own layout. *)
Theorem C45_node_record_signed : forall verifies value key n, Forall byte value -> decode_and_verify verifies value key = Some n ->
  node_wf n /\ exists s, arr 48 s /\
   ((value = put_record n s /\ verifies key (put_node n) s = true) \/
    (value = put_legacy_record n s /\ n_rpc n = None /\ verifies key (put_legacy n) s = true)).
Proof.
  intros verifies value key n Hb. unfold decode_and_verify.
  destruct (from_bytes get_record value) as [[n' s]|] eqn:E.
  - apply from_some in E. apply bind_some in E as (n1 & r & P1 & E). apply node_canon in P1 as (-> & W & Br); [|exact Hb].
    apply bind_some in E as (s1 & r' & P2 & [= -> -> ->]). apply fixed_canon in P2 as (-> & W2 & _); [|exact Br].
    destruct (verifies key (put_node n') s) eqn:V; [|discriminate 1]. intros [= <-]. split; [exact W|]. exists s. split; [exact W2|].
    left. rewrite app_nil_r. auto.
  - destruct (from_bytes get_legacy_record value) as [[n' s]|] eqn:E'; [|discriminate 1].
    apply from_some in E'. apply bind_some in E' as (n1 & r & P1 & E'). apply legacy_canon in P1 as (-> & [W R] & Br); [|exact Hb].
    apply bind_some in E' as (s1 & r' & P2 & [= -> -> ->]). apply fixed_canon in P2 as (-> & W2 & _); [|exact Br].
    destruct (verifies key (put_legacy n') s) eqn:V; [|discriminate 1]. intros [= <-]. split; [exact W|]. exists s. split; [exact W2|].
    right. rewrite app_nil_r. auto.
Qed.
(** So if a validator's key verifies only what the validator signed ([signs]), a record accepted under it is
    a node record it made: no vote, seed or proof can be passed off as one. *)
Theorem C45_node_record_authentic : forall active H verifies key (signs : signed -> Prop) value n,
  (forall m, signs m -> signed_wf m) ->
  (forall msg s, verifies key msg s = true -> exists m, signs m /\ message active H m = msg) ->
  Forall byte value -> arr 36 (n_key n) -> decode_and_verify verifies value key = Some n ->
  signs (SNode n) \/ signs (SOldNode n).
Proof.
  intros active H verifies key signs value n Hwf Hun Hb Hk E.
  destruct (C45_node_record_signed verifies value key n Hb E) as (W & s & _ & [[_ V]|(_ & R & V)]).
  - left. destruct (Hun _ _ V) as (m & Sm & Em). pose proof (Hwf m Sm) as Wm.
    assert (Wn : signed_wf (SNode n)) by (split; auto).
    pose proof (C45_signature_purposes active H m (SNode n) Wm Wn Em) as P. destruct m; try contradiction P.
    cbn [message] in Em. apply put_node_inj in Em; [subst; exact Sm | apply Wm | exact W].
  - right. destruct (Hun _ _ V) as (m & Sm & Em). pose proof (Hwf m Sm) as Wm.
    assert (Wn : signed_wf (SOldNode n)) by (split; auto).
    pose proof (C45_signature_purposes active H m (SOldNode n) Wm Wn Em) as P. destruct m; try contradiction P.
    cbn [message] in Em. apply put_legacy_inj in Em; [subst; exact Sm | apply Wm | exact W | apply Wm | exact R].
Qed.
Definition demo_node : node := {| n_key := repeat 8 36; n_addrs := [[4;127;0;0;1]]; n_ts := 1700000000; n_rpc := None |}.
Example demo_node_case :
  decode_and_verify (fun k m s => beqb m (put_legacy demo_node)) (put_legacy_record demo_node (repeat 7 48)) (repeat 1 96) = Some demo_node /\
  decode_and_verify (fun k m s => beqb m (put_legacy demo_node)) (put_record demo_node (repeat 7 48)) (repeat 1 96) = None.
Proof. split; vm_compute; reflexivity. Qed.
