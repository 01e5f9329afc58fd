(** Hosts and answers (C60). *)
From Verif Require Import Util FwModel FwSpec.
From Coq Require Import String Ascii.
Import List ListNotations.
Local Open Scope N_scope.

Lemma in_block_num bits base len x p v : 2 ^ (bits - len) = p -> base / p = v -> (in_block bits base len x <-> x / p = v).
Proof. intros <- <-. unfold in_block. reflexivity. Qed.
Lemma v4_num x : v4_local x <->
  x / 16777216 = 127 \/ x / 16777216 = 0 \/ x / 16777216 = 10 \/ x / 1048576 = 2753 \/ x / 65536 = 49320 \/ x / 65536 = 43518 \/
  x / 4194304 = 401 \/ x / 268435456 = 14 \/ x / 268435456 = 15.
Proof.
  unfold v4_local.
  rewrite (in_block_num 32 (ip4 127 0 0 0) 8 x 16777216 127) by (vm_compute; reflexivity).
  rewrite (in_block_num 32 (ip4 0 0 0 0) 8 x 16777216 0) by (vm_compute; reflexivity).
  rewrite (in_block_num 32 (ip4 10 0 0 0) 8 x 16777216 10) by (vm_compute; reflexivity).
  rewrite (in_block_num 32 (ip4 172 16 0 0) 12 x 1048576 2753) by (vm_compute; reflexivity).
  rewrite (in_block_num 32 (ip4 192 168 0 0) 16 x 65536 49320) by (vm_compute; reflexivity).
  rewrite (in_block_num 32 (ip4 169 254 0 0) 16 x 65536 43518) by (vm_compute; reflexivity).
  rewrite (in_block_num 32 (ip4 100 64 0 0) 10 x 4194304 401) by (vm_compute; reflexivity).
  rewrite (in_block_num 32 (ip4 224 0 0 0) 4 x 268435456 14) by (vm_compute; reflexivity).
  rewrite (in_block_num 32 (ip4 240 0 0 0) 4 x 268435456 15) by (vm_compute; reflexivity).
  reflexivity.
Qed.
Lemma div2 x p q r : q <> 0 -> r <> 0 -> p = q * r -> x / p = x / q / r.
Proof. intros Hq Hr ->. rewrite N.div_div; auto. Qed.

Lemma A1 x a b c d : a < 256 -> b < 256 -> c < 256 -> d < 256 -> x = ip4 a b c d -> x / 16777216 = a.
Proof. intros. unfold ip4 in *. symmetry. apply (N.div_unique _ _ _ ((b * 256 + c) * 256 + d)); lia. Qed.
Lemma A2 x a b c d : a < 256 -> b < 256 -> c < 256 -> d < 256 -> x = ip4 a b c d -> x / 65536 = a * 256 + b.
Proof. intros. unfold ip4 in *. symmetry. apply (N.div_unique _ _ _ (c * 256 + d)); lia. Qed.
Lemma A3 x a b : x / 65536 = a * 256 + b -> x / 1048576 = (a * 256 + b) / 16.
Proof. intros <-. apply div2; [discriminate|discriminate|reflexivity]. Qed.
Lemma A4 a b : a < 256 -> b < 256 -> 
  (a = 127 \/ a = 0 \/ a = 10 \/ (a * 256 + b) / 16 = 2753 \/ a * 256 + b = 49320 \/ a * 256 + b = 43518 \/
  (a * 256 + b) / 64 = 401 \/ a / 16 = 14 \/ a / 16 = 15 <-> a = 127 \/ a = 0 \/ a = 10 \/ (a = 172 /\ 16 <= b <= 31) \/ (a = 192 /\ b = 168) \/ (a = 169 /\ b = 254) \/
   (a = 100 /\ 64 <= b < 128) \/ 224 <= a).
Proof. intros Ha Hb. split; intros H; lia. Qed.
Lemma A5 x a b : x / 65536 = a * 256 + b -> x / 4194304 = (a * 256 + b) / 64.
Proof. intros <-. apply div2; [discriminate|discriminate|reflexivity]. Qed.
Lemma A6 x a : x / 16777216 = a -> x / 268435456 = a / 16.
Proof. intros <-. apply div2; [discriminate|discriminate|reflexivity]. Qed.
Lemma v4_blocks a b c d : a < 256 -> b < 256 -> c < 256 -> d < 256 ->
  (v4_local (ip4 a b c d) <->
   a = 127 \/ a = 0 \/ a = 10 \/ (a = 172 /\ 16 <= b <= 31) \/ (a = 192 /\ b = 168) \/ (a = 169 /\ b = 254) \/
   (a = 100 /\ 64 <= b < 128) \/ 224 <= a).
Proof.
  intros Ha Hb Hc Hd. rewrite v4_num.
  remember (ip4 a b c d) as x eqn:Ex.
  pose proof (A1 x a b c d Ha Hb Hc Hd Ex) as E8. pose proof (A2 x a b c d Ha Hb Hc Hd Ex) as E16.
  rewrite (A3 x a b E16), (A5 x a b E16), (A6 x a E8), E8, E16. apply A4; auto.
Qed.
Lemma check_v4_spec a b c d : a < 256 -> b < 256 -> c < 256 -> d < 256 ->
  (check_v4 a b c d = None <-> ~ v4_local (ip4 a b c d)).
Proof.
  intros Ha Hb Hc Hd. rewrite v4_blocks; auto. unfold check_v4.
  destruct (N.eqb_spec a 127); [split; [discriminate|intros X; destruct X; auto]|].
  destruct (_ || _ || _) eqn:E1.
  { split; [discriminate|]. intros X; destruct X. lia. }
  destruct ((a =? 169) && _) eqn:E2; [split; [discriminate|intros X; destruct X; lia]|].
  destruct (N.eqb_spec a 0); [split; [discriminate|intros X; destruct X; lia]|].
  destruct ((a =? 100) && _) eqn:E3; [split; [discriminate|intros X; destruct X; lia]|].
  destruct (N.leb_spec 224 a); [split; [discriminate|intros X; destruct X; lia]|].
  split; auto. intros _ X. lia.
Qed.

Lemma land_top x k m : x < 65536 -> m = N.ldiff 65535 (N.ones k) -> N.land x m = x / 2 ^ k * 2 ^ k.
Proof.
  intros Hx ->. rewrite <- N.shiftr_div_pow2, <- N.shiftl_mul_pow2, <- N.ldiff_ones_r.
  apply N.bits_inj. intros n. rewrite N.land_spec, !N.ldiff_spec. change 65535 with (N.ones 16).
  destruct (N.ltb_spec n 16) as [H|H].
  - rewrite (N.ones_spec_low 16 n); auto.
  - rewrite (N.ones_spec_high 16 n); auto. rewrite andb_false_l, andb_false_r.
    destruct (N.eq_dec x 0) as [->|Hz]; [rewrite N.bits_0; auto|].
    rewrite N.bits_above_log2; auto. apply N.log2_lt_pow2; [lia|]. eapply N.lt_le_trans; [exact Hx|].
    change 65536 with (2 ^ 16). apply N.pow_le_mono_r; [discriminate|auto].
Qed.
Lemma block_top bits k len base x h r : len <= k -> k <= bits -> r < 2 ^ (bits - k) -> x = h * 2 ^ (bits - k) + r ->
  (in_block bits (base * 2 ^ (bits - k)) len x <-> h / 2 ^ (k - len) = base / 2 ^ (k - len)).
Proof.
  intros Hl Hk Hr Hx. unfold in_block. replace (bits - len) with ((bits - k) + (k - len)) by lia. rewrite N.pow_add_r.
  assert (Hp : 2 ^ (bits - k) <> 0) by (apply N.pow_nonzero; discriminate).
  assert (Hq : 2 ^ (k - len) <> 0) by (apply N.pow_nonzero; discriminate).
  remember (2 ^ (bits - k)) as p eqn:Ep. remember (2 ^ (k - len)) as q eqn:Eq. clear Ep Eq.
  rewrite <- !N.div_div; auto. rewrite N.div_mul; auto.
  replace (x / p) with h; [reflexivity|]. apply (N.div_unique _ _ _ r); auto. rewrite Hx. apply f_equal2; [apply N.mul_comm|reflexivity].
Qed.
Lemma v6_logic (x0 x1 b7 b10 b8 h0 hf hc s : bool) (L M : option refusal) (P Q : Prop) :
  (L = None <-> ~ P) -> (M = None <-> ~ Q) -> (x0 && x1 = false) -> (s && (h0 || hf || hc) = false) ->
  ((if x1 then Some Loopback else if x0 then Some Unspecified else if b7 then Some UniqueLocal
    else if b10 then Some LinkLocal else if b8 then Some NotUnicast
    else if h0 || hf then L else if hc then L else if s then M else None) = None <->
   ~ (x0 = true \/ x1 = true \/ b7 = true \/ b10 = true \/ b8 = true \/
      ((h0 = true \/ hf = true \/ hc = true) /\ P) \/ (s = true /\ Q))).
Proof.
  intros HL HM _ Hs.
  destruct x1; [split; [discriminate|intros X; destruct X; auto]|].
  destruct x0; [split; [discriminate|intros X; destruct X; auto]|].
  destruct b7; [split; [discriminate|intros X; destruct X; auto]|].
  destruct b10; [split; [discriminate|intros X; destruct X; auto 6]|].
  destruct b8; [split; [discriminate|intros X; destruct X; auto 6]|].
  destruct s, h0, hf, hc; cbn in *; try discriminate Hs; rewrite ?HL, ?HM; intuition discriminate.
Qed.
Lemma check_v6_spec s : host_wf (H6 s) -> (check_v6 s = None <-> ~ v6_local (ip6 s)).
Proof.
  intros [Hl Hf]. destruct s as [|s1 [|s2 [|s3 [|s4 [|s5 [|s6 [|s7 [|s8 [|]]]]]]]]]; try discriminate Hl. clear Hl.
  repeat match goal with H : Forall _ (_ :: _) |- _ => inversion H; clear H; subst end.
  match goal with H : Forall _ [] |- _ => clear H end.
  remember (ip6 [s1; s2; s3; s4; s5; s6; s7; s8]) as x eqn:Ex0.
  assert (Ex : x = ((((((s1 * 65536 + s2) * 65536 + s3) * 65536 + s4) * 65536 + s5) * 65536 + s6) * 65536 + s7) * 65536 + s8).
  { subst x. unfold ip6. cbn [fold_left]. rewrite N.mul_0_l, N.add_0_l. reflexivity. }
  clear Ex0.
  remember (((((s1 * 65536 + s2) * 65536 + s3) * 65536 + s4) * 65536 + s5) * 65536 + s6) as hi eqn:Ehi.
  (* the top segment *)
  assert (P112 : 2 ^ (128 - 16) = 65536 * 65536 * 65536 * 65536 * 65536 * 65536 * 65536) by (vm_compute; reflexivity).
  assert (Etop : exists r, r < 2 ^ (128 - 16) /\ x = s1 * 2 ^ (128 - 16) + r).
  { exists ((((((s2 * 65536 + s3) * 65536 + s4) * 65536 + s5) * 65536 + s6) * 65536 + s7) * 65536 + s8).
    rewrite P112. clear P112. split; lia. }
  destruct Etop as [r [Hr Er]].
  assert (B7 : in_block 128 (ip6 [64512; 0; 0; 0; 0; 0; 0; 0]) 7 x <-> s1 / 512 = 126).
  { replace (ip6 [64512; 0; 0; 0; 0; 0; 0; 0]) with (64512 * 2 ^ (128 - 16)) by (vm_compute; reflexivity).
    rewrite (block_top 128 16 7 64512 x s1 r); auto; try discriminate.
    replace (2 ^ (16 - 7)) with 512 by (vm_compute; reflexivity). replace (64512 / 512) with 126 by (vm_compute; reflexivity). reflexivity. }
  assert (B10 : in_block 128 (ip6 [65152; 0; 0; 0; 0; 0; 0; 0]) 10 x <-> s1 / 64 = 1018).
  { replace (ip6 [65152; 0; 0; 0; 0; 0; 0; 0]) with (65152 * 2 ^ (128 - 16)) by (vm_compute; reflexivity).
    rewrite (block_top 128 16 10 65152 x s1 r); auto; try discriminate.
    replace (2 ^ (16 - 10)) with 64 by (vm_compute; reflexivity). replace (65152 / 64) with 1018 by (vm_compute; reflexivity). reflexivity. }
  assert (B8 : in_block 128 (ip6 [65280; 0; 0; 0; 0; 0; 0; 0]) 8 x <-> s1 / 256 = 255).
  { replace (ip6 [65280; 0; 0; 0; 0; 0; 0; 0]) with (65280 * 2 ^ (128 - 16)) by (vm_compute; reflexivity).
    rewrite (block_top 128 16 8 65280 x s1 r); auto; try discriminate.
    replace (2 ^ (16 - 8)) with 256 by (vm_compute; reflexivity). replace (65280 / 256) with 255 by (vm_compute; reflexivity). reflexivity. }
  assert (B16 : in_block 128 (ip6 [8194; 0; 0; 0; 0; 0; 0; 0]) 16 x <-> s1 = 8194).
  { replace (ip6 [8194; 0; 0; 0; 0; 0; 0; 0]) with (8194 * 2 ^ (128 - 16)) by (vm_compute; reflexivity).
    rewrite (block_top 128 16 16 8194 x s1 r); auto; try discriminate.
    replace (2 ^ (16 - 16)) with 1 by (vm_compute; reflexivity). rewrite !N.div_1_r. reflexivity. }
  clear r Hr Er P112.
  (* the top six segments *)
  assert (P32 : 2 ^ (128 - 96) = 4294967296) by (vm_compute; reflexivity).
  assert (Hr : s7 * 65536 + s8 < 2 ^ (128 - 96)) by (rewrite P32; clear Ex Ehi; lia).
  assert (Er : x = hi * 2 ^ (128 - 96) + (s7 * 65536 + s8)) by (rewrite P32; clear Ehi; lia).
  assert (B0 : in_block 128 0 96 x <-> hi = 0).
  { replace 0 with (0 * 2 ^ (128 - 96)) at 1 by (vm_compute; reflexivity).
    rewrite (block_top 128 96 96 0 x hi (s7 * 65536 + s8)); auto; try discriminate.
    replace (2 ^ (96 - 96)) with 1 by (vm_compute; reflexivity). rewrite !N.div_1_r. reflexivity. }
  assert (Bf : in_block 128 (ip6 [0; 0; 0; 0; 0; 65535; 0; 0]) 96 x <-> hi = 65535).
  { replace (ip6 [0; 0; 0; 0; 0; 65535; 0; 0]) with (65535 * 2 ^ (128 - 96)) by (vm_compute; reflexivity).
    rewrite (block_top 128 96 96 65535 x hi (s7 * 65536 + s8)); auto; try discriminate.
    replace (2 ^ (96 - 96)) with 1 by (vm_compute; reflexivity). rewrite !N.div_1_r. reflexivity. }
  assert (Bc : in_block 128 (ip6 [100; 65435; 0; 0; 0; 0; 0; 0]) 96 x <->
               hi = ((((100 * 65536 + 65435) * 65536 + 0) * 65536 + 0) * 65536 + 0) * 65536 + 0).
  { replace (ip6 [100; 65435; 0; 0; 0; 0; 0; 0]) with ((((((100 * 65536 + 65435) * 65536 + 0) * 65536 + 0) * 65536 + 0) * 65536 + 0) * 2 ^ (128 - 96))
      by (vm_compute; reflexivity).
    rewrite (block_top 128 96 96 _ x hi (s7 * 65536 + s8)); auto; try discriminate.
    replace (2 ^ (96 - 96)) with 1 by (vm_compute; reflexivity). rewrite !N.div_1_r. reflexivity. }
  remember (((((100 * 65536 + 65435) * 65536 + 0) * 65536 + 0) * 65536 + 0) * 65536 + 0) as nat64 eqn:E64.
  assert (Elo : x mod 2 ^ 32 = ip4 (s7 / 256) (s7 mod 256) (s8 / 256) (s8 mod 256)).
  { replace (2 ^ 32) with 4294967296 by (vm_compute; reflexivity). symmetry.
    apply (N.mod_unique _ _ hi); unfold ip4; clear Ehi E64 B7 B10 B8 B16 B0 Bf Bc Er Hr P32; lia. }
  assert (E80 : x / 2 ^ 80 mod 2 ^ 32 = ip4 (s2 / 256) (s2 mod 256) (s3 / 256) (s3 mod 256)).
  { clear B7 B10 B8 B16 B0 Bf Bc Er Hr P32 Elo E64.
    assert (Eq : x / 2 ^ 80 = (s1 * 65536 + s2) * 65536 + s3).
    { replace (2 ^ 80) with (65536 * 65536 * 65536 * 65536 * 65536) by (vm_compute; reflexivity). symmetry.
      apply (N.div_unique _ _ _ ((((s4 * 65536 + s5) * 65536 + s6) * 65536 + s7) * 65536 + s8)); lia. }
    rewrite Eq. replace (2 ^ 32) with 4294967296 by (vm_compute; reflexivity). symmetry. clear Ex Ehi Eq.
    apply (N.mod_unique _ _ s1); unfold ip4; lia. }
  clear P32 Hr Er.
  unfold v6_local. rewrite B7, B10, B8, B16, B0, Bf, Bc, Elo, E80. clear B7 B10 B8 B16 B0 Bf Bc Elo E80.
  assert (L7 : (N.land s1 65024 =? 64512) = (s1 / 512 =? 126)).
  { rewrite (land_top s1 9 65024); auto. replace (2 ^ 9) with 512 by (vm_compute; reflexivity). clear Ex Ehi E64. lia. }
  assert (L10 : (N.land s1 65472 =? 65152) = (s1 / 64 =? 1018)).
  { rewrite (land_top s1 6 65472); auto. replace (2 ^ 6) with 64 by (vm_compute; reflexivity). clear Ex Ehi E64 L7. lia. }
  assert (L8 : (N.land s1 65280 =? 65280) = (s1 / 256 =? 255)).
  { rewrite (land_top s1 8 65280); auto. replace (2 ^ 8) with 256 by (vm_compute; reflexivity). clear Ex Ehi E64 L7 L10. lia. }
  unfold check_v6, embedded_v4. rewrite L7, L10, L8. clear L7 L10 L8. cbn zeta.
  assert (HE0 : (s1 =? 0) && (s2 =? 0) && (s3 =? 0) && (s4 =? 0) && (s5 =? 0) && ((s6 =? 0) || (s6 =? 65535)) = (hi =? 0) || (hi =? 65535)).
  { clear Ex E64. lia. }
  assert (HE1 : (s1 =? 100) && (s2 =? 65435) && (s3 =? 0) && (s4 =? 0) && (s5 =? 0) && (s6 =? 0) = (hi =? nat64)).
  { clear Ex HE0. lia. }
  assert (HE2 : (s1 =? 0) && (s2 =? 0) && (s3 =? 0) && (s4 =? 0) && (s5 =? 0) && (s6 =? 0) && (s7 =? 0) && (s8 =? 1) = (x =? 1)).
  { clear E64 HE0 HE1. lia. }
  assert (HE3 : (s1 =? 0) && (s2 =? 0) && (s3 =? 0) && (s4 =? 0) && (s5 =? 0) && (s6 =? 0) && (s7 =? 0) && (s8 =? 0) = (x =? 0)).
  { clear E64 HE0 HE1 HE2. lia. }
  assert (H4' : (s1 =? 8194) && ((hi =? 0) || (hi =? 65535) || (hi =? nat64)) = false).
  { clear Ex HE0 HE1 HE2 HE3. lia. }
  rewrite HE0, HE1, HE2, HE3. clear HE0 HE1 HE2 HE3 Ehi E64.
  pose proof (check_v4_spec (s7 / 256) (s7 mod 256) (s8 / 256) (s8 mod 256)) as V1.
  pose proof (check_v4_spec (s2 / 256) (s2 mod 256) (s3 / 256) (s3 mod 256)) as V2.
  assert (Hv1 : check_v4 (s7 / 256) (s7 mod 256) (s8 / 256) (s8 mod 256) = None <-> ~ v4_local (ip4 (s7 / 256) (s7 mod 256) (s8 / 256) (s8 mod 256))).
  { apply V1; clear Ex V1 V2 H4'; lia. }
  assert (Hv2 : check_v4 (s2 / 256) (s2 mod 256) (s3 / 256) (s3 mod 256) = None <-> ~ v4_local (ip4 (s2 / 256) (s2 mod 256) (s3 / 256) (s3 mod 256))).
  { apply V2; clear Ex V1 V2 H4'; lia. }
  clear V1 V2.
  assert (X01 : (x =? 0) && (x =? 1) = false) by (clear; lia).
  pose proof (v6_logic _ _ (s1 / 512 =? 126) (s1 / 64 =? 1018) (s1 / 256 =? 255) _ _ _ _ _ _ _ _ Hv1 Hv2 X01 H4') as G.
  rewrite !N.eqb_eq in G. rewrite <- G. clear G. unfold v4_of_segs.
  destruct (x =? 1); [reflexivity|]. destruct (x =? 0); [reflexivity|]. destruct (s1 / 512 =? 126); [reflexivity|].
  destruct (s1 / 64 =? 1018); [reflexivity|]. destruct (s1 / 256 =? 255); [reflexivity|].
  destruct ((hi =? 0) || (hi =? 65535)); [reflexivity|]. destruct (hi =? nat64); [reflexivity|].
  destruct (s1 =? 8194); reflexivity.
Qed.
