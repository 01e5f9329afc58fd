(** Host names and the reading of answers (C60). *)
From Verif Require Import Util FwModel FwSpec FwHosts.
From Coq Require Import String Ascii.
Import List ListNotations.
Local Open Scope N_scope.

Lemma app_assoc_s (a b c : string) : ((a ++ b) ++ c = a ++ (b ++ c))%string.
Proof. induction a as [|x a IH]; [reflexivity|]. change (String x ((a ++ b) ++ c) = String x (a ++ (b ++ c)))%string. rewrite IH. reflexivity. Qed.
Lemma app_nil_s (a : string) : (a ++ "" = a)%string.
Proof. induction a as [|x a IH]; [reflexivity|]. change (String x (a ++ "") = String x a)%string. rewrite IH. reflexivity. Qed.

Lemma lower_char_dot a : lower_char a = "."%char <-> a = "."%char.
Proof. destruct a as [[|] [|] [|] [|] [|] [|] [|] [|]]; vm_compute; split; intros H; try discriminate H; reflexivity. Qed.
Lemma eqb_dot a : Ascii.eqb (lower_char a) "."%char = Ascii.eqb a "."%char.
Proof.
  destruct (Ascii.eqb_spec (lower_char a) "."%char) as [E|E], (Ascii.eqb_spec a "."%char) as [F|F]; auto.
  - destruct F. apply (proj1 (lower_char_dot a)). exact E.
  - destruct E. apply (proj2 (lower_char_dot a)). exact F.
Qed.
Lemma trim_lower s : trim_dots (lower s) = lower (trim_dots s).
Proof.
  induction s as [|a s IH]; [reflexivity|].
  cbn [lower trim_dots]. rewrite IH. destruct (trim_dots s) as [|b t]; cbn [lower].
  - rewrite eqb_dot. destruct (Ascii.eqb a _); reflexivity.
  - reflexivity.
Qed.
Lemma trim_dots_nil d : all_dots d -> trim_dots d = EmptyString.
Proof. induction d as [|a d IH]; [reflexivity|]. intros [-> H]. cbn [trim_dots]. rewrite IH; auto. Qed.
Lemma trim_front f s : trim_dots s <> EmptyString -> trim_dots (f ++ s) = (f ++ trim_dots s)%string.
Proof.
  intros H. induction f as [|a f IH]; [reflexivity|].
  change ((match trim_dots (f ++ s) with EmptyString => if Ascii.eqb a "."%char then EmptyString else String a EmptyString | String _ _ as t' => String a t' end)
          = String a (f ++ trim_dots s)%string).
  rewrite IH. destruct (f ++ trim_dots s)%string eqn:E; [|reflexivity].
  destruct f; [cbn in E; contradiction|discriminate E].
Qed.
Lemma trim_split s : exists d, all_dots d /\ s = (trim_dots s ++ d)%string.
Proof.
  induction s as [|a s [d [Hd E]]]; [exists EmptyString; split; [exact I|reflexivity]|].
  cbn [trim_dots]. destruct (trim_dots s) as [|b t] eqn:Et.
  - destruct (Ascii.eqb_spec a "."%char) as [->|N].
    + exists (String "." d). split; [split; auto|]. cbn in E. rewrite E at 1. reflexivity.
    + exists d. split; auto. cbn in E. rewrite E at 1. reflexivity.
  - exists d. split; auto. rewrite E at 1. reflexivity.
Qed.
Lemma ends_with_spec u s : ends_with u s = true <-> exists f, s = (f ++ u)%string.
Proof.
  induction s as [|a s IH]; cbn [ends_with]; rewrite orb_true_iff, String.eqb_eq.
  - split.
    + intros [->|H]; [exists EmptyString; reflexivity|discriminate].
    + intros [[|b f] E]; [left; rewrite E; reflexivity|discriminate E].
  - rewrite IH. split.
    + intros [->|[f ->]]; [exists EmptyString; reflexivity|exists (String a f); reflexivity].
    + intros [[|b f] E]; [left; rewrite E; reflexivity|]. right. exists f.
      change (String a s = String b (f ++ u)%string) in E. congruence.
Qed.
Lemma label_iff (label name : string) :
  (forall dots, all_dots dots -> trim_dots (label ++ dots) = label) -> label <> EmptyString ->
  (lower (trim_dots name) = label \/ ends_with ("." ++ label) (lower (trim_dots name)) = true <-> last_label label name).
Proof.
  intros Hlab Hne. rewrite ends_with_spec. unfold last_label. split.
  - intros H. destruct (trim_split (lower name)) as [d [Hd E]]. rewrite trim_lower in E.
    destruct H as [H|[f H]].
    + exists EmptyString, d. split; auto. split; [|left; reflexivity]. rewrite E at 1. rewrite H. reflexivity.
    + exists (f ++ ".")%string, d. split; auto. split; [|right; exists f; reflexivity].
      rewrite E at 1. rewrite H. rewrite !app_assoc_s. reflexivity.
  - intros (front & dots & Hd & E & Hf).
    assert (T : lower (trim_dots name) = (front ++ label)%string).
    { rewrite <- trim_lower, E. rewrite trim_front; rewrite Hlab; auto. }
    rewrite T. destruct Hf as [->|[f ->]]; [left; reflexivity|right; exists f]. rewrite app_assoc_s. reflexivity.
Qed.
Lemma check_name_spec n : check_name n = None <-> ~ local_name n.
Proof.
  unfold check_name, local_name. cbn zeta.
  assert (L1 : forall dots, all_dots dots -> trim_dots ("localhost" ++ dots) = "localhost"%string).
  { intros dots H. cbn. rewrite trim_dots_nil; auto. }
  assert (L2 : forall dots, all_dots dots -> trim_dots ("local" ++ dots) = "local"%string).
  { intros dots H. cbn. rewrite trim_dots_nil; auto. }
  rewrite <- (label_iff "localhost" n L1), <- (label_iff "local" n L2) by discriminate.
  change ("." ++ "localhost")%string with ".localhost"%string. change ("." ++ "local")%string with ".local"%string.
  remember (lower (trim_dots n)) as m.
  rewrite <- !String.eqb_eq, <- !orb_true_iff.
  destruct (String.eqb m "localhost" || _); [split; [discriminate|intros X; destruct X; auto]|].
  destruct (String.eqb m "local" || _); [split; [discriminate|intros X; destruct X; auto]|].
  split; [discriminate|reflexivity].
Qed.
Lemma check_host_spec h : (forall g, h = Some g -> host_wf g) -> (check_host h = None <-> public_host h).
Proof.
  intros W. destruct h as [[a b c d|s|n]|]; cbn [check_host public_host].
  - destruct (W _ eq_refl) as (A & B & C & D). apply check_v4_spec; auto.
  - apply check_v6_spec. apply W. reflexivity.
  - apply check_name_spec.
  - split; [discriminate|contradiction].
Qed.

Lemma prefix_spec p s : prefix_of p s = true <-> exists b, s = (p ++ b)%string.
Proof.
  revert s. induction p as [|a p IH]; intros s; cbn [prefix_of].
  - split; auto. intros _. exists s. reflexivity.
  - destruct s as [|b s]; [split; [discriminate|intros [x E]; discriminate E]|].
    rewrite andb_true_iff, IH. split.
    + intros [E [x ->]]. apply Ascii.eqb_eq in E as ->. exists x. reflexivity.
    + intros [x E]. change (String b s = String a (p ++ x)%string) in E.
      injection E as -> ->. split; [apply Ascii.eqb_refl|exists x; reflexivity].
Qed.
Lemma contains_spec n s : contains n s = true <-> occurs n s.
Proof.
  induction s as [|a s IH]; cbn [contains]; rewrite orb_true_iff, prefix_spec.
  - split.
    + intros [[b E]|H]; [exists EmptyString, b; exact E|discriminate].
    + intros (x & b & E). left. destruct x; [exists b; exact E|discriminate E].
  - rewrite IH. split.
    + intros [[b E]|(x & b & E)]; [exists EmptyString, b; exact E|]. exists (String a x), b. rewrite E. reflexivity.
    + intros ([|c x] & b & E); [left; exists b; exact E|]. right. exists x, b.
      change (String a s = String c (x ++ n ++ b)%string) in E. congruence.
Qed.
Lemma node_local_spec l : existsb (fun n => contains n l) NODE_LOCAL = true <->
  occurs "transaction underpriced" l \/ occurs "exceeds the configured cap" l \/ occurs "address already reserved" l.
Proof.
  unfold NODE_LOCAL. cbn [existsb]. rewrite !orb_true_iff, !contains_spec.
  assert (X : occurs "replacement transaction underpriced" l -> occurs "transaction underpriced" l).
  { intros (a & b & E). exists (a ++ "replacement ")%string, b. rewrite E, app_assoc_s. reflexivity. }
  split; [intros [H|[H|[H|[H|H]]]]; auto; discriminate H|intros [H|[H|H]]; auto 6].
Qed.
(** what an error response counts as *)
Lemma classify_server_spec code msg :
  (classify_server code msg = TryNext <-> transient code \/ (~ already_known msg /\ about_this_node code msg)) /\
  (classify_server code msg = Delivered <-> ~ transient code /\ already_known msg) /\
  (forall why, classify_server code msg = Rejected why <->
     why = msg /\ ~ transient code /\ ~ already_known msg /\ ~ about_this_node code msg) /\
  classify_server code msg <> Unreachable.
Proof.
  assert (T : transient code <-> (code =? -32003)%Z || (code =? -32603)%Z = true).
  { unfold transient. rewrite orb_true_iff, !Z.eqb_eq. reflexivity. }
  assert (K : already_known msg <-> contains "already known" (lower msg) = true) by (symmetry; apply contains_spec).
  assert (A : about_this_node code msg <-> (code =? -32000)%Z && existsb (fun n => contains n (lower msg)) NODE_LOCAL = true).
  { unfold about_this_node. rewrite andb_true_iff, Z.eqb_eq, node_local_spec. reflexivity. }
  unfold classify_server. cbn zeta.
  generalize dependent (transient code). generalize dependent (already_known msg). generalize dependent (about_this_node code msg).
  destruct (_ || _), (contains _ _), (_ && _); intros P1 E1 P2 E2 P3 E3;
    (split; [intuition congruence|split; [intuition congruence|split; [intros why; intuition congruence|discriminate]]]).
Qed.
