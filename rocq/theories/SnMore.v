(** C61, further facts: the two readers mixed, missing code on export, genesis in the header window. *)
From Verif Require Import Util EpochModel GasModel SnModel SnSpec SnMaps SnPack SnWrite.
Local Open Scope N_scope.

(* ---------- the readers mixed ---------- *)
Lemma entries_pending m hs s first l e : reads_entries (rdr m hs (Some first :: s) None) l e -> vet (Some first) = inl first ->
  reads_entries (rdr m hs s (Some first)) l e.
Proof.
  intros H V.
  assert (P : next_entry (rdr m hs s (Some first)) = next_entry (rdr m hs (Some first :: s) None)).
  { unfold next_entry, rdr, pull. cbn [rd_done rd_pending rd_rest set_rest]. rewrite V. reflexivity. }
  inversion H; subst; rewrite <- P in *; [eapply rde_end|eapply rde_err|eapply rde_item]; eauto.
Qed.
(* after [k] whole accounts *)
Lemma mixed m hs f rest : forall k gs rd rd' l, bounded gs ->
  (rd = rdr m hs (map Some (body gs) ++ Some (SEnd f) :: rest) None \/
   exists first s, map Some (body gs) ++ Some (SEnd f) :: rest = Some first :: s /\ rd = rdr m hs s (Some first)) ->
  after_accounts rd l rd' -> length l = k ->
  l = firstn k (accounts_of gs) /\ reads_entries rd' (entries_of (skipn k gs)) None.
Proof.
  assert (Ent : forall gs rd, bounded gs -> (rd = rdr m hs (map Some (body gs) ++ Some (SEnd f) :: rest) None \/
     exists first s, map Some (body gs) ++ Some (SEnd f) :: rest = Some first :: s /\ rd = rdr m hs s (Some first)) ->
     reads_entries rd (entries_of gs) None).
  { intros gs rd Hb Hrd. pose proof (entries_tail m hs f rest gs Hb [] (Forall_nil _)) as R. unfold tail_recs in R. cbn [map app] in R.
    destruct Hrd as [->|[first [s [Hs ->]]]]; [exact R|]. rewrite Hs in R. apply entries_pending; auto.
    destruct gs as [|[a cs] gs]; cbn in Hs; injection Hs as <- _; reflexivity. }
  induction k as [|k IH]; intros gs rd rd' l Hb Hrd H Hl; inversion H; subst; try discriminate Hl.
  - split; [reflexivity|]. apply Ent; auto.
  - match goal with X : next_account _ = (Some (inl ?a), ?r1), Y : after_accounts ?r1 ?l0 _ |- _ => rename X into HN, Y into HA; rename a into a0; rename r1 into rd1; rename l0 into l1 end.
    injection Hl as Hl.
    destruct gs as [|[a cs] gs].
    + exfalso. destruct Hrd as [->|[first [s [Hs ->]]]]; [|cbn in Hs; injection Hs as <- <-]; cbn in HN; discriminate HN.
    + inversion Hb as [|? ? Hc Hb']; subst. cbn [snd] in Hc.
      assert (Hx : exists o r, map Some (body gs) ++ Some (SEnd f) :: rest = Some o :: r /\ forall c, o <> SStorage c).
      { destruct gs as [|[a' cs'] gs']; cbn [body map concat app]; [exists (SEnd f), rest; split; [auto|intros; discriminate]|].
        eexists (SAccount a'), _. cbn [group_recs fst snd app map]. split; [reflexivity|intros; discriminate]. }
      destruct Hx as (o & r & Ho & Hno).
      assert (Hg : gather (map Some (tail_recs cs gs) ++ Some (SEnd f) :: rest) [] = inl (concat cs, o, r)).
      { apply gather_spec. exists cs. repeat split; auto. rewrite map_some_tail, Ho. auto. }
      assert (HN' : next_account rd = (Some (inl (account_of a (concat cs))), rdr m hs r (Some o))).
      { destruct Hrd as [->|[first [s [Hs ->]]]]; rewrite body_cons in *; cbn [map app] in *.
        - unfold next_account, rdr, pull. cbn [rd_done rd_pending rd_rest set_rest vet]. rewrite Hg. auto.
        - injection Hs as <- <-. unfold next_account, rdr, pull. cbn [rd_done rd_pending rd_rest set_rest vet]. rewrite Hg. auto. }
      rewrite HN' in HN. injection HN as <- <-.
      destruct (IH gs _ _ _ Hb' (or_intror (ex_intro _ o (ex_intro _ r (conj Ho eq_refl)))) HA eq_refl) as [I1 I2].
      split; [|exact I2]. unfold accounts_of in *. cbn [map firstn fst snd]. rewrite <- I1. reflexivity.
Qed.

(* ---------- code missing on export ---------- *)
Lemma export_missing E cs (st : sstate) : forall rows w, bm_sorted st -> StronglySorted row_lt rows ->
  (exists a acc ss h, In (a, (acc, ss)) st /\ ac_code acc = Some h /\ h <> sv_code E [] /\ bm_lookup h cs = None) ->
  exists e, export_plain E cs (map (fun e : N * (sacc * bmap N) => (fst e, fst (snd e))) st) rows w = inr e.
Proof.
  induction st as [|[addr [acc ss]] st IH]; intros rows w Hs Hr (a & acc' & ss' & h & Hi & H1 & H2 & H3); [destruct Hi|].
  cbn [map export_plain fst snd]. destruct (resolve_code E cs acc) as [code|e] eqn:Er; [|eauto].
  destruct (stream_slots addr rows [] None _) as [[rows' w']|e] eqn:Es; [|eauto].
  rewrite stream_slots_eq in Es by (auto; intros p Hp; discriminate).
  destruct Hi as [Hi|Hi].
  - injection Hi as -> -> ->. exfalso. unfold resolve_code in Er. rewrite H1, (proj2 (N.eqb_neq _ _) H2), H3 in Er. discriminate Er.
  - apply IH; [eapply bm_tail; eauto| |exists a, acc', ss', h; auto].
    destruct (w_slots _ _ _) as [w1|e]; [|discriminate Es]. injection Es as <- _. apply past_sorted. auto.
Qed.

(* ---------- genesis in the window ---------- *)
Lemma filter_ins (h : shdr * N) l : filter (fun x => negb (sh_num (fst x) =? 0)) (ins_num h l) =
  if sh_num (fst h) =? 0 then filter (fun x => negb (sh_num (fst x) =? 0)) l
  else ins_num h (filter (fun x => negb (sh_num (fst x) =? 0)) l).
Proof.
  induction l as [|x l IH]; cbn [ins_num filter]; [destruct (sh_num (fst h) =? 0) eqn:E; reflexivity|].
  destruct (N.ltb_spec (sh_num (fst h)) (sh_num (fst x))) as [H|H]; cbn [filter].
  - destruct (N.eqb_spec (sh_num (fst h)) 0) as [H0|H0]; cbn [negb]; [reflexivity|].
    destruct (N.eqb_spec (sh_num (fst x)) 0) as [X|X]; [lia|]. cbn [negb ins_num].
    rewrite (proj2 (N.ltb_lt _ _) H). reflexivity.
  - rewrite IH. destruct (N.eqb_spec (sh_num (fst h)) 0) as [H0|H0]; [destruct (sh_num (fst x) =? 0); reflexivity|].
    destruct (N.eqb_spec (sh_num (fst x)) 0) as [X|X]; cbn [negb ins_num]; [reflexivity|].
    rewrite (proj2 (N.ltb_ge _ _) H). reflexivity.
Qed.
Lemma window_filter E hs : scaffold_window E hs = scaffold_window E (filter (fun h => negb (sh_num h =? 0)) hs).
Proof.
  unfold scaffold_window. set (F := filter (fun x : shdr * N => negb (sh_num (fst x) =? 0))).
  assert (G : forall l l', F l = F l' -> F (fold_left (fun l h => ins_num (h, sv_hash E h) l) hs l) =
     F (fold_left (fun l h => ins_num (h, sv_hash E h) l) (filter (fun h => negb (sh_num h =? 0)) hs) l')); [|apply G; reflexivity].
  induction hs as [|h hs IH]; intros l l' El; cbn [fold_left filter]; [exact El|].
  destruct (sh_num h =? 0) eqn:E0; cbn [negb fold_left]; apply IH; unfold F; rewrite ?filter_ins; cbn [fst]; rewrite E0; [exact El|].
  fold F. rewrite El. reflexivity.
Qed.
Lemma import_loop_reader E : forall fuel m hs m' hs' s p cur prev t,
  import_loop E fuel (rdr m hs s p) cur prev t = import_loop E fuel (rdr m' hs' s p) cur prev t.
Proof.
  induction fuel as [|fuel IH]; intros m hs m' hs' s p cur prev t; [reflexivity|]. cbn [import_loop].
  unfold next_entry, rdr, pull. cbn [rd_done rd_pending rd_rest].
  destruct p as [r|]; [|destruct s as [|i s]; [reflexivity|destruct (vet i) as [r|e]; [|reflexivity]]].
  all: destruct r; cbn [set_rest rd_rest rd_meta rd_headers rd_pending rd_done]; try reflexivity.
  all: repeat match goal with |- match ?c with _ => _ end = _ => destruct c; try reflexivity | |- (if ?c then _ else _) = _ => destruct c; try reflexivity end; apply IH.
Qed.
