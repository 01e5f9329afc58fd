(** C61: a concrete environment, chain and bundle meeting the theorems' hypotheses. *)
From Verif Require Import Util EpochModel EpochSpec GasModel SnModel SnSpec SnMaps.
Local Open Scope N_scope.

(** ---------- an injective encoding of everything as a number ---------- *)
Fixpoint epos (p : positive) : list bool := match p with xH => [false] | xO q => true :: false :: epos q | xI q => true :: true :: epos q end.
Definition encN (n : N) : list bool := match n with N0 => [false] | Npos p => true :: epos p end.
Lemma epos_inj p : forall q s t, epos p ++ s = epos q ++ t -> p = q /\ s = t.
Proof. induction p; destruct q; cbn [epos app]; intros s t H; try discriminate; injection H as H; try (apply IHp in H as [-> ->]); subst; auto. Qed.
Lemma encN_inj a b s t : encN a ++ s = encN b ++ t -> a = b /\ s = t.
Proof. destruct a, b; cbn [encN app]; intros H; try discriminate; injection H as H; [auto|]. apply epos_inj in H as [-> ->]. auto. Qed.
Definition pfree {A} (e : A -> list bool) : Prop := forall a b s t, e a ++ s = e b ++ t -> a = b /\ s = t.
Lemma encN_pf : pfree encN.
Proof. exact encN_inj. Qed.
Fixpoint encL {A} (e : A -> list bool) (l : list A) : list bool := match l with [] => [false] | x :: r => true :: e x ++ encL e r end.
Lemma encL_inj {A} (e : A -> list bool) : pfree e -> pfree (encL e).
Proof.
  intros He l. induction l as [|x l IH]; intros [|y l'] s t; cbn [encL app]; intros H; try discriminate; injection H as H; auto.
  rewrite <- !app_assoc in H. apply He in H as [-> H]. apply IH in H as [-> ->]. auto.
Qed.
Definition encO {A} (e : A -> list bool) (o : option A) : list bool := match o with None => [false] | Some x => true :: e x end.
Lemma encO_inj {A} (e : A -> list bool) : pfree e -> pfree (encO e).
Proof. intros He [x|] [y|] s t; cbn [encO app]; intros H; try discriminate; injection H as H; auto. apply He in H as [-> ->]. auto. Qed.
Definition encP {A B} (ea : A -> list bool) (eb : B -> list bool) (p : A * B) : list bool := ea (fst p) ++ eb (snd p).
Lemma encP_inj {A B} (ea : A -> list bool) (eb : B -> list bool) : pfree ea -> pfree eb -> pfree (encP ea eb).
Proof.
  intros Ha Hb [a b] [a' b'] s t; unfold encP; cbn [fst snd]; intros H. rewrite <- !app_assoc in H. apply Ha in H as [-> H].
  apply Hb in H as [-> ->]. auto.
Qed.
Fixpoint tonum (l : list bool) : positive := match l with [] => xH | true :: r => xI (tonum r) | false :: r => xO (tonum r) end.
Lemma tonum_inj l : forall l', tonum l = tonum l' -> l = l'.
Proof. induction l as [|[|] l IH]; intros [|[|] l'] H; try discriminate; cbn [tonum] in H; auto; injection H as H; f_equal; auto. Qed.
Definition num_of {A} (e : A -> list bool) (x : A) : N := Npos (tonum (e x)).
Lemma num_of_inj {A} (e : A -> list bool) : pfree e -> forall x y, num_of e x = num_of e y -> x = y.
Proof.
  intros He x y H. unfold num_of in H. injection H as H. apply tonum_inj in H. destruct (He x y [] []) as [-> _]; auto. rewrite H. auto.
Qed.

(** ---------- the environment ---------- *)
Definition hbits (h : shdr) : list bool := encP encN (encP encN (encP encN encN)) (sh_num h, (sh_parent h, (sh_root h, sh_rest h))).
Lemma hbits_inj : pfree hbits.
Proof.
  intros a b s t H. unfold hbits in H. apply (encP_inj _ _ encN_pf (encP_inj _ _ encN_pf (encP_inj _ _ encN_pf encN_pf))) in H as [H ->].
  split; auto. destruct a, b; cbn in H. injection H as -> -> -> ->. auto.
Qed.
Definition abits (a : sacc) : list bool := encP encN (encP encN (encO encN)) (ac_nonce a, (ac_bal a, ac_code a)).
Lemma abits_inj : pfree abits.
Proof.
  intros a b s t H. unfold abits in H. apply (encP_inj _ _ encN_pf (encP_inj _ _ encN_pf (encO_inj _ encN_pf))) in H as [H ->].
  split; auto. destruct a, b; cbn in H. injection H as -> -> ->. auto.
Qed.
Definition sbits : sstate -> list bool := encL (encP encN (encP abits (encL (encP encN encN)))).
Lemma sbits_inj : pfree sbits.
Proof. apply encL_inj, encP_inj; [apply encN_pf|]. apply encP_inj; [apply abits_inj|]. apply encL_inj, encP_inj; apply encN_pf. Qed.
Definition xcode : list N -> N := num_of (encL encN).
Definition xnorm (st : sstate) : sstate := norm (mk_senv (fun _ => 0) (fun _ => []) (fun _ => None) (fun a => a) (fun _ => 0) xcode (fun _ => true) (fun _ => None) (fun _ => None) (fun _ _ => 0)) st.
(** the registry is account 1, whose slot 0 is the first block of the epoch; one worker with a fixed fee *)
Definition XE : senv := mk_senv (num_of hbits) (fun h => [sh_num h; sh_parent h; sh_root h; sh_rest h])
  (fun l => match l with [a; b; c; d] => Some (mk_shdr a b c d) | _ => None end)
  (fun a => N.lxor a 1) (fun st => num_of sbits (xnorm st)) xcode (fun c => len c <=? 10)
  (fun st => match bm_lookup 1 st with Some (_, ss) => bm_lookup 0 ss | None => None end)
  (fun st => Some (1, [Build_wentry (Static 7) 0]))
  (fun n h => num_of (encP encN encN) (n, h)).
Lemma XE_sound : senv_sound XE.
Proof.
  constructor; cbn [XE sv_hash sv_enc sv_dec sv_key sv_root sv_code sv_epoch sv_fees sv_fs].
  - apply num_of_inj, hbits_inj.
  - intros []; auto.
  - intros a b H. rewrite <- (N.lxor_0_r a), <- (N.lxor_0_r b), <- (N.lxor_nilpotent 1), <- !N.lxor_assoc, H. auto.
  - apply num_of_inj, encL_inj, encN_pf.
  - intros n h n' h' H. apply num_of_inj in H; [|apply encP_inj; apply encN_pf]. injection H as -> ->. auto.
  - intros x y _ _ H. apply num_of_inj in H; [|apply sbits_inj]. exact H.
  - intros x. f_equal. apply (norm_idem XE).
  - intros x. split; auto. unfold norm. rewrite vmap_lookup. destruct (bm_lookup 1 x) as [[a ss]|]; auto.
Qed.

(** ---------- a chain of four blocks: the epoch closes at block 3 ---------- *)
Definition reg (n : N) : bmap N := [(0, if n <? 3 then 1 else 4); (9, 5 + n)].
(** account 2 spells "no code" as the hash of the empty code *)
Definition XS (n : N) : sstate := [(1, (mk_sacc 1 0 (Some (xcode [7; 8])), reg n)); (2, (mk_sacc n 50 (Some (xcode [])), []))].
Fixpoint xh (n : nat) : shdr :=
  mk_shdr (N.of_nat n) (match n with O => 0 | S k => sv_hash XE (xh k) end) (sv_root XE (hashed XE (XS (N.of_nat n)))) 0.
Definition XC : schain := mk_chain (fun n => if n <=? 3 then Some (xh (N.to_nat n)) else None) XS.
Lemma xh_num n : sh_num (xh n) = N.of_nat n.
Proof. destruct n; auto. Qed.
Lemma xh_root n : sh_root (xh n) = sv_root XE (hashed XE (XS (N.of_nat n))).
Proof. destruct n; auto. Qed.
Lemma XS_wf n : wf_state (XS n).
Proof.
  split; [repeat constructor|]. assert (H : 5 + n <> 0) by lia.
  repeat constructor; cbn [snd fst reg bm_keys map]; auto; try (destruct (n <? 3); discriminate).
Qed.
Lemma XC_ok : chain_ok XE XC.
Proof.
  constructor; cbn [XC ch_hdr ch_state].
  - intros n h H. destruct (n <=? 3); [|discriminate]. injection H as <-. rewrite xh_num, N2Nat.id. auto.
  - intros n h H. destruct (N.leb_spec (n + 1) 3) as [Hl|]; [|discriminate]. injection H as <-. exists (xh (N.to_nat n)).
    destruct (N.leb_spec n 3); [|lia]. split; auto. replace (N.to_nat (n + 1)) with (S (N.to_nat n)) by lia. auto.
  - intros n h H. destruct (n <=? 3); [|discriminate]. injection H as <-. rewrite xh_root, N2Nat.id. auto.
  - apply XS_wf.
Qed.
Definition xhash (n : nat) : N := sv_hash XE (xh n).
(** the database at block 3: a zeroed slot, slots of an account that is gone, the code; and a view pinned a block later *)
Definition XV : sview := mk_view (map (fun e => (fst e, fst (snd e))) (XS 3)) [(1, 0, 4); (1, 5, 0); (1, 9, 8); (3, 2, 7)]
  (bm_of_list [(xcode [7; 8], [7; 8])]) (bm_of_list (map (fun n => (xhash n, N.of_nat n)) [0; 1; 2; 3]%nat)) (Some 3).
Definition XV4 : sview := mk_view (vw_accts XV) (vw_rows XV) (vw_codes XV) (vw_nums XV) (Some 4).
Lemma XV_shows : view_shows XV (ch_state XC 3).
Proof.
  split; [auto|]. split.
  - repeat constructor; unfold row_lt; cbn; lia.
  - repeat constructor.
Qed.
Lemma XV_codes : codes_for XE (vw_codes XV) (ch_state XC 3) /\ forall x cd, bm_lookup x (vw_codes XV) = Some cd -> sv_codeok XE cd = true.
Proof.
  split.
  - intros a acc ss h Hl Hc Hn. cbn [XC ch_state XS bm_lookup] in Hl. destruct (a =? 1).
    + injection Hl as <- <-. cbn [ac_code] in Hc. injection Hc as <-. exists [7; 8]. split; auto.
    + destruct (a =? 2); [|discriminate]. injection Hl as <- <-. cbn [ac_code] in Hc. injection Hc as <-. destruct Hn. auto.
  - intros x cd H. cbn [XV vw_codes bm_of_list fold_left bm_insert fst snd bm_lookup] in H. destruct (x =? _); [|discriminate]. injection H as <-. auto.
Qed.
Definition XG : sgen := mk_gen (xh 0) (mk_tabs (XS 0) (hashed XE (XS 0)) (bm_of_list [(xcode [7; 8], [7; 8])])).
Lemma XG_codes : bm_sorted (tb_codes (g_tabs XG)).
Proof. repeat constructor. Qed.
Definition XPACK : res (option (list srec * sstats)) := Eval vm_compute in export_once XE XC 3 (xhash 3) [XV4; XV].
Definition XRECS : list srec := Eval vm_compute in match XPACK with inl (Some (r, _)) => r | _ => [] end.
Lemma XPACK_eq : export_once XE XC 3 (xhash 3) [XV4; XV] = inl (Some (XRECS, mk_sstats 2 2 1)).
Proof. vm_compute. reflexivity. Qed.

(** ---------- the certified records: epoch 0 ends at block 1, the others at block 3; member 4 of four is faulty ---------- *)
Definition rbits (r : erec) : list bool :=
  encP encN (encP (encL encN) (encP (encL encN) (encP encN (encP encN (encP encN encN)))))
    (N.of_nat (er_epoch r), (er_com r, (er_next r, (er_parent r, (er_state r, (er_cnum r, er_chash r)))))).
Lemma rbits_inj : pfree rbits.
Proof.
  intros a b s t H. unfold rbits in H. apply encP_inj in H as [H ->];
    [|apply encN_pf|repeat (apply encP_inj; [apply encL_inj, encN_pf || apply encN_pf|]); apply encN_pf].
  split; auto. destruct a, b; cbn in H. injection H as H -> -> -> -> -> ->.
  apply Nat2N.inj in H as ->. auto.
Qed.
Definition xdig (r : erec) : N := num_of rbits r.
Definition xname (n : nat) : N := sv_fs XE (N.of_nat n) (xhash n).
Fixpoint xrec (e : nat) : erec :=
  match e with
  | O => mk_erec 0 [1; 2; 3; 4] [1; 2; 3; 4] DEFAULT_DIGEST (xname 1) 0 0
  | S e' => mk_erec e [1; 2; 3; 4] [1; 2; 3; 4] (xdig (xrec e')) (xname 3) (N.of_nat e) 0
  end.
Definition xsg (k d : N) : bool := N.eqb k 4 || existsb (fun e => N.eqb d (xdig (xrec e))) (seq 0 2).
Definition XEE : eenv := mk_eenv xdig (fun l => match l with [] => None | _ => Some 0 end) (fun d ks _ => forallb (fun k => xsg k d) ks).
Definition xsigned (k d : N) : Prop := xsg k d = true.
Lemma XEE_sound : eenv_sound XEE xsigned.
Proof.
  constructor; [apply num_of_inj, rbits_inj|]. intros d ks a H k Hk. cbn [XEE ee_ver] in H. rewrite forallb_forall in H. apply H; auto.
Qed.
Lemma xrec_epoch e : er_epoch (xrec e) = e.
Proof. destruct e; auto. Qed.
Lemma XT_true : true_chain XEE xsigned [4] [1; 2; 3; 4] xrec.
Proof.
  constructor.
  - apply xrec_epoch.
  - intros k r Hk Hs. unfold xsigned, xsg in Hs. destruct (N.eqb_spec k 4) as [->|_]; [exfalso; apply Hk; cbn; auto|].
    cbn [orb] in Hs. apply existsb_exists in Hs as (e & _ & He). apply N.eqb_eq in He.
    apply (num_of_inj _ rbits_inj) in He. subst r. rewrite xrec_epoch. auto.
  - split; [repeat (constructor; [simpl; intuition discriminate|]); constructor|vm_compute; lia].
  - intros e. assert (Hn : er_next (xrec e) = [1; 2; 3; 4]) by (destruct e; auto). rewrite Hn.
    split; [repeat (constructor; [simpl; intuition discriminate|]); constructor|vm_compute; lia].
Qed.
Lemma XT_certifies : certifies XE XC xrec.
Proof. intros [|e]; [exists (xh 1)|exists (xh 3)]; split; reflexivity. Qed.
Definition xcert (e : nat) (bits : list nat) : ecert := mk_ecert (xdig (xrec e)) 0 bits.
(** epoch 0 signed by members 1, 2, 3; epoch 1 by 1, 3 and the faulty one *)
Definition XB : bundle := mk_bundle (map Some XRECS) true (Some [xrec 0; xrec 1]) (Some [xcert 1 [0; 2; 3]%nat; xcert 0 [0; 1; 2]%nat]).
Definition no_dir : sdir := mk_sdir None None None None.
(** a datadir in which the node has only initialised genesis *)
Definition genesis_dir (E : senv) (g : sgen) : sdir :=
  mk_sdir None (Some (mk_sdb (g_tabs g) (bm_insert (sv_hash E (g_hdr g)) 0 []) None None)) (Some [(g_hdr g, sv_hash E (g_hdr g))]) None.
Lemma XB_loads : exists tr, load_state XE XEE [1; 2; 3; 4] XG no_dir XB true = (tr, inl (xname 3, sh_root (xh 3))) /\ length tr = 7%nat.
Proof. eexists. split; [vm_compute; reflexivity|]. reflexivity. Qed.
