(** C63: a concrete history, and what the store's comments promise but the code does not keep. *)
From Verif Require Import Util KadModel KadSpec KadProofs KadRec KadProv KadHist Props_Kad.
Local Open Scope N_scope.

Definition idk (k : N) : N := k.
Definition cfg0 : kcfg := {| c_max_records := 2; c_max_value := 10; c_max_per_key := 2; c_max_keys := 2 |}.
Definition rec0 (k v : N) (e : option N) : krec := {| k_key := k; k_val := v; k_len := 3; k_pub := Some 1; k_exp := e |}.
Definition prov0 (k p : N) (e : option N) : kprov := {| p_key := k; p_peer := p; p_exp := e; p_addrs := [p] |}.
Definition empty_db : kdb := {| d_rec := []; d_prov := []; d_wrec := []; d_wprov := [] |}.
Definition loads0 (r : krec) : bool := negb (k_val r =? 7).

(** Two records fill the store; a third is refused while both are unexpired and accepted once one has expired; a restart
    drops the one that is no node record; two peers announce a key, the third is refused, and the node's own key is listed. *)
Definition hist0 : list event :=
  [ EAdd (prov0 9 9 None) None; ERestart; EAdd (prov0 4 3 None) (Some MaxProvidedKeys); EAdd (prov0 4 2 None) None; EAdd (prov0 4 1 (Some 20)) None;
    EPut (rec0 3 7 None) None; EPut (rec0 3 0 None) (Some MaxRecords); EPut (rec0 2 0 (Some 5)) None; EPut (rec0 1 0 None) None ].

Theorem C63_example :
  exists d s, reach idk cfg0 loads0 Primary 9 9 hist0 6 d s /\ careful hist0 /\
    get idk d s 6 1 = Some (Some (rec0 1 0 None)) /\ get idk d s 6 2 = Some None /\ get idk d s 6 3 = Some None /\
    map p_peer (providers idk d s 6 4) = [1; 2] /\ map p_peer (providers idk d s 20 4) = [2] /\ provided idk d s 6 = [prov0 9 9 None].
Proof.
  assert (R : reach idk cfg0 loads0 Primary 9 9 [] 0 empty_db (new_store empty_db Primary 9 9)) by (apply r_init; reflexivity).
  eapply (r_put _ _ _ _ _ _ _ _ _ _ (rec0 1 0 None)) in R; [|vm_compute; reflexivity].
  eapply (r_put _ _ _ _ _ _ _ _ _ _ (rec0 2 0 (Some 5))) in R; [|vm_compute; reflexivity].
  eapply (r_put _ _ _ _ _ _ _ _ _ _ (rec0 3 0 None)) in R; [|vm_compute; reflexivity].
  eapply (r_wait _ _ _ _ _ _ _ _ _ _ 6) in R; [|lia].
  eapply (r_put _ _ _ _ _ _ _ _ _ _ (rec0 3 7 None)) in R; [|vm_compute; reflexivity].
  eapply (r_add _ _ _ _ _ _ _ _ _ _ (prov0 4 1 (Some 20))) in R; [|vm_compute; reflexivity].
  eapply (r_add _ _ _ _ _ _ _ _ _ _ (prov0 4 2 None)) in R; [|vm_compute; reflexivity].
  eapply (r_add _ _ _ _ _ _ _ _ _ _ (prov0 4 3 None)) in R; [|vm_compute; reflexivity].
  eapply r_restart in R; [|vm_compute; reflexivity].
  eapply (r_add _ _ _ _ _ _ _ _ _ _ (prov0 9 9 None)) in R; [|vm_compute; reflexivity].
  eexists _, _. split; [exact R|]. split; [exact I|]. vm_compute. repeat split; reflexivity.
Qed.

(** "Should be safe since [remove] saturates": the counter still goes down for a record that is not there, as libp2p's own
    republication job does after an eviction, and then the cap does not hold at all: any number of records can be stored. *)
Definition rk (k : N) : krec := {| k_key := k; k_val := 0; k_len := 0; k_pub := None; k_exp := None |}.
Lemma idk_inj a b : idk a = idk b -> a = b.
Proof. auto. Qed.
Theorem C63_cap_refuted cfg : 1 <= c_max_records cfg -> 1 <= c_max_value cfg -> forall n : nat,
  exists h d s l, reach idk cfg loads0 Primary 0 0 h 0 d s /\ records d s 0 = Some l /\ (n <= length l)%nat.
Proof.
  intros M V n.
  assert (P : exists h d s, reach idk cfg loads0 Primary 0 0 h 0 d s /\ s_nrec s = 0 /\ forall k, last_rec loads0 h k = if (1 <=? k) && (k <=? N.of_nat n) then Some (rk k) else None).
  { induction n as [|n (h & d & s & R & Z & L)].
    - exists [], empty_db, (new_store empty_db Primary 0 0). split; [apply r_init; reflexivity|]. split; [reflexivity|].
      intros k. cbn [last_rec]. destruct (N.leb_spec 1 k), (N.leb_spec k (N.of_nat 0)); try reflexivity. lia.
    - destruct (reach_inv _ _ _ _ _ _ idk_inj _ _ _ _ R) as [[Rk Rn Rl Rs Ry RL Rle Req] _].
      set (r := rk (N.of_nat (S n))).
      destruct (put_cases idk cfg d s 0 r) as (d' & s' & e & PP & Ek & _ & _ & _ & _ & C); [rewrite Rk; auto..|].
      assert (X : e = None /\ s_nrec s' <= 1).
      { cbv zeta in C. rewrite Z in C. cbn [r rk k_len] in C.
        destruct C as [(A & B & D & F)|[(A & B & C & D & F)|[(A & B & C & D & F & G)|[(A & B & C & D & F & G & G1)|(A & B & C & D & F & G & G1)]]]]; lia || (split; [auto|lia]). }
      destruct X as [-> Hn]. pose proof (r_put _ _ _ _ _ _ _ _ _ _ _ _ _ _ R PP) as R1.
      assert (L1 : forall k, last_rec loads0 (EPut r None :: h) k = if (1 <=? k) && (k <=? N.of_nat (S n)) then Some (rk k) else None).
      { intros k. cbn [last_rec r rk k_key]. rewrite L. destruct (N.eqb_spec (N.of_nat (S n)) k) as [<-|Nk].
        - destruct (N.leb_spec 1 (N.of_nat (S n))); [|lia]. rewrite N.leb_refl. reflexivity.
        - destruct (N.leb_spec 1 k); cbn [andb]; auto. destruct (N.leb_spec k (N.of_nat n)), (N.leb_spec k (N.of_nat (S n))); auto; lia. }
      destruct (remove idk d' s' 0) as [d2 s2] eqn:RM.
      exists (ERemove 0 false :: EPut r None :: h), d2, s2. split; [|split].
      + eapply r_remove; eauto. split; [discriminate|]. intros [x X].
        rewrite (C63_get_exact idk cfg loads0 Primary 0 0 idk_inj _ _ _ _ R1 0 0), L1 in X by lia. discriminate X.
      + unfold remove in RM. injection RM as _ <-. cbn [s_nrec set_nrec]. lia.
      + intros k. cbn [last_rec]. destruct (N.eqb_spec 0 k) as [<-|Nk]; [reflexivity|]. apply L1. }
  destruct P as (h & d & s & R & _ & L).
  destruct (C63_records_exact idk cfg loads0 Primary 0 0 idk_inj _ _ _ _ R 0) as (l & E & ND & I); [lia|].
  exists h, d, s, l. split; auto. split; auto.
  assert (K : (length (map (fun i => rk (N.of_nat (S i))) (seq 0 n)) <= length l)%nat); [|rewrite map_length, seq_length in K; exact K].
  apply NoDup_incl_length.
  - apply NoDup_map_intro; [apply seq_NoDup|]. intros a b _ _ X. injection X as X. lia.
  - intros x Hx. apply in_map_iff in Hx as [i [<- Hi]]. apply in_seq in Hi. apply I. rewrite L. cbn [rk k_key].
    destruct (N.leb_spec 1 (N.of_nat (S i))); [|lia]. destruct (N.leb_spec (N.of_nat (S i)) (N.of_nat n)); [|lia]. reflexivity.
Qed.

(** "Including its own self-provide": the refresh of a stored announcement always succeeds, but the first one need not: as many
    peers as the per-key cap can announce the node's own key first, and the node is then not listed, and not republished, as its provider. *)
Definition rp (p : N) : kprov := {| p_key := 0; p_peer := p; p_exp := None; p_addrs := [] |}.
Theorem C63_self_announce_refuted cfg : 1 <= c_max_per_key cfg -> 1 <= c_max_keys cfg ->
  exists h d s d' s', reach idk cfg loads0 Primary 0 0 h 0 d s /\ (forall p e, In (EAdd p e) h -> p_peer p <> 0) /\ add_provider idk cfg d s 0 (rp 0) = (d', s', Some MaxProvidedKeys) /\ provided idk d' s' 0 = [].
Proof.
  intros M K.
  assert (P : forall n : nat, N.of_nat n <= c_max_per_key cfg -> exists h d s, reach idk cfg loads0 Primary 0 0 h 0 d s /\ (forall p e, In (EAdd p e) h -> p_peer p <> 0) /\ forall k p, last_prov h k p = if (k =? 0) && ((1 <=? p) && (p <=? N.of_nat n)) then Some (rp p) else None).
  { induction n as [|n IH]; intros Ln.
    - exists [], empty_db, (new_store empty_db Primary 0 0). split; [apply r_init; reflexivity|]. split; [intros p e []|].
      intros k p. cbn [last_prov]. destruct (N.leb_spec 1 p), (N.leb_spec p (N.of_nat 0)); try lia; rewrite ?andb_false_r; reflexivity.
    - destruct IH as (h & d & s & R & NS & L); [lia|]. set (r := rp (N.of_nat (S n))).
      destruct (add_provider idk cfg d s 0 r) as [[d' s'] e] eqn:A.
      destruct (C63_announce_decided idk cfg loads0 Primary 0 0 idk_inj h 0 d s r d' s' e R A) as (_ & _ & D2 & D3 & _).
      destruct (C63_providers_exact idk cfg loads0 Primary 0 0 idk_inj h 0 d s R 0 0) as (PX & ND & _ & _); [lia|].
      cbn [r rp p_key] in D2, D3.
      assert (Len : (length (providers idk d s 0%N 0%N) <= n)%nat).
      { assert (Q : (length (map p_peer (providers idk d s 0%N 0%N)) <= length (map (fun i => N.of_nat (S i)) (seq 0 n)))%nat); [|rewrite !map_length, seq_length in Q; exact Q].
        apply NoDup_incl_length; auto. intros x Hx. apply in_map_iff in Hx as [y [<- Hy]]. apply PX in Hy. rewrite L in Hy. cbn [N.eqb andb] in Hy.
        destruct (N.leb_spec 1 (p_peer y)); [|discriminate Hy]. destruct (N.leb_spec (p_peer y) (N.of_nat n)); [|discriminate Hy].
        apply in_map_iff. exists (N.to_nat (p_peer y) - 1)%nat. rewrite in_seq. lia. }
      assert (E : e = None).
      { destruct e as [e|]; auto. exfalso. destruct (providers idk d s 0 0) as [|x l] eqn:Pv.
        - destruct D3 as (ks & _ & K1 & K2); [auto|lia|discriminate|]. destruct ks as [|k ks]; [cbn in K1; lia|].
          destruct (K2 k) as [Nk Pk]; [left; auto|]. destruct (providers idk d s 0 k) as [|y ys] eqn:Pk'; [congruence|].
          assert (In y (providers idk d s 0 k)) by (rewrite Pk'; left; auto).
          apply (proj1 (C63_providers_exact idk cfg loads0 Primary 0 0 idk_inj h 0 d s R 0 k (N.le_refl 0))) in H. rewrite L in H.
          destruct (N.eqb_spec k 0); [auto|discriminate H].
        - assert (X : Some e = None); [|discriminate X]. apply D2; [discriminate|]. lia. }
      subst e. exists (EAdd r None :: h), d', s'. split; [eapply r_add; eauto|]. split.
      + intros p e [X|X]; [injection X as <- <-; cbn [r rp p_peer]; lia|eauto].
      + intros k p. cbn [last_prov r rp p_key p_peer]. rewrite L, (N.eqb_sym 0 k). destruct (N.eqb_spec k 0); cbn [andb]; auto.
        destruct (N.eqb_spec (N.of_nat (S n)) p) as [<-|Np].
        * destruct (N.leb_spec 1 (N.of_nat (S n))); [|lia]. rewrite N.leb_refl. reflexivity.
        * destruct (N.leb_spec 1 p); cbn [andb]; auto. destruct (N.leb_spec p (N.of_nat n)), (N.leb_spec p (N.of_nat (S n))); auto; lia. }
  destruct (P (N.to_nat (c_max_per_key cfg))) as (h & d & s & R & NS & L); [lia|].
  destruct (add_provider idk cfg d s 0 (rp 0)) as [[d' s'] e] eqn:A.
  destruct (C63_announce_decided idk cfg loads0 Primary 0 0 idk_inj h 0 d s (rp 0) d' s' e R A) as (_ & _ & _ & _ & D4).
  destruct (C63_providers_exact idk cfg loads0 Primary 0 0 idk_inj h 0 d s R 0 0) as (PX & ND & _ & _); [lia|]. cbn [rp p_key p_peer] in D4.
  assert (Len : (N.to_nat (c_max_per_key cfg) <= length (providers idk d s 0%N 0%N))%nat).
  { assert (Q : (length (map (fun i => rp (N.of_nat (S i))) (seq 0 (N.to_nat (c_max_per_key cfg)))) <= length (providers idk d s 0%N 0%N))%nat); [|rewrite map_length, seq_length in Q; exact Q].
    apply NoDup_incl_length.
    - apply NoDup_map_intro; [apply seq_NoDup|]. intros a b _ _ X. injection X as X. lia.
    - intros x Hx. apply in_map_iff in Hx as [i [<- Hi]]. apply in_seq in Hi. apply PX. rewrite L. cbn [rp p_peer N.eqb andb].
      destruct (N.leb_spec 1 (N.of_nat (S i))); [|lia]. destruct (N.leb_spec (N.of_nat (S i)) (N.of_nat (N.to_nat (c_max_per_key cfg)))); [|lia]. reflexivity. }
  assert (E : e = Some MaxProvidedKeys).
  { apply D4; [|rewrite L; reflexivity|lia]. destruct (providers idk d s 0 0); [cbn in Len; lia|discriminate]. }
  subst e. exists h, d, s, d', s'. split; auto. split; auto. split; auto.
  rewrite (C63_provided_exact idk cfg loads0 Primary 0 0 idk_inj _ 0 d' s' (r_add _ _ _ _ _ _ _ _ _ _ _ _ _ _ R A)) by lia.
  cbn [last_prov]. rewrite L. reflexivity.
Qed.

(** "The tolerant start-up load the records table already gets": a record row that does not decode stops every start, at any
    later time too, since nothing removes it. *)
Theorem C63_tolerant_records_refuted loads : exists d, bm_sorted (recs d Primary) /\ bm_lookup 2 (recs d Primary) = Some (Some (rec0 2 0 None)) /\ forall node local now, start idk loads d Primary node local now = None.
Proof.
  exists {| d_rec := [(1, None); (2, Some (rec0 2 0 None))]; d_prov := []; d_wrec := []; d_wprov := [] |}. split; [|split].
  - repeat constructor.
  - reflexivity.
  - intros node local now. apply C63_start_tolerates; [repeat constructor|constructor|]. exists 1. left. reflexivity.
Qed.

(** "Prevents replay attacks": once the newest record of a key has expired, an older one of the same peer is accepted again. *)
Definition valid0 (r : krec) : bool := true.
Definition stamp0 (r : krec) : option N := Some (k_val r).
Theorem C63_replay_refuted : exists d1 s1 d2 s2,
  put_request idk cfg0 valid0 stamp0 empty_db (new_store empty_db Primary 9 9) 0 (fun _ => false) 5 (rec0 1 8 (Some 10)) = Some (d1, s1, false, None) /\ put_request idk cfg0 valid0 stamp0 d1 s1 9 (fun _ => false) 5 (rec0 1 6 (Some 30)) = Some (d1, s1, false, None) /\ put_request idk cfg0 valid0 stamp0 d1 s1 10 (fun _ => false) 5 (rec0 1 6 (Some 30)) = Some (d2, s2, false, None) /\ get idk d1 s1 9 1 = Some (Some (rec0 1 8 (Some 10))) /\ get idk d2 s2 10 1 = Some (Some (rec0 1 6 (Some 30))).
Proof. eexists _, _, _, _. repeat split; vm_compute; reflexivity. Qed.

(** The networks of two workers have protocols of their own but one store: a record of one is served, replaced and removed by the other. *)
Theorem C63_workers_share_refuted : exists d s0 s1 d1 s1' d2 s0' d3 s1'',
  s0 = new_store d (Worker 0) 9 9 /\ s1 = new_store d (Worker 1) 9 9 /\ put idk cfg0 d s1 0 (rec0 1 5 None) = Some (d1, s1', None) /\ get idk d1 s0 0 1 = Some (Some (rec0 1 5 None)) /\ put idk cfg0 d1 s0 0 (rec0 1 6 None) = Some (d2, s0', None) /\ get idk d2 s1' 0 1 = Some (Some (rec0 1 6 None)) /\ remove idk d2 s1' 1 = (d3, s1'') /\ get idk d3 s0' 0 1 = Some None.
Proof.
  exists empty_db. eexists _, _, _, _, _, _, _, _. repeat split; vm_compute; reflexivity.
Qed.
