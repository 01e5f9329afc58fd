(* Specification vocabulary for the ordering properties (C08-C12, C15, C16). *)
From Verif Require Import Util Types CommitteeModel LeaderModel BullModel.
Local Open Scope N_scope.

(* The certified DAG all nodes draw from: committee members only, headers named by their digest, one header per
   author and round (C07), and from round 2 on every header references a quorum of distinct authors of the
   previous round (C28 with C05). *)
Record dag_ok (cm : committee) (G : header -> Prop) : Prop := {
  d_author : forall h, G h -> In (h_author h) (member_ids cm);
  d_inj : forall h1 h2, G h1 -> G h2 -> h_digest h1 = h_digest h2 -> h1 = h2;
  d_noeq : forall h1 h2, G h1 -> G h2 -> h_round h1 = h_round h2 -> h_author h1 = h_author h2 -> h1 = h2;
  d_quorum : forall h, G h -> 2 <= h_round h -> exists Q,
    NoDup (map h_author Q) /\ cm_quorum cm <= group_power cm (map h_author Q) /\
    forall p, In p Q -> G p /\ h_round p + 1 = h_round h /\ In (h_digest p) (h_parents h)
}.

(* a certificate store's answer at startup: certificates of the DAG above the gc round, causally complete *)
Definition store_ok (G : header -> Prop) (gc : N) (certs : list cert) : Prop :=
  (forall x, In x certs -> G (c_header x)) /\
  (forall x, In x certs -> gc + 1 < c_round x -> forall p, In p (c_parents x) ->
     exists y, In y certs /\ c_round y + 1 = c_round x /\ c_digest y = p).

(* round of the last commit of a chain of sub-dags *)
Definition chain_round (chain : list subdag) : N :=
  match rev chain with [] => 0 | d :: _ => sd_round d end.
(* the newest final scores are not out of the window the recovery reads *)
Definition final_in_window (chain : list subdag) : Prop :=
  find (fun d => sc_final (sd_scores d)) (firstn FINAL_WINDOW (rev chain)) =
  find (fun d => sc_final (sd_scores d)) (rev chain).

Section Reach.
Variable fsqrt : N -> N.
Variable choose : list authority -> N -> option authority.
Variable fold_seed : N -> N -> N -> N.
Variable legacy_rand : N -> N.
Variable epoch_root : N -> N.
Variable seed_active : N -> bool.
Variable cm : committee.
Variables gc_depth num_sub_dags pct : N.
Variable G : header -> Prop.

Let recover := recover fsqrt epoch_root cm gc_depth pct.
Let new_certificate := new_certificate fsqrt choose fold_seed legacy_rand seed_active cm gc_depth num_sub_dags pct.

(* [reach s chain]: some node of the epoch can be in consensus state [s] with committed chain [chain].  A node
   starts empty; it is fed certificates in any order; and a node may start from any prefix of the chain of any
   node (its own pack after a crash, or one it synced from peers). *)
Inductive reach : bstate -> list subdag -> Prop :=
| r_start certs s :
    store_ok G 0 certs -> recover [] certs = Some s -> reach s []
| r_cert s chain x s' ds :
    reach s chain -> G (c_header x) -> new_certificate s x = Ok (s', ds) -> reach s' (chain ++ ds)
| r_restart s chain k certs s' :
    reach s chain ->
    store_ok G (chain_round (firstn k chain) - gc_depth) certs ->
    final_in_window (firstn k chain) ->
    recover (firstn k chain) certs = Some s' -> reach s' (firstn k chain).
End Reach.

(* a causal path in a set of certificates, one round at a time *)
Inductive path (d : list cert) : cert -> cert -> Prop :=
| p_refl x : path d x x
| p_step x y z : In y d -> c_round y + 1 = c_round x -> In (c_digest y) (c_parents x) ->
                 path d y z -> path d x z.

(* The parameters of an epoch, the same on every node of the network. *)
Record setting := mkSetting {
  S_sqrt : N -> N;                                      (* integer square root of the schedule *)
  S_choose : list authority -> N -> option authority;   (* seeded choice of a good node *)
  S_fold : N -> N -> N -> N;                            (* one fold of the seed chain *)
  S_legacy : N -> N;                                    (* pre-fork randomness of an aggregate signature *)
  S_root : N -> N;                                      (* seed chain root of an epoch *)
  S_active : N -> bool;                                 (* is the epoch past the seed-signature fork *)
  S_cm : committee;
  S_depth : N;                                          (* gc depth (the node refuses more than 50) *)
  S_num : N;                                            (* sub-dags per schedule *)
  S_pct : N                                             (* bad node percentage *)
}.
(* a node of the network can be in state s with committed chain c *)
Definition node (S : setting) (G : header -> Prop) (s : bstate) (c : list subdag) : Prop :=
  reach (S_sqrt S) (S_choose S) (S_fold S) (S_legacy S) (S_root S) (S_active S) (S_cm S) (S_depth S) (S_num S) (S_pct S) G s c.
Definition feed (S : setting) (s : bstate) (x : cert) : result (bstate * list subdag) berr :=
  new_certificate (S_sqrt S) (S_choose S) (S_fold S) (S_legacy S) (S_active S) (S_cm S) (S_depth S) (S_num S) (S_pct S) s x.
Definition restart (S : setting) (c : list subdag) (certs : list cert) : option bstate :=
  recover (S_sqrt S) (S_root S) (S_cm S) (S_depth S) (S_pct S) c certs.

(* one header references another *)
Definition refers (h p : header) : Prop := h_round p + 1 = h_round h /\ In (h_digest p) (h_parents h).
(* causal path inside a set of headers *)
Inductive hpath (D : header -> Prop) : header -> header -> Prop :=
| hp_refl h : hpath D h h
| hp_step h p q : D p -> refers h p -> hpath D p q -> hpath D h q.

(* the schedule in force after a chain of commits: built from the newest commit whose scores are final *)
Definition schedule_after (S : setting) (c : list subdag) : option swap_table :=
  match find (fun d => sc_final (sd_scores d)) (rev c) with
  | None => Some table_default
  | Some d => table_new (S_sqrt S) (S_cm S) (sd_round d) (sd_scores d) (S_pct S)
  end.
(* h is the leader its round has in schedule t *)
Definition scheduled (S : setting) (t : swap_table) (h : header) : Prop :=
  exists a, leader (S_cm S) (S_choose S) t (h_round h) = Some a /\ a_id a = h_author h.

(* the seed chain: fold of (leader round, seed signature) over the commits *)
Definition seed_chain (S : setting) (c : list subdag) : N :=
  fold_left (fun v d => S_fold S v (sd_round d) (h_seed (sd_leader d))) c (S_root S (cm_epoch (S_cm S))).

(* headers of the next round that name the leader of the previous commit *)
Definition credits (prev : subdag) (d : subdag) (a : N) : N :=
  N.of_nat (length (filter (fun h => (h_author h =? a) && (h_round h =? sd_round prev + 1) &&
                                     memN (h_digest (sd_leader prev)) (h_parents h)) (sd_headers d))).
