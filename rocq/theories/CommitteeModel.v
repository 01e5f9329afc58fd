(* Model of crates/types/src/committee.rs *)
From Verif Require Import Util Types.
Local Open Scope N_scope.

(* committee.rs 130-176 `Authority`; `a_id` is the hash of the key (159-164), computed once here. *)
Record authority := mkAuthority { a_key : N; a_id : N; a_addr : N }.

(* committee.rs 200-219 `CommitteeInner` (bootstrap servers dropped: not used by consensus).
   Both BTreeMaps are sorted association lists. *)
Record committee := mkCommittee {
  cm_epoch : N;
  cm_auths : bmap authority;      (* by BLS public key *)
  cm_by_id : bmap authority;      (* by authority identifier *)
  cm_quorum : N;
  cm_validity : N
}.

Definition EQUAL_VOTING_POWER : N := 1.   (* committee.rs 25 *)

(* committee.rs 261-263 *)
Definition total_voting_power_of (auths : bmap authority) : N := N.of_nat (length auths).
(* committee.rs 247-252 (u64 arithmetic: 2*len cannot overflow for an in-memory map) *)
Definition calculate_quorum_threshold (auths : bmap authority) : N :=
  2 * total_voting_power_of auths / 3 + 1.
(* committee.rs 254-259: div_ceil(3), or 1 when that is zero *)
Definition calculate_validity_threshold (auths : bmap authority) : N :=
  let v := (total_voting_power_of auths + 2) / 3 in if v =? 0 then 1 else v.
(* committee.rs 686-688 free function *)
Definition quorum_threshold_n (n : N) : N := 2 * n / 3 + 1.

Section Build.
Variable idof : N -> N.   (* hash of the public key bytes: committee.rs 159-164 *)

(* committee.rs 149-151, 663-666 `Authority::new`, `CommitteeBuilder::add_authority` *)
Definition add_authority (m : bmap authority) (e : N * N) : bmap authority :=
  bm_insert (fst e) {| a_key := fst e; a_id := idof (fst e); a_addr := snd e |} m.

(* committee.rs 232-245 `load`, 418-440 `new`, 679-681 `build`.
   None = one of the assertions fires: fewer than two members, or two keys with one identifier. *)
Definition committee_new (auths : bmap authority) (epoch : N) : option committee :=
  let by_id := bm_of_list (map (fun kv => (a_id (snd kv), snd kv)) auths) in
  if (1 <? N.of_nat (length by_id)) && (N.of_nat (length by_id) =? N.of_nat (length auths)) then
    Some {| cm_epoch := epoch; cm_auths := auths; cm_by_id := by_id;
            cm_quorum := calculate_quorum_threshold auths;
            cm_validity := calculate_validity_threshold auths |}
  else None.

(* committee.rs 644-681: builder fed with (key, address) entries *)
Definition build (epoch : N) (entries : list (N * N)) : option committee :=
  committee_new (fold_left add_authority entries []) epoch.
End Build.

Definition cm_size (c : committee) : N := N.of_nat (length (cm_auths c)).            (* 502-504 *)
Definition cm_authority (c : committee) (id : N) : option authority := bm_lookup id (cm_by_id c). (* 482-484 *)
Definition is_authority (c : committee) (id : N) : bool :=                             (* 496-499 *)
  match bm_lookup id (cm_by_id c) with Some _ => true | None => false end.
Definition voting_power_by_id (c : committee) (id : N) : N :=                          (* 511-513 *)
  match bm_lookup id (cm_by_id c) with Some _ => EQUAL_VOTING_POWER | None => 0 end.
Definition voting_power (c : committee) (key : N) : N :=                               (* 507-509 *)
  match bm_lookup key (cm_auths c) with Some _ => EQUAL_VOTING_POWER | None => 0 end.
Definition cm_authorities (c : committee) : list authority := map snd (cm_by_id c).    (* 490-493 *)
Definition bls_keys (c : committee) : list N := bm_keys (cm_auths c).                  (* 577-579 *)
Definition reached_quorum (c : committee) (p : N) : bool := cm_quorum c <=? p.         (* 526-528 *)
Definition reached_validity (c : committee) (p : N) : bool := cm_validity c <=? p.     (* 531-533 *)
Definition number_of_workers (c : committee) : N := 1.                                 (* 605-607 *)

(* Specification vocabulary: the member identifiers, and the power of a group *)
Definition member_ids (c : committee) : list N := map a_id (cm_authorities c).
Definition group_power (c : committee) (g : list N) : N := sumN (map (voting_power_by_id c) g).
Definition built (c : committee) : Prop := exists idof epoch entries, build idof epoch entries = Some c.
Definition max_faulty (c : committee) : N := (cm_size c - 1) / 3.
