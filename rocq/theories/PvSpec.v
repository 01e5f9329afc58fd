(** What the problems of a pack file are, by positions in the file: [recs] is the record sequence
    after the leading metadata record. *)
From Verif Require Import Util OutModel OutSpec ImpModel PvModel.
Local Open Scope N_scope.

Section S.
Variable bd : N -> N.
Variable hd : N -> subdag -> N -> N.

Definition no_header (l : list rec) : Prop := forall h, ~ In (RHeader h) l.
Definition is_header (r : rec) : bool := match r with RHeader _ => true | _ => false end.
Definition is_batch (r : rec) : bool := match r with RBatch _ => true | _ => false end.

(** In a file [a ++ RHeader h :: b]: [g] is a stretch of records of the header's group.  Version 0:
    the group stands before its header, back to the header before.  Version 1: after it, up to the
    next header; for the first header also what stands before it. *)
Definition group_seq (ver : N) (a b g : list rec) : Prop :=
  if ver =? 0 then no_header g /\ exists a1, a = a1 ++ g
  else exists b1 b2, b = b1 ++ b2 /\ no_header b1 /\ (g = b1 \/ (no_header a /\ g = a ++ b1)).
(** Digest [d] is in the header's group. *)
Definition grouped (ver : N) (a b : list rec) (d : N) : Prop :=
  exists g x, group_seq ver a b g /\ In (RBatch x) g /\ bd x = d.
(** Some batch of the group is followed by one with a digest that is not larger. *)
Definition disordered (ver : N) (a b : list rec) : Prop :=
  exists g g1 x g2 y g3, group_seq ver a b g /\ g = g1 ++ RBatch x :: g2 ++ RBatch y :: g3 /\ bd y <= bd x.

(** What the parent hash of the header after [a] is compared with: the digest of the header before
    it, or, for the first one, the anchor. *)
Definition expected_parent (anchor : option N) (a : list rec) (p : N) : Prop :=
  (exists a1 g a2, a = a1 ++ RHeader g :: a2 /\ no_header a2 /\ p = digest_of hd g) \/
  (no_header a /\ anchor = Some p).

(** The problems of the file. *)
Definition problem (ver epoch : N) (prev : option erec) (m : emeta) (recs : list rec) (x : issue) : Prop :=
  match x with
  | NonSequential e f =>
      exists a h b, recs = a ++ RHeader h :: b /\ ch_num h = f /\
        e = m_start m + N.of_nat (length (filter is_header a)) /\ e <> f
  | ChainBreak n e f =>
      exists a h b, recs = a ++ RHeader h :: b /\ ch_num h = n /\ ch_parent h = f /\
        expected_parent (if epoch =? 0 then None else option_map er_chash prev) a e /\ e <> f
  | MissingBatch n d c =>
      (exists a h b, recs = a ++ RHeader h :: b /\ ch_num h = n /\ In d (named (ch_sub h)) /\ ~ grouped ver a b d) /\
      match c with
      | Absent => ~ (exists x, In (RBatch x) recs /\ bd x = d)
      | Misordered => exists x, In (RBatch x) recs /\ bd x = d
      end
  | ExtraBatch n d =>
      exists a h b, recs = a ++ RHeader h :: b /\ ch_num h = n /\ grouped ver a b d /\ ~ In d (named (ch_sub h))
  | UnsortedBatches n =>
      ver <> 0 /\ exists a h b, recs = a ++ RHeader h :: b /\ ch_num h = n /\
        (forall d, In d (named (ch_sub h)) <-> grouped ver a b d) /\ disordered ver a b
  | MetaMismatch =>
      m_epoch m <> epoch \/ (exists p, prev = Some p /\ verify_epoch_meta epoch p m = false) \/
      exists y, In (RMeta y) recs
  end.
End S.

(** What the importer additionally insists on, for a file the validator has no problem with: every
    sub-dag has a leader of the epoch, the committee knows every author, no stretch between two
    headers holds more batches than the committee could have produced, no number beyond the one asked for; in version 1 the first
    record after the metadata is not a batch. *)
Record importable (idof : N -> N) (per_auth : nat) (ver : N) (m : emeta) (final : N) (recs : list rec) : Prop := {
  i_leader : forall h, In (RHeader h) recs -> sd_hdrs (ch_sub h) <> [];
  i_epoch : forall h, In (RHeader h) recs -> sd_epoch (ch_sub h) = m_epoch m;
  i_authors : forall h oh, In (RHeader h) recs -> named (ch_sub h) <> [] -> In oh (sd_hdrs (ch_sub h)) ->
                addr_of idof m (oh_author oh) <> None;
  i_cap : forall a g b, recs = a ++ g ++ b -> no_header g -> (length (filter is_batch g) <= cap_of per_auth m)%nat;
  i_final : forall h, In (RHeader h) recs -> ch_num h <= final;
  i_first : ver <> 0 -> forall b t, recs <> RBatch b :: t }.

(** The headers of the file carry consecutive numbers from [n] on. *)
Definition numbered (n : N) (l : list rec) : Prop :=
  forall a h b, l = a ++ RHeader h :: b -> ch_num h = n + N.of_nat (length (filter is_header a)).
