(** What a follower must deliver: the true chain, in order. *)
From Verif Require Import Util OutModel OutSpec FolModel.
Local Open Scope nat_scope.

Section S.
Variable bd : N -> N.
Variable hd : N -> subdag -> N -> N.
Variable addr : N -> N -> option N.
Variable H0 : chdr.
Variable T : N -> output.                  (* the agreed chain, by number *)

Definition epoch_of (n : N) : N := sd_epoch (out_sub (T n)).
Definition digest_at (n : N) : N := digest_of hd (header_of (T n)).

(** The chain starts at the default header, each output links to the one before and holds the batches
    its headers name, paid to the addresses of its epoch's committee; epochs do not go back. *)
Definition chain : Prop :=
  header_of (T 0) = H0 /\
  (forall n, out_num (T n) = n) /\
  (forall n, out_parent (T (n + 1)) = digest_at n) /\
  (forall n, output_for bd (addr (epoch_of n)) (out_sub (T n)) (out_parent (T n)) (out_num (T n)) (T n)) /\
  (forall n, (epoch_of n <= epoch_of (n + 1))%N).

(** Numbers [a], [a+1], ... ([k] of them). *)
Definition from_on (a : N) (k : nat) : list output := map (fun i => T (a + N.of_nat i)%N) (seq 0 k).

Definition true_output (o : output) : Prop := o = T (out_num o).

(** No collision between a peer's answer and the chain; decoding with the committee of epoch [c]
    gives authors of the chain no other address than their epoch's committee does. *)
Definition honest_digests (recs : list rec) : Prop :=
  (forall h n, In (RHeader h) recs -> digest_of hd h = digest_at n -> h = header_of (T n)) /\
  (forall b n b', In (RBatch b) recs -> In b' (flat_map cb_batches (out_batches (T n))) -> bd b = bd b' -> b = b').
Definition same_addresses (c : N) : Prop :=
  forall n h a, In h (sd_hdrs (out_sub (T n))) -> addr c (oh_author h) = Some a -> addr (epoch_of n) (oh_author h) = Some a.

(** A pack of epoch [e] from number [st] on that is part of the chain and reaches at least [l]; a
    sealed (imported) one holds its whole epoch. *)
Definition true_pack (e st : N) (os : list output) (sealed : bool) (l : N) : Prop :=
  (1 <= st <= l + 1)%N /\ (l + 1 <= st + N.of_nat (length os))%N /\
  (forall i o, nth_error os i = Some o -> o = T (st + N.of_nat i)%N /\ sd_epoch (out_sub o) = e) /\
  (e <= epoch_of st)%N /\
  (sealed = true -> (e < epoch_of (st + N.of_nat (length os)))%N).

(** The environment: tips come from trusted gossip (C27), packs from verified imports (C43), the
    executed header is saved (C41), a crash leaves a slot value the pack covers (C41, C42). *)
Definition good_event (s : fol) (e : ev) : Prop :=
  match e with
  | Gossip _ num hash => hash = digest_at num
  | Walk _ _ (Some (c, recs)) => honest_digests recs /\ same_addresses c
  | StreamEnd _ (Some os) | Import os => Forall true_output os
  | Start e pk from =>
      (from <= f_latest s)%N /\
      match pk with
      | None => e = f_epoch s
      | Some (st, os, sealed) => true_pack e st os sealed (f_latest s)
      end
  | Crash m l => (l <= f_latest s)%N /\ (f_start s <= l + 1)%N /\ (l + 1 <= f_start s + N.of_nat (Nat.min m (length (f_log s))))%N /\
                 (f_sealed s = true -> length (f_log s) <= m)
  | _ => True
  end.
(** Nothing was lost in the channel and execution confirmed the base block. *)
Definition calm (e : ev) : Prop := match e with Lag | Drain _ false => False | _ => True end.
Definition no_crash (e : ev) : Prop := match e with Crash _ _ => False | _ => True end.
End S.

(** Good histories of one node. *)
Section H.
Variable bd : N -> N.
Variable hd : N -> subdag -> N -> N.
Variable addr : N -> N -> option N.
Variable cap : N -> nat.
Variable H0 : chdr.
Variable T : N -> output.
Fixpoint good_history (s : fol) (es : list ev) : Prop :=
  match es with
  | [] => True
  | e :: t => good_event bd hd addr T s e /\ good_history (fst (step bd hd addr cap H0 s e)) t
  end.

(** A node that has just booted: an epoch pack and a slot value on the chain, nothing else. *)
Definition booted (s : fol) : Prop :=
  f_cache s = [] /\ f_walks s = [] /\ f_stage s = [] /\ f_tip s = None /\ f_gap s = None /\ f_strm s = None /\
  f_chan s = [] /\ f_err s = false /\
  Forall (true_output T) (f_static s) /\ true_pack T (f_epoch s) (f_start s) (f_log s) (f_sealed s) (f_latest s).
End H.
