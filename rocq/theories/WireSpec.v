(** Well-formed values: what the Rust types guarantee. *)
From Verif Require Import Util WireModel.
Local Open Scope N_scope.

Definition byte (b : N) : Prop := b < 256.
Definition arr (k : nat) (b : bytes) : Prop := length b = k /\ Forall byte b.
Definition buf (b : bytes) : Prop := N.of_nat (length b) < 2 ^ 31 /\ Forall byte b.
Definition u16 (n : N) : Prop := n < 2 ^ 16.
Definition u32 (n : N) : Prop := n < 2 ^ 32.
Definition u64 (n : N) : Prop := n < 2 ^ 64.
Definition fits {A} (l : list A) : Prop := N.of_nat (length l) < 2 ^ 31.
Definition ordered (l : list bytes) : Prop := StronglySorted (fun a b => blt a b = true) l.

Definition header_wf (h : header) : Prop :=
  arr 32 (w_author h) /\ u32 (w_round h) /\ u32 (w_epoch h) /\ u64 (w_created h) /\
  fits (w_payload h) /\ Forall (fun p => arr 32 (fst p) /\ u16 (snd p)) (w_payload h) /\ NoDup (map fst (w_payload h)) /\
  fits (w_parents h) /\ Forall (arr 32) (w_parents h) /\ ordered (w_parents h) /\
  u64 (w_enum h) /\ arr 32 (w_ehash h) /\ arr 48 (w_seed h).
(** A header as everyone else sees it: outside the fork the seed signature is not part of it
    (header.rs 203-210 [seed_signature]). *)
Definition visible (active : N -> bool) (h : header) : header :=
  if active (w_epoch h) then h
  else {| w_author := w_author h; w_round := w_round h; w_epoch := w_epoch h; w_created := w_created h; w_payload := w_payload h;
          w_parents := w_parents h; w_enum := w_enum h; w_ehash := w_ehash h; w_seed := zero_sig |}.

Definition batch_wf (b : batch) : Prop :=
  fits (b_txs b) /\ Forall buf (b_txs b) /\ u32 (b_epoch b) /\ arr 20 (b_benef b) /\ u64 (b_fee b) /\ u16 (b_worker b).
Definition erec_wf (r : erec) : Prop :=
  u32 (r_epoch r) /\ fits (r_comm r) /\ Forall (arr 96) (r_comm r) /\ fits (r_next r) /\ Forall (arr 96) (r_next r) /\
  arr 32 (r_parent r) /\ u64 (r_snum r) /\ arr 32 (r_shash r) /\ u64 (r_cnum r) /\ arr 32 (r_chash r).
Definition sdag_wf (s : sdag) : Prop :=
  Forall (arr 32) (s_heads s) /\ fits (s_scores s) /\ Forall (fun p => arr 32 (fst p) /\ u64 (snd p)) (s_scores s) /\
  ordered (map fst (s_scores s)) /\ u64 (s_ts s) /\ arr 32 (s_rand s).
Definition node_wf (n : node) : Prop :=
  buf (n_key n) /\ fits (n_addrs n) /\ Forall buf (n_addrs n) /\ u64 (n_ts n) /\
  match n_rpc n with None => True | Some (h, w) => buf h /\ match w with None => True | Some u => buf u end end.
(** Network keys are ed25519 keys (keys.rs 346-349): 36 bytes of protobuf. *)
Definition signed_wf (m : signed) : Prop :=
  match m with
  | SVote h => header_wf h
  | SResult e r n x => u32 e /\ u32 r /\ u64 n /\ arr 32 x
  | SEpoch r => erec_wf r
  | SSeed e r p => u32 e /\ u32 r /\ arr 32 p
  | SPossession k a => arr 96 k /\ arr 20 a
  | SNode n => node_wf n /\ arr 36 (n_key n)
  | SOldNode n => node_wf n /\ arr 36 (n_key n) /\ n_rpc n = None
  | SNetKey _ => True
  end.

(** What a signed message says: a vote says only what everybody can see of the header. *)
Definition content (active : N -> bool) (m : signed) : signed :=
  match m with SVote h => SVote (visible active h) | _ => m end.
(** The bytes hashed before signing, if any. *)
Definition hashed (active : N -> bool) (m : signed) : bytes :=
  match m with
  | SVote h => put_header active h
  | SResult e r n x => result_preimage e r n x
  | SEpoch r => put_erec r
  | _ => []
  end.

(** A hash that never fails to be a digest; two particular inputs it confuses. *)
Definition hash32 (H : bytes -> bytes) : Prop := forall b, arr 32 (H b).
Definition collides (H : bytes -> bytes) (a b : bytes) : Prop := a <> b /\ H a = H b.

(** The chain of consensus headers over a history of sub-dags, newest first (block.rs 62-80: parent
    digest, sub-dag digest, number). *)
Fixpoint chain_digest (H : bytes -> bytes) (g : bytes) (l : list sdag) : bytes :=
  match l with
  | [] => g
  | s :: older => H (chead_preimage (chain_digest H g older) (H (sdag_preimage s)) (N.of_nat (S (length older))))
  end.
(** Everything hashed along the way. *)
Fixpoint chain_hashed (H : bytes -> bytes) (g : bytes) (l : list sdag) : list bytes :=
  match l with
  | [] => []
  | s :: older => chead_preimage (chain_digest H g older) (H (sdag_preimage s)) (N.of_nat (S (length older))) ::
                  sdag_preimage s :: chain_hashed H g older
  end.
(** The committees of two histories have the same sizes at the same heights. *)
Definition same_sizes (l l' : list sdag) : Prop :=
  forall i s s', nth_error (rev l) i = Some s -> nth_error (rev l') i = Some s' -> length (s_scores s) = length (s_scores s').
