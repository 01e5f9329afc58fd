(* Shared data types of the consensus layer. *)
From Verif Require Import Util.
Local Open Scope N_scope.

(* crates/types/src/primary/header.rs 19-60 `HeaderInner`.
   Authority identifiers, keys, digests and signatures are numbers (fixed-width byte strings read as
   integers: only equality and the byte order matter). `parents` is a BTreeSet: a list the code only
   ever produces in increasing order. `h_digest` is the cached digest (set on creation and decode, never
   serialised); that equal digests mean equal headers is a hypothesis of the theorems that need it. *)
Record header := mkHeader {
  h_author : N;
  h_round : N;
  h_epoch : N;
  h_created : N;
  h_payload : list (N * N);      (* batch digest -> worker id, insertion order *)
  h_parents : list N;
  h_exec_num : N;
  h_exec_hash : N;
  h_seed : N;
  h_digest : N
}.

(* crates/types/src/primary/certificate.rs 432-449 `SignatureVerificationState` *)
Inductive sigstate :=
| Unsigned (sig : N)
| Unverified (sig : N)
| VerifiedDirectly (sig : N)
| VerifiedIndirectly (sig : N)
| Genesis.

(* crates/types/src/primary/certificate.rs 28-38 `Certificate`; the roaring bitmap is the increasing list of its
   set positions. *)
Record cert := mkCert {
  c_header : header;
  c_state : sigstate;
  c_signers : list N
}.

Definition c_round (c : cert) : N := h_round (c_header c).        (* certificate.rs 304-306 *)
Definition c_epoch (c : cert) : N := h_epoch (c_header c).        (* certificate.rs 309-311 *)
Definition c_origin (c : cert) : N := h_author (c_header c).      (* certificate.rs 319-321 *)
Definition c_digest (c : cert) : N := h_digest (c_header c).      (* certificate.rs 473-479 *)
Definition c_parents (c : cert) : list N := h_parents (c_header c).

(* crates/types/src/primary/vote.rs 13-28 `Vote` *)
Record vote := mkVote {
  v_digest : N;
  v_round : N;
  v_epoch : N;
  v_origin : N;      (* author of the header voted for *)
  v_author : N;      (* the voter *)
  v_sig : N
}.

(* Rust Result<_, E> with the error kind kept as data *)
Inductive result (A E : Type) := Ok (a : A) | Err (e : E).
Arguments Ok {A E}. Arguments Err {A E}.
