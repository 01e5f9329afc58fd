(** The assumptions of C47: what the environment of the honest validators is, with no assumption on the faulty ones but their
    number and that they cannot forge signatures or find collisions. *)
From Verif Require Import Util Types CommitteeModel CertModel LdbModel VoteModel VoteSpec PropModel PropSpec SyncModel NetModel.
Local Open Scope N_scope.

Section NetSpec.
Variable T : network.
Variable real : header -> Prop.          (* the headers that occur *)

Definition honest (k : N) : Prop := ~ In k (nt_faulty T).
Definition has_signed (k : N) (tr : list gev) (d : N) : Prop := exists h, h_digest h = d /\ signed_hdr T k tr h.

(** A certificate that reaches validator k: if its aggregate signature verifies for the keys its bitmap selects, then the
    honest holders of these keys have signed that digest before. *)
Definition unforged (k : N) (pre : list gev) (x : cert) : Prop :=
  real (c_header x) /\
  forall sig, aggregated_signature (c_state x) = Some sig ->
    let keys := snd (signed_by x (bls_keys (com_at T k pre))) in
    nt_averify T (c_digest x) sig keys = true ->
    forall j, In j keys -> honest j -> has_signed j pre (c_digest x).

Definition step_ok (pre : list gev) (g : gev) : Prop :=
  match g with
  | GVote k e => honest k /\
      match e with
      | VRequest peer h _ _ => real h /\ peer <> nt_id T k            (* a peer is not the node itself *)
      | VNextEpoch c _ => c = nt_cm T (cm_epoch c)
      | VCheck _ en =>
          (forall d p, e_store en d = Some p -> c_digest p = d /\ accepted T k pre p) /\
          (forall d p, e_genesis en d = Some p -> c_digest p = d /\ In p (nt_genesis T (com_at T k pre)))
      | _ => True
      end
  | GProp k e => honest k /\ quiet_start (proposer T k pre) e /\
      (forall h, In h (p_sent (proposer T k (pre ++ [g]))) -> real h)
  | GCert k _ x => honest k /\ unforged k pre x
  | GFetch k _ l => honest k /\ Forall (unforged k pre) l
  | GOwn k h vs v => honest k /\ real h /\
      forall w a, In w (vs ++ [v]) -> cm_authority (com_at T k pre) (v_author w) = Some a ->
        nt_verify T (v_digest w) (v_sig w) (a_key a) = true -> honest (a_key a) -> has_signed (a_key a) pre (v_digest w)
  end.
Definition execution (tr : list gev) : Prop := forall pre g post, tr = pre ++ g :: post -> step_ok pre g.

Record network_ok : Prop := {
  nk_cm : forall e, built (nt_cm T e) /\ cm_epoch (nt_cm T e) = e;
  nk_bound : forall e, N.of_nat (length (interN (bls_keys (nt_cm T e)) (nt_faulty T))) <= (cm_size (nt_cm T e) - 1) / 3;
  nk_id : forall e k, In k (bls_keys (nt_cm T e)) -> exists a, cm_authority (nt_cm T e) (nt_id T k) = Some a /\ a_key a = k;
  nk_start : forall k, honest k -> nt_com0 T k = nt_cm T (cm_epoch (nt_com0 T k)) /\
               (forall a, nt_vdisk T k (VOTES, a) = None) /\ nt_pdisk T k KP = None;
  nk_genesis : forall c g, In g (nt_genesis T c) -> real (c_header g) /\ c_round g = 0 /\ c_parents g = [];
  nk_inj : collision_free real;
  nk_acyclic : exists rank : N -> nat, forall x y, real x -> real y -> In (h_digest x) (h_parents y) ->
                 (rank (h_digest x) < rank (h_digest y))%nat
}.

(** The headers of epoch e with a certificate that some honest validator accepted. *)
Definition certified_dag (e : N) (tr : list gev) (h : header) : Prop :=
  h_epoch h = e /\ 1 <= h_round h /\ exists k c, honest k /\ accepted T k tr c /\ c_header c = h.
(** h has the signatures of a quorum of its epoch's committee, as far as honest members are concerned. *)
Definition quorum_signed (tr : list gev) (h : header) : Prop :=
  exists K, NoDup K /\ incl K (bls_keys (nt_cm T (h_epoch h))) /\ cm_quorum (nt_cm T (h_epoch h)) <= N.of_nat (length K) /\
    forall k, In k K -> honest k -> signed_hdr T k tr h.
End NetSpec.
