(* What C51 talks about: the chain the committed outputs determine, written without the node, its faults,
   its restarts or its loops. *)
From Verif Require Import Util Types CommitteeModel GasModel ExecModel.
Local Open Scope N_scope.

Section ExecSpec.
Context {state tx : Type}.
Variable recover : N -> option tx.
Variable tx_gas : tx -> N.
Variable transact : benv -> state -> tx -> tres state.
Variable root_call : benv -> N -> state -> option state.
Variable hist_call : benv -> N -> state -> option state.
Variable close_call : benv -> N -> N -> list (N * N) -> list slot -> N -> N -> state -> option state.
Variable entry : state -> list slot * option committee.
Variable stroot : state -> N.
Variable txroot : list tx -> N.
Variable rcroot : list N -> N.
Variable hash : header -> N.
Variable G : list xout.
Notation blk := (block state tx).

(* The transactions of a batch one after the other: undecodable and invalid ones leave no trace, the others
   are included; every decodable one must fit into the gas that is left. *)
Inductive executed (e : benv) : list N -> N -> state -> N -> state -> list tx -> list N -> Prop :=
| ex_nil used st : executed e [] used st used st [] []
| ex_undecodable b r used st used' st' ts rc : recover b = None ->
    executed e r used st used' st' ts rc -> executed e (b :: r) used st used' st' ts rc
| ex_invalid b t r used st used' st' ts rc : recover b = Some t -> tx_gas t <= e_limit e - used ->
    transact e st t = TInvalid ->
    executed e r used st used' st' ts rc -> executed e (b :: r) used st used' st' ts rc
| ex_included b t r used st g x st1 used' st' ts rc : recover b = Some t -> tx_gas t <= e_limit e - used ->
    transact e st t = TDone st1 g x ->
    executed e r (used + g) st1 used' st' ts rc -> executed e (b :: r) used st used' st' (t :: ts) (x :: rc).

(* [b] is block number [i] of output [o], built on [prev]. *)
Definition is_block (o : xout) (i : nat) (closes : bool) (benef bd fee limit mix worker : N) (raw : list N)
    (acc : xacc) (prev b : blk) : Prop :=
  let e := {| e_number := h_number (b_hdr prev) + 1; e_benef := benef; e_time := xo_time o; e_mix := mix;
              e_limit := limit; e_fee := fee |} in
  let no := xo_epoch o * 2 ^ 32 + xo_round o in
  exists st1 st2 st3 rc used,
    (match i with O => root_call e (xo_digest o) (b_state prev) = Some st1 | S _ => st1 = b_state prev end) /\
    hist_call e (hash (b_hdr prev)) st1 = Some st2 /\
    executed e raw 0 st2 used st3 (b_txs b) rc /\
    (if closes then close_call e no (xo_seed o) (rewards acc) (xa_slots acc) worker used st3 = Some (b_state b)
     else b_state b = st3) /\
    b_hdr b =
      {| h_parent := hash (b_hdr prev); h_number := h_number (b_hdr prev) + 1;
         h_beacon := xo_digest o; h_ommers := bd; h_benef := benef; h_fee := fee; h_limit := limit; h_mix := mix;
         h_time := xo_time o; h_nonce := no; h_diff := N.of_nat i * 2 ^ 16 + worker; h_used := used;
         h_extra := if closes then Some (xo_seed o) else None;
         h_wd := if closes then rewards acc else [];
         h_stroot := stroot (b_state b); h_txroot := txroot (b_txs b); h_rcroot := rcroot rc |}.

(* the batches of an output in order, each with the address of the certificate that carried it *)
Definition batches_of (o : xout) : list (N * xbatch) :=
  flat_map (fun c => map (pair (fst c)) (snd c)) (xo_certs o).

(* one block per batch, oldest first; the last one closes the epoch if the output does *)
Inductive batch_blocks (o : xout) : nat -> list (N * xbatch) -> list N -> xacc -> blk -> list blk -> xacc -> Prop :=
| bb_nil i acc prev : batch_blocks o i [] [] acc prev [] acc
| bb_cons i addr x bs bd ds acc prev b l sl acc' :
    is_block o i (xo_close o && match bs with [] => true | _ => false end) addr bd (xb_fee x) 30000000
      (N.lxor (xo_digest o) bd) (xb_worker x) (xb_txs x) acc prev b ->
    inc_block (xa_slots acc) (N.to_nat (xb_worker x)) (h_used (b_hdr b)) 30000000 = Some sl ->
    batch_blocks o (S i) bs ds (with_slots sl acc) b l acc' ->
    batch_blocks o i ((addr, x) :: bs) (bd :: ds) acc prev (b :: l) acc'.

Definition output_blocks (o : xout) (acc : xacc) (prev : blk) (l : list blk) (acc' : xacc) : Prop :=
  match batches_of o with
  | [] => acc' = acc /\
      if xo_close o
      then exists benef b, authority_address acc (xo_leader o) = Some benef /\ l = [b] /\
             is_block o 0 true benef 0 (h_fee (b_hdr prev)) (h_limit (b_hdr prev)) (xo_digest o) 0 [] acc prev b
      else l = []
  | bs => batch_blocks o 0 bs (xo_digests o) acc prev l acc'
  end.

(* the accumulator of an epoch that starts on top of [b] *)
Definition acc_of (b : blk) : xacc :=
  {| xa_slots := fst (entry (b_state b)); xa_leaders := []; xa_cm := snd (entry (b_state b)) |}.

(* The chain after the first k outputs (newest block first) and the accumulator the next one starts from. *)
Inductive chain (g : blk) : nat -> list blk -> xacc -> Prop :=
| ch_genesis : chain g 0 [g] (acc_of g)
| ch_output k prev l acc o new acc' :
    chain g k (prev :: l) acc -> nth_error G k = Some o ->
    output_blocks o (count_leader (xo_leader o) acc) prev new acc' ->
    chain g (S k) (rev new ++ prev :: l) (if xo_close o then acc_of (last new prev) else acc').

(* What consensus guarantees about the committed outputs (C01, C02, C05, C11, C41 and the wire types). *)
Record committed (lenient : N -> bool) : Prop := {
  cm_digests : NoDup (map xo_digest G);
  cm_next : forall k o o', nth_error G k = Some o -> nth_error G (S k) = Some o' ->
    if xo_close o then xo_epoch o' = xo_epoch o + 1
    else xo_epoch o' = xo_epoch o /\ xo_round o < xo_round o';
  cm_range : forall o, In o G -> xo_epoch o < 2 ^ 32 /\ 0 < xo_round o < 2 ^ 32 /\ N.of_nat (length (xo_digests o)) < 2 ^ 48;
  cm_workers : forall o a x, In o G -> In (a, x) (batches_of o) -> xb_worker x < 2 ^ 16;
  cm_even : forall o, In o G -> lenient (xo_epoch o) = true -> length (batches_of o) = length (xo_digests o) }.
End ExecSpec.
