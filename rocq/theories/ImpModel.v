(** Importing the consensus pack of an epoch from an untrusted peer (C43).

    The stream is a sequence of records (OutModel [rec]); framing, compression, timeouts and CRC
    failures show up as [RBad].  The pack being written is used through C42: the list of outputs
    appended. *)
From Verif Require Import Util OutModel.
Local Open Scope nat_scope.

(** types/src/primary/epoch.rs [EpochRecord] and consensus_pack.rs 66-86 [EpochMeta], as far as the
    import reads them: the final consensus (number, hash), the final execution state, the next
    committee's keys; the meta's committee as (BLS key, execution address), in map order. *)
Record erec := { er_epoch : N; er_cnum : N; er_chash : N; er_state : N; er_next : list N }.
Record emeta := { m_epoch : N; m_start : N; m_state : N; m_cnum : N; m_chash : N; m_auth : list (N * N) }.

Fixpoint list_eqb (a b : list N) : bool :=
  match a, b with
  | [], [] => true
  | x :: s, y :: t => (x =? y)%N && list_eqb s t
  | _, _ => false
  end.
Definition key_set (l : list N) : list N := fold_left (fun s k => bset_put k s) l [].

(** consensus_pack.rs 1392-1440 [verify_epoch_meta]. *)
Definition verify_epoch_meta (epoch : N) (prev : erec) (m : emeta) : bool :=
  (epoch =? m_epoch m)%N &&
  ((if (epoch =? 0)%N then 1 else er_cnum prev + 1) =? m_start m)%N &&
  (er_state prev =? m_state m)%N &&
  ((er_cnum prev =? m_cnum m) && (er_chash prev =? m_chash m))%N &&
  list_eqb (key_set (map fst (m_auth m))) (key_set (er_next prev)).

Section I.
Variable bd : N -> N.
Variable hd : N -> subdag -> N -> N.
Variable dec : N -> emeta.                 (* decoding of the metadata record *)
Variable idof : N -> N.                     (* authority id of a BLS key, committee.rs 157-162 *)
Variable per_auth : nat.                   (* MAX_GC_DEPTH * MAX_HEADER_NUM_OF_BATCHES *)

(** types/src/committee.rs 228-236 (index by id, later entries win): [authority] by id, then
    [execution_address]. *)
Definition addr_of (m : emeta) (id : N) : option N :=
  option_map snd (find (fun x => (idof (fst x) =? id)%N) (rev (m_auth m))).

(** consensus_pack.rs 1459-1461 [max_batches_per_output]. *)
Definition cap_of (m : emeta) : nat := length (m_auth m) * per_auth.

(** consensus_pack.rs 1717-1770: the legacy (version 0) reader, batches before their header.
    [Some None] is the end of the stream. *)
Fixpoint legacy_collect (cap cnt : nat) (recs : list rec) (avail : list (N * N))
  : option (option (chdr * list (N * N) * list rec)) :=
  match recs with
  | [] => Some None
  | RBatch b :: rest => if cap <? S cnt then None else legacy_collect cap (S cnt) rest (amap_put (bd b) b avail)
  | RHeader h :: rest => Some (Some (h, avail, rest))
  | _ :: _ => None
  end.
(** consensus_pack.rs 1717-1845 [iter_to_output_legacy]. *)
Definition iter_to_output_legacy (addr : N -> option N) (cap : nat) (e : expectation) (recs : list rec) : rres :=
  match legacy_collect cap 0 recs [] with
  | None => RFail
  | Some None => REnd
  | Some (Some (h, avail, rest)) =>
      let s := ch_sub h in
      if check_expectation hd h e then
        if forallb (fun d => match amap_get d avail with Some _ => true | None => false end) (batch_digests s) then
          if length (batch_set s) <? length avail then RFail
          else if Nat.eqb (num_primary_batches s) 0 then ROk (bare_output s (ch_parent h) (ch_num h)) rest
          else match assemble bd addr (fun d => memN d (batch_set s)) (sd_hdrs s) avail [] with
               | None => RFail
               | Some bs => ROk {| out_sub := s; out_parent := ch_parent h; out_num := ch_num h;
                                   out_digests := batch_digests s; out_batches := bs |} rest
               end
        else RFail
      else RFail
  end.

Inductive sres := SErr | SPanic | SOk (l : list output).
(** consensus_pack.rs 1036-1060 on the list of outputs in the pack (C42): the leader of an empty
    sub-dag is a panic (types/src/primary/output.rs 497-499). *)
Definition log_save (epoch start : N) (l : list output) (o : output) : sres :=
  let idx := N.to_nat (out_num o - start)%N in                       (* saturating_sub *)
  match sd_hdrs (out_sub o) with
  | [] => SPanic
  | _ => if negb (sd_epoch (out_sub o) =? epoch)%N then SErr
         else if idx <? length l then SOk l
         else if idx =? length l then SOk (l ++ [o])
         else SErr
  end.

Inductive ires := IErr | IPanic | IOk (m : emeta) (l : list output).

Definition read_output (ver : N) (m : emeta) (e : expectation) (recs : list rec) : rres :=
  if (ver =? 0)%N then iter_to_output_legacy (addr_of m) (cap_of m) e recs
  else iter_to_output bd (addr_of m) hd (cap_of m) e recs.

(** consensus_pack.rs 961-1004: the import loop.  [fuel] only bounds the recursion: every output
    takes a record off the stream. *)
Fixpoint import_loop (fuel : nat) (ver : N) (m : emeta) (final : N) (e : expectation) (recs : list rec)
         (l : list output) : ires :=
  match fuel with
  | O => IErr
  | S f =>
      match read_output ver m e recs with
      | REnd => IOk m l
      | RFail => IErr
      | ROk o rest =>
          if (final <? out_num o)%N then IErr
          else match log_save (m_epoch m) (m_start m) l o with
               | SErr => IErr
               | SPanic => IPanic
               | SOk l' => import_loop f ver m final (EParent (digest_of hd (header_of o))) rest l'
               end
      end
  end.

(** consensus_pack.rs 907-1005 [stream_import]. *)
Definition stream_import (ver epoch : N) (prev : erec) (final : N) (recs : list rec) : ires :=
  match recs with
  | RMeta x :: rest =>
      let m := dec x in
      if verify_epoch_meta epoch prev m then
        import_loop (S (length rest)) ver m final
          (if (epoch =? 0)%N then ENone else EParent (er_chash prev)) rest []
      else IErr
  | _ => IErr
  end.

(** storage/src/consensus.rs 483-600 [ConsensusChain::stream_import], and 662-710
    [import_partial_to_staging] (the same verification, [have] = [None]): what is on disk for the
    epoch before, and after a successful import.  File system errors are not modelled. *)
Inductive cres := CNoop | CErr | CPanic | CInstalled (m : emeta) (l : list output).
Definition chain_import (have : option (emeta * list output)) (ver : N) (er prev : erec) (recs : list rec) : cres :=
  let already :=
    match have with
    | None => false
    | Some (m, l) =>
        if (er_cnum er <? m_start m)%N then false
        else match nth_error l (N.to_nat (er_cnum er - m_start m)) with
             | Some o => (digest_of hd (header_of o) =? er_chash er)%N
             | None => false
             end
    end in
  if already then CNoop
  else match stream_import ver (er_epoch er) prev (er_cnum er) recs with
       | IErr => CErr
       | IPanic => CPanic
       | IOk m l =>
           match nth_error (rev l) 0 with
           | None => CErr
           | Some o => if negb (er_cnum er =? out_num o)%N || negb (er_chash er =? digest_of hd (header_of o))%N
                       then CErr else CInstalled m l
           end
       end.
(** storage/src/consensus.rs 536-575: the pack on disk afterwards. *)
Definition disk_after (have : option (emeta * list output)) (r : cres) : option (emeta * list output) :=
  match r with CInstalled m l => Some (m, l) | _ => have end.
End I.
