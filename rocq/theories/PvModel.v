(** The offline validator of an epoch's pack data file (C62):
    crates/storage/src/pack_validate.rs.

    The file is the sequence of records its iterator yields after a successful open (OutModel
    [rec]); opening the file (file header, epoch uid) is C17's subject and not repeated here.
    A record the iterator fails on is [RBad].  Simplified: consensus numbers are unbounded (the
    code's u64 additions are not modelled as wrapping); a HashSet is the list of its members in
    insertion order, so the order of the extra-batch issues inside one group is arbitrary in the
    code and fixed here; human readable details are dropped. *)
From Verif Require Import Util OutModel ImpModel.
Local Open Scope N_scope.

(** pack_validate.rs 44-52. *)
Inductive bclass := Absent | Misordered.

(** pack_validate.rs 65-121 [PackIssue]. *)
Inductive issue :=
| ChainBreak (number expected found : N)
| MissingBatch (number digest : N) (c : bclass)
| ExtraBatch (number digest : N)
| UnsortedBatches (number : N)
| NonSequential (expected found : N)
| MetaMismatch.

(** pack_validate.rs 142-160 [PackValidationReport]; [r_valid] is the verdict. *)
Record report := { r_epoch : N; r_start : N; r_batches : N; r_headers : N;
                   r_first : option N; r_last : option N; r_issues : list issue; r_valid : bool }.

(** HashSet::insert. *)
Definition hset_put (d : N) (s : list N) : list N := if memN d s then s else s ++ [d].

(** The local variables of the two walks (253-264, 377-392).  [w_group]: v0's [batches] set, v1's
    [collected] vector; [w_refd]: v0's [referenced_batches]; [w_open]: v1's open header. *)
Record walk := { w_bc : N; w_cc : N; w_first : option N; w_last : option N; w_issues : list issue;
                 w_parent : option N; w_group : list N; w_refd : list N; w_all : list N; w_open : option chdr }.
Definition walk0 (parent : option N) (issues : list issue) : walk :=
  {| w_bc := 0; w_cc := 0; w_first := None; w_last := None; w_issues := issues; w_parent := parent;
     w_group := []; w_refd := []; w_all := []; w_open := None |}.

Section V.
Variable bd : N -> N.
Variable hd : N -> subdag -> N -> N.
Variable dec : N -> emeta.

Definition push (i : issue) (w : walk) : walk :=
  {| w_bc := w_bc w; w_cc := w_cc w; w_first := w_first w; w_last := w_last w; w_issues := w_issues w ++ [i];
     w_parent := w_parent w; w_group := w_group w; w_refd := w_refd w; w_all := w_all w; w_open := w_open w |}.

(** pack_validate.rs 283-313, 415-438 (the same in both walks): count the header, then the
    sequence and parent checks. *)
Definition count_header (h : chdr) (w : walk) : walk :=
  {| w_bc := w_bc w; w_cc := w_cc w + 1;
     w_first := match w_first w with None => Some (ch_num h) | f => f end; w_last := Some (ch_num h);
     w_issues := w_issues w; w_parent := w_parent w; w_group := w_group w; w_refd := w_refd w;
     w_all := w_all w; w_open := w_open w |}.
Definition check_number (start : N) (h : chdr) (w : walk) : walk :=
  let expected := start + (w_cc w - 1) in
  if negb (ch_num h =? expected) then push (NonSequential expected (ch_num h)) w else w.
Definition check_parent (h : chdr) (w : walk) : walk :=
  match w_parent w with
  | Some p => if negb (ch_parent h =? p) then push (ChainBreak (ch_num h) p (ch_parent h)) w else w
  | None => w
  end.
Definition header_checks (start : N) (h : chdr) (w : walk) : walk :=
  check_parent h (check_number start h (count_header h w)).

(** pack_validate.rs 318-330: one referenced digest of a v0 header. *)
Definition refer (number : N) (w : walk) (d : N) : walk :=
  if memN d (w_group w) then
    {| w_bc := w_bc w; w_cc := w_cc w; w_first := w_first w; w_last := w_last w; w_issues := w_issues w;
       w_parent := w_parent w; w_group := w_group w; w_refd := hset_put d (w_refd w); w_all := w_all w; w_open := w_open w |}
  else push (MissingBatch number d Absent) w.
(** pack_validate.rs 335-337. *)
Definition extras0 (number : N) (w : walk) : walk :=
  fold_left (fun w d => push (ExtraBatch number d) w) (filter (fun d => negb (memN d (w_refd w))) (w_group w)) w.

(** pack_validate.rs 266-344: one record of a v0 file. *)
Definition step_v0 (start : N) (w : walk) (r : rec) : option walk :=
  match r with
  | RBad => None
  | RMeta _ => Some (push MetaMismatch w)
  | RBatch b =>
      Some {| w_bc := w_bc w + 1; w_cc := w_cc w; w_first := w_first w; w_last := w_last w; w_issues := w_issues w;
              w_parent := w_parent w; w_group := hset_put (bd b) (w_group w); w_refd := w_refd w;
              w_all := hset_put (bd b) (w_all w); w_open := w_open w |}
  | RHeader h =>
      let w := header_checks start h w in
      let w := fold_left (fun w oh => fold_left (refer (ch_num h)) (oh_payload oh) w) (sd_hdrs (ch_sub h)) w in
      let w := extras0 (ch_num h) w in
      Some {| w_bc := w_bc w; w_cc := w_cc w; w_first := w_first w; w_last := w_last w; w_issues := w_issues w;
              w_parent := Some (digest_of hd h); w_group := []; w_refd := []; w_all := w_all w; w_open := w_open w |}
  end.

(** pack_validate.rs 467-507 [close_v1_group]: the issues it appends.  [referenced] is a BTreeSet. *)
Definition close_refer (collected : list N) (number : N) (acc : list N * bool * list issue) (d : N) :=
  let '(referenced, missing, issues) := acc in
  if memN d collected then (bset_put d referenced, missing, issues)
  else (bset_put d referenced, true, issues ++ [MissingBatch number d Absent]).
Definition close_v1_group (h : chdr) (collected : list N) (issues : list issue) : list issue :=
  let number := ch_num h in
  let collected_set := fold_left (fun s d => hset_put d s) collected [] in
  let '(referenced, missing, issues) :=
    fold_left (fun acc oh => fold_left (close_refer collected_set number) (oh_payload oh) acc) (sd_hdrs (ch_sub h))
              ([], false, issues) in
  let '(extra, issues) :=
    fold_left (fun acc d => if negb (memN d referenced) then (true, snd acc ++ [ExtraBatch number d]) else acc)
              collected_set (false, issues) in
  if negb missing && negb extra then
    if negb (list_eqb collected referenced) then issues ++ [UnsortedBatches number] else issues
  else issues.

(** pack_validate.rs 410-413, 445-447: closing the open group. *)
Definition close_open (w : walk) : walk :=
  match w_open w with
  | None => w
  | Some prev =>
      {| w_bc := w_bc w; w_cc := w_cc w; w_first := w_first w; w_last := w_last w;
         w_issues := close_v1_group prev (w_group w) (w_issues w); w_parent := w_parent w; w_group := [];
         w_refd := w_refd w; w_all := w_all w; w_open := None |}
  end.

(** pack_validate.rs 394-443: one record of a v1 file. *)
Definition step_v1 (start : N) (w : walk) (r : rec) : option walk :=
  match r with
  | RBad => None
  | RMeta _ => Some (push MetaMismatch w)
  | RBatch b =>
      Some {| w_bc := w_bc w + 1; w_cc := w_cc w; w_first := w_first w; w_last := w_last w; w_issues := w_issues w;
              w_parent := w_parent w; w_group := w_group w ++ [bd b]; w_refd := w_refd w;
              w_all := hset_put (bd b) (w_all w); w_open := w_open w |}
  | RHeader h =>
      let w := header_checks start h (close_open w) in
      Some {| w_bc := w_bc w; w_cc := w_cc w; w_first := w_first w; w_last := w_last w; w_issues := w_issues w;
              w_parent := Some (digest_of hd h); w_group := w_group w; w_refd := w_refd w; w_all := w_all w;
              w_open := Some h |}
  end.

Fixpoint walk_all (step : walk -> rec -> option walk) (recs : list rec) (w : walk) : option walk :=
  match recs with
  | [] => Some w
  | r :: t => match step w r with None => None | Some w' => walk_all step t w' end
  end.

(** pack_validate.rs 515-546 [finalize_report]. *)
Definition resolve (all : list N) (i : issue) : issue :=
  match i with
  | MissingBatch n d _ => MissingBatch n d (if memN d all then Misordered else Absent)
  | _ => i
  end.
Definition finalize (epoch start : N) (w : walk) : report :=
  let issues := map (resolve (w_all w)) (w_issues w) in
  {| r_epoch := epoch; r_start := start; r_batches := w_bc w; r_headers := w_cc w; r_first := w_first w;
     r_last := w_last w; r_issues := issues; r_valid := match issues with [] => true | _ => false end |}.

(** pack_validate.rs 246-357 [verify_v0_data] and 370-459 [verify_v1_data]. *)
Definition verify_v0_data (recs : list rec) (epoch : N) (parent : option N) (start : N) (issues : list issue) : option report :=
  option_map (finalize epoch start) (walk_all (step_v0 start) recs (walk0 parent issues)).
Definition verify_v1_data (recs : list rec) (epoch : N) (parent : option N) (start : N) (issues : list issue) : option report :=
  option_map (fun w => finalize epoch start (close_open w)) (walk_all (step_v1 start) recs (walk0 parent issues)).

(** pack_validate.rs 185-244 [validate_pack_file] after the open; [None] is an error (the first
    record is not the metadata, or some record cannot be read). *)
Definition validate (ver epoch : N) (prev : option erec) (recs : list rec) : option report :=
  match recs with
  | RMeta x :: rest =>
      let m := dec x in
      let issues := if negb (m_epoch m =? epoch) then [MetaMismatch] else [] in
      let issues := match prev with
                    | Some p => if negb (verify_epoch_meta epoch p m) then issues ++ [MetaMismatch] else issues
                    | None => issues
                    end in
      let parent := if epoch =? 0 then None else option_map er_chash prev in
      if ver =? 0 then verify_v0_data rest epoch parent (m_start m) issues
      else verify_v1_data rest epoch parent (m_start m) issues
  | _ => None
  end.
End V.
