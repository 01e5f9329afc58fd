(** What an epoch pack promises: it is a log of outputs with a persisted prefix. *)
From Verif Require Import Util OutModel OutSpec EpackModel.
Local Open Scope nat_scope.

(** Events: a save request; a completed persist; a crash (stage of the persist it falls in, bytes of
    data and index entries that survived, newest map entries lost) followed by opening the pack. *)
Inductive pev := Save (o : output) | Persist | Crash (j : stage) (m k c b : nat).

Record plog := { l_outs : list output; l_kept : nat }.

(** The intended effect.  A save is accepted when it is the next number of this epoch; a crash
    falls back to the last completed persist. *)
Definition spec_step (epoch start : N) (l : plog) (e : pev) : plog :=
  match e with
  | Save o =>
      if (sd_epoch (out_sub o) =? epoch)%N && (out_num o =? start + N.of_nat (length (l_outs l)))%N
      then {| l_outs := l_outs l ++ [o]; l_kept := l_kept l |} else l
  | Persist => {| l_outs := l_outs l; l_kept := length (l_outs l) |}
  | Crash _ _ _ _ _ => {| l_outs := firstn (l_kept l) (l_outs l); l_kept := l_kept l |}
  end.
Definition spec_run (epoch start : N) (evs : list pev) : plog :=
  fold_left (spec_step epoch start) evs {| l_outs := []; l_kept := 0 |}.

(** The output [n] of a log that starts at [start]. *)
Definition log_at (start : N) (outs : list output) (n : N) : option output :=
  if (n <? start)%N then None else nth_error outs (N.to_nat (n - start)).

Section S.
Variable bd : N -> N.
Variable addr : N -> option N.
Variable hd : N -> subdag -> N -> N.
Variable cap : nat.
Variable rsz : rec -> nat.

(** The model's run; [None] when an event is impossible or the pack does not open. *)
Definition pstep (epoch start meta : N) (p : epack) (e : pev) : option epack :=
  match e with
  | Save o => Some (snd (save bd hd rsz p o))
  | Persist => Some (persist rsz p)
  | Crash j m k c b =>
      match crash rsz p j m k c b with
      | None => None
      | Some im => open_append rsz im epoch start meta
      end
  end.
Fixpoint prun (epoch start meta : N) (p : epack) (evs : list pev) : option epack :=
  match evs with
  | [] => Some p
  | e :: t => match pstep epoch start meta p e with None => None | Some p' => prun epoch start meta p' t end
  end.

(** Reading [p] answers exactly like the log [outs]. *)
Definition reads_like (start : N) (outs : list output) (p : epack) : Prop :=
  (forall n, get_output bd addr hd cap rsz p n = log_at start outs n) /\
  (forall n, header_by_number rsz p n = option_map header_of (log_at start outs n)) /\
  (forall n, contains_number p n = true <-> log_at start outs n <> None) /\
  latest_header rsz p = Some (option_map header_of (nth_error (rev outs) 0)) /\
  (forall h d, header_by_digest hd rsz p d = Some h <->
      exists o, In o outs /\ h = header_of o /\ digest_of hd h = d).

(** An output as the subscriber or the importer builds it. *)
Definition good_output (start : N) (o : output) : Prop :=
  output_for bd addr (out_sub o) (out_parent o) (out_num o) o /\ one_batch_per_digest bd o /\
  length (batch_set (out_sub o)) <= cap /\ (start <= out_num o)%N.

(** The events a history may contain.  The crash that is excluded: nothing was ever persisted and
    exactly one index entry survived (see C42_first_output_refuted). *)
Definition good_event (start : N) (l : plog) (e : pev) : Prop :=
  match e with
  | Save o => good_output start o
  | Persist => True
  | Crash _ _ k _ _ => ~ (l_kept l = 0 /\ k = 1)
  end.
Fixpoint good_history (epoch start : N) (l : plog) (evs : list pev) : Prop :=
  match evs with
  | [] => True
  | e :: t => good_event start l e /\ good_history epoch start (spec_step epoch start l e) t
  end.
(** Crashes lose only unsynced data. *)
Definition possible (epoch start meta : N) (p : epack) (e : pev) : Prop :=
  match e with Crash j m k c b => crash rsz p j m k c b <> None | _ => True end.
Fixpoint possible_history (epoch start meta : N) (p : epack) (evs : list pev) : Prop :=
  match evs with
  | [] => True
  | e :: t => possible epoch start meta p e /\
              match pstep epoch start meta p e with Some p' => possible_history epoch start meta p' t | None => True end
  end.
End S.
