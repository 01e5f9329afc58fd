(* The handle of the epoch record database and the queue to its thread: crates/storage/src/epoch_records.rs 100-202
   (run_db_loop), 448-560 (get_error and the saves), 818-838 (persist), 960-975 (number_to_epoch), 497-512 (update_finals).
   The database itself is EpochModel.edb.  Whether an append or a flush succeeds is chosen by the event. *)
From Verif Require Import Util EpochModel.

Inductive emsg := MDummy (r : erec) | MRecord (r : erec) | MSave (r : erec) (c : ecert) | MCert (d : N) (c : ecert) | MPersist (id : nat).
Inductive ecall := CDummy (r : erec) | CRecord (r : erec) | CSave (r : erec) (c : ecert) | CCert (d : N) (c : ecert) | CPersist (id : nat).
(* what is seen: a call returned Ok or an error, a message of the thread succeeded or failed, a flush was answered *)
Inductive eobs := OCallOk | OCallErr | ODone (m : emsg) | OFail (m : emsg) | OReply (id : nat) (ok : bool).
Record xst := mk_xst { x_db : edb; x_err : bool; x_q : list emsg; x_fin : list N }.
Definition x_new : xst := mk_xst edb_new false [] [].

(* 497-512; a shorter vector is an error *)
Fixpoint set_nth (l : list N) (n : nat) (v : N) : list N :=
  match l, n with [], _ => [] | _ :: r, 0 => v :: r | x :: r, S n' => x :: set_nth r n' v end.
Definition update_finals (fin : list N) (r : erec) : option (list N) :=
  if length fin <? er_epoch r then None
  else if er_epoch r <? length fin then Some (set_nth fin (er_epoch r) (er_cnum r))
  else Some (fin ++ [er_cnum r]).

(* 448-560, 826-830: get_error takes the slot, then the finals, then the channel; the last component is the message sent *)
Definition do_call (s : xst) (c : ecall) : list eobs * xst :=
  if x_err s then ([OCallErr], mk_xst (x_db s) false (x_q s) (x_fin s))
  else
    let push m fin := ([OCallOk], mk_xst (x_db s) false (x_q s ++ [m]) fin) in
    match c with
    | CDummy r => push (MDummy r) (x_fin s)
    | CRecord r => match update_finals (x_fin s) r with Some f => push (MRecord r) f | None => ([OCallErr], s) end
    | CSave r k => match update_finals (x_fin s) r with Some f => push (MSave r k) f | None => ([OCallErr], s) end
    | CCert d k => push (MCert d k) (x_fin s)
    | CPersist id => ([], mk_xst (x_db s) false (x_q s ++ [MPersist id]) (x_fin s))
    end.

(* 100-195: one message; w1, w2, wp: whether the record append, the certificate append and the flush succeed *)
Definition do_turn (E : eenv) (w1 w2 wp : bool) (s : xst) : list eobs * xst :=
  match x_q s with
  | [] => ([], s)
  | m :: q =>
    let write (p : bool * edb) :=
      if fst p then ([ODone m], mk_xst (snd p) (x_err s) q (x_fin s)) else ([OFail m], mk_xst (snd p) true q (x_fin s)) in
    match m with
    | MDummy r => write (db_save_dummy (x_db s) r)
    | MRecord r => write (db_save_record w1 (x_db s) r)
    | MSave r c => write (db_save E w1 w2 (x_db s) r c)
    | MCert d c => write (db_save_cert w2 (x_db s) d c)
    | MPersist id => ([OReply id (negb (x_err s) && wp)], mk_xst (x_db s) false q (x_fin s))
    end
  end.

Inductive xev := XCall (c : ecall) | XTurn (w1 w2 wp : bool).
Definition xstep (E : eenv) (s : xst) (e : xev) : list eobs * xst :=
  match e with XCall c => do_call s c | XTurn w1 w2 wp => do_turn E w1 w2 wp s end.
Fixpoint xrun (E : eenv) (s : xst) (evs : list xev) : list eobs * xst :=
  match evs with
  | [] => ([], s)
  | e :: r => let '(o, s1) := xstep E s e in let '(o', s2) := xrun E s1 r in (o ++ o', s2)
  end.

(* 388-398: the finals vector rebuilt at open *)
Definition finals_of (recs : list erec) : list N := map er_cnum recs.
(* 968-975; partition_point of the standard library, on a vector whose prefix satisfies the test *)
Fixpoint partition_point (f : N -> bool) (l : list N) : nat :=
  match l with [] => 0 | x :: r => if f x then S (partition_point f r) else 0 end.
Definition number_to_epoch (fin : list N) (n : N) : nat := partition_point (fun final => N.ltb final n) fin.

(* ---------- a history of the database thread, for the watermark ---------- *)
Inductive iop :=
| IDummy (r : erec) | IRecord (w : bool) (r : erec) | ISave (w1 w2 : bool) (r : erec) (c : ecert) | ICert (w : bool) (d : N) (c : ecert)
| IFirst (tip : nat)
| IReopen (recs : list erec) (certs : list (N * ecert)).   (* what is on disk after the heal step, 1085-1140 *)
Definition istep (E : eenv) (s : edb) (o : iop) : option nat * edb :=
  match o with
  | IDummy r => (None, snd (db_save_dummy s r))
  | IRecord w r => (None, snd (db_save_record w s r))
  | ISave w1 w2 r c => (None, snd (db_save E w1 w2 s r c))
  | ICert w d c => (None, snd (db_save_cert w s d c))
  | IFirst tip => first_missing E s tip
  | IReopen recs certs => (None, seed_mark E (mk_edb recs certs None 0))
  end.
Fixpoint irun (E : eenv) (s : edb) (os : list iop) : edb :=
  match os with [] => s | o :: r => irun E (snd (istep E s o)) r end.
