(* Model of the gossip handler of the primary: crates/consensus/primary/src/network/handler.rs 104-113, 262-290, 296-560
   (arms Consensus and EpochVote), network/mod.rs 70-97, consensus_bus.rs 448-459, 539-560, types block.rs 121-163.
   Handlers run concurrently; each is cut at its await points and lock releases into sections that run atomically, and
   the scheduler picks any task at any time.  Cryptography is a parameter: the digest of a result and the signature
   check. *)
From Verif Require Import Util.

Record gmsg := mk_gmsg { gm_epoch : N; gm_round : N; gm_number : N; gm_hash : N; gm_key : N; gm_sig : N }.

Record genv := mk_genv {
  ge_dig : N -> N -> N -> N -> N;        (* block.rs 150-162: digest of epoch, round, number, hash *)
  ge_vrfy : N -> N -> N -> bool;         (* verify_secure: digest, key, signature *)
  ge_com : N -> list N }.                (* the key set of an epoch (BTreeSet) *)

Definition gm_dig (E : genv) (m : gmsg) : N := ge_dig E (gm_epoch m) (gm_round m) (gm_number m) (gm_hash m).

(* handler.rs 64-74 *)
Record tally := mk_tally { t_seq : nat; t_number : N; t_signers : list N }.
Definition tallies := list (N * tally).

Definition MAX_CONSENSUS_CERTS := 20.                (* mod.rs 80 *)
Definition MAX_TALLIES_PER_SIGNER_PER_NUMBER := 2.   (* mod.rs 97 *)

Fixpoint tget (l : tallies) (d : N) : option tally :=
  match l with [] => None | (d', t) :: r => if N.eqb d' d then Some t else tget r d end.
Definition thas (l : tallies) (d : N) : bool := match tget l d with Some _ => true | None => false end.
Definition tdel (l : tallies) (d : N) : tallies := filter (fun e => negb (N.eqb (fst e) d)) l.

(* handler.rs 460: one more than the largest sequence number *)
Definition next_seq (l : tallies) : nat := S (fold_right (fun e acc => Nat.max (t_seq (snd e)) acc) 0 l).
(* handler.rs 461-468: the entry with the smallest sequence number *)
Fixpoint oldest (l : tallies) : option (N * nat) :=
  match l with
  | [] => None
  | (d, t) :: r => match oldest r with
                   | Some (d', q) => if t_seq t <=? q then Some (d, t_seq t) else Some (d', q)
                   | None => Some (d, t_seq t)
                   end
  end.
(* handler.rs 440-447 *)
Definition held (l : tallies) (k number : N) : nat :=
  length (filter (fun e => N.eqb (t_number (snd e)) number && memN k (t_signers (snd e))) l).

(* handler.rs 470-474: entry().or_default(), then the three updates *)
Definition bump (l : tallies) (d : N) (q : nat) (number k : N) : tallies :=
  if thas l d
  then map (fun e => if N.eqb (fst e) d
                     then (d, mk_tally q number (if memN k (t_signers (snd e)) then t_signers (snd e) else t_signers (snd e) ++ [k]))
                     else e) l
  else l ++ [(d, mk_tally q number [k])].

(* one handler, by the section it will run next *)
Inductive gtask :=
  | TRead (m : gmsg)               (* 366-373 *)
  | TCheck (m : gmsg)              (* 374-404, up to and including the signature check *)
  | TTally (m : gmsg)              (* 405-474 *)
  | TBehind (m : gmsg)             (* 475-489 *)
  | TClear.                        (* 479, 490 *)

Record gstate := mk_gstate { g_pub : N * N * N; g_tal : tallies; g_tasks : list gtask; g_missing : N }.

Inductive geff := GPublish (m : gmsg) | GEvict (d : N) | GCleared | GReject (m : gmsg) | GBehind (m : gmsg) | GCounted (m : gmsg).

Definition sigs_of (l : tallies) (d : N) : nat := match tget l d with Some t => length (t_signers t) | None => 0 end.

(* handler.rs 405-475: the section under the second lock.  Answer: effects, new map, and whether the quorum is reached *)
Definition tally_section (E : genv) (l : tallies) (m : gmsg) : list geff * tallies * bool :=
  let d := gm_dig E m in
  let com := ge_com E (gm_epoch m) in
  let enough := length com / 3 + 1 in
  let cap := Nat.max (length com) MAX_CONSENSUS_CERTS in
  if negb (thas l d) && (MAX_TALLIES_PER_SIGNER_PER_NUMBER <=? held l (gm_key m) (gm_number m)) then ([], l, false)
  else
    let q := next_seq l in
    let '(fx, l1) :=
      if (cap <=? length l) && negb (thas l d)
      then match oldest l with Some (v, _) => ([GEvict v], tdel l v) | None => ([], l) end
      else ([], l) in
    let l2 := bump l1 d q (gm_number m) (gm_key m) in
    (fx ++ [GCounted m], l2, enough <=? sigs_of l2 d).

Fixpoint drop_nth {A} (n : nat) (l : list A) : list A :=
  match l, n with [], _ => [] | _ :: r, 0 => r | x :: r, S n' => x :: drop_nth n' r end.

Definition pub_number (p : N * N * N) : N := snd (fst p).
(* consensus_bus.rs 539-555 *)
Definition publish_if_newer (p : N * N * N) (e n h : N) : N * N * N := if N.ltb (pub_number p) n then (e, n, h) else p.

Inductive gev :=
  | GArrive (m : gmsg)                          (* a handler is spawned for a message *)
  | GRun (i : nat) (known behind : bool)        (* task i runs its section; whether its epoch's committee is known; what behind_consensus says *)
  | GExternal (e n h : N)                       (* state-sync/src/epoch.rs 40, 137: another task publishes *)
  .

Definition run_task (E : genv) (s : gstate) (t : gtask) (rest : list gtask) (known behind : bool) : list geff * gstate :=
  match t with
  | TRead m =>
      if N.eqb (gm_hash m) (snd (g_pub s)) || N.leb (gm_number m) (pub_number (g_pub s))
      then ([], mk_gstate (g_pub s) (g_tal s) rest (g_missing s))
      else ([], mk_gstate (g_pub s) (g_tal s) (rest ++ [TCheck m]) (g_missing s))
  | TCheck m =>
      if negb known then ([], mk_gstate (g_pub s) (g_tal s) rest (N.max (g_missing s) (gm_epoch m)))
      else if negb (memN (gm_key m) (ge_com E (gm_epoch m))) then ([GReject m], mk_gstate (g_pub s) (g_tal s) rest (g_missing s))
      else if match tget (g_tal s) (gm_dig E m) with Some t => memN (gm_key m) (t_signers t) | None => false end
      then ([], mk_gstate (g_pub s) (g_tal s) rest (g_missing s))
      else if ge_vrfy E (gm_dig E m) (gm_key m) (gm_sig m)
      then ([], mk_gstate (g_pub s) (g_tal s) (rest ++ [TTally m]) (g_missing s))
      else ([GReject m], mk_gstate (g_pub s) (g_tal s) rest (g_missing s))
  | TTally m =>
      let '(fx, l, full) := tally_section E (g_tal s) m in
      (fx, mk_gstate (g_pub s) l (if full then rest ++ [TBehind m] else rest) (g_missing s))
  | TBehind m =>
      if behind then ([GBehind m], mk_gstate (g_pub s) (g_tal s) (rest ++ [TClear]) (g_missing s))
      else ([GPublish m], mk_gstate (publish_if_newer (g_pub s) (gm_epoch m) (gm_number m) (gm_hash m)) (g_tal s)
                                    (rest ++ [TClear]) (g_missing s))
  | TClear => ([GCleared], mk_gstate (g_pub s) [] rest (g_missing s))
  end.

Definition gstep (E : genv) (s : gstate) (e : gev) : list geff * gstate :=
  match e with
  | GArrive m => ([], mk_gstate (g_pub s) (g_tal s) (g_tasks s ++ [TRead m]) (g_missing s))
  | GRun i known behind =>
      match nth_error (g_tasks s) i with
      | None => ([], s)
      | Some t => run_task E s t (drop_nth i (g_tasks s)) known behind
      end
  | GExternal e n h => ([], mk_gstate (publish_if_newer (g_pub s) e n h) (g_tal s) (g_tasks s) (g_missing s))
  end.

Fixpoint grun (E : genv) (s : gstate) (evs : list gev) : list geff * gstate :=
  match evs with
  | [] => ([], s)
  | e :: r => let '(fx, s1) := gstep E s e in let '(fx', s2) := grun E s1 r in (fx ++ fx', s2)
  end.

(* handler.rs 118-140: a new handler *)
Definition g_init (pub : N * N * N) : gstate := mk_gstate pub [] [] 0.

(* ---------- epoch votes: handler.rs 262-290, 496-555 ---------- *)
Record evote := mk_evote { ev_epoch : N; ev_hash : N; ev_key : N; ev_sig : N }.
Definition MAX_EPOCH_VOTES := 1024.                  (* mod.rs 90 *)
(* an uncertified epoch record as the handler sees it: digest and committee *)
Record vrec := mk_vrec { vr_dig : N; vr_com : list N }.
Definition seen := list ((N * N) * nat).
Definition key2 (a b : N * N) : bool := N.eqb (fst a) (fst b) && N.eqb (snd a) (snd b).
Definition seen_has (l : seen) (k : N * N) : bool := existsb (fun e => key2 (fst e) k) l.
Fixpoint seen_oldest (l : seen) : option ((N * N) * nat) :=
  match l with
  | [] => None
  | (k, q) :: r => match seen_oldest r with
                   | Some (k', q') => if q <=? q' then Some (k, q) else Some (k', q')
                   | None => Some (k, q)
                   end
  end.
(* handler.rs 278-290; the cap is a parameter so that small examples can be run *)
Definition record_vote (cap : nat) (l : seen) (k : N * N) : seen :=
  let q := S (fold_right (fun e acc => Nat.max (snd e) acc) 0 l) in
  let l1 := if (cap <=? length l) && negb (seen_has l k)
            then match seen_oldest l with Some (v, _) => filter (fun e => negb (key2 (fst e) v)) l | None => l end
            else l in
  (k, q) :: filter (fun e => negb (key2 (fst e) k)) l1.

Inductive vout := VForward (v : evote) | VDrop | VReject.
(* handler.rs 496-555; rec is get_epoch_by_number: None when unknown or already certified *)
Definition on_vote (vrfy : N -> N -> N -> bool) (cap : nat) (rec : option vrec) (l : seen) (v : evote) : vout * seen :=
  match rec with
  | None => (VDrop, l)
  | Some r =>
    if negb (N.eqb (vr_dig r) (ev_hash v)) then (VReject, l)
    else if negb (memN (ev_key v) (vr_com r)) then (VReject, l)
    else if seen_has l (ev_key v, ev_epoch v) then (VDrop, l)
    else if negb (vrfy (ev_hash v) (ev_key v) (ev_sig v)) then (VReject, l)
    else (VForward v, record_vote cap l (ev_key v, ev_epoch v))
  end.
Fixpoint run_votes (vrfy : N -> N -> N -> bool) (cap : nat) (l : seen) (vs : list (option vrec * evote)) : list vout * seen :=
  match vs with
  | [] => ([], l)
  | (r, v) :: rest => let '(o, l1) := on_vote vrfy cap r l v in let '(os, l2) := run_votes vrfy cap l1 rest in (o :: os, l2)
  end.
