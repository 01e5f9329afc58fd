(** What the subscriber promises, stated against the agreed sequence of sub-dags alone. *)
From Verif Require Import Util OutModel OutSpec SubModel.
Local Open Scope nat_scope.

Section S.
Variable bd : N -> N.
Variable addr : N -> N -> option N.
Variable hd : N -> subdag -> N -> N.
Variable gd : N.
Variable bound : N -> N.
Variable G : nat -> subdag.
Variable resume : N -> option subdag -> nat.

(** The agreed sequence: epoch 0 first; the first sub-dag at or past an epoch's boundary is its last. *)
Definition epochs_advance : Prop :=
  sd_epoch (G 0) = 0%N /\
  forall i, sd_epoch (G (S i)) =
    if (bound (sd_epoch (G i)) <=? sd_ts (G i))%N then (sd_epoch (G i) + 1)%N else sd_epoch (G i).

(** Bullshark, given the last sub-dag of its epoch that was saved, goes on with the next one. *)
Definition resumes_after : Prop :=
  (forall i, resume (sd_epoch (G i)) (Some (G i)) = S i) /\
  (forall i, (forall j, j < i -> sd_epoch (G j) <> sd_epoch (G i)) -> resume (sd_epoch (G i)) None = i).

(** A header digest determines the number. *)
Definition digest_fixes_number : Prop :=
  forall p s m p' s' m', hd p s m = hd p' s' m' -> m = m'.

(** The digest of the chain's header number [k]; number 0 is the default header. *)
Fixpoint chain_digest (k : nat) : N :=
  match k with O => gd | S i => hd (chain_digest i) (G i) (N.of_nat (S i)) end.
(** [o] is output number [i+1] of the chain. *)
Definition chain_output (i : nat) (o : output) : Prop :=
  output_for bd (addr (sd_epoch (G i))) (G i) (chain_digest i) (N.of_nat (S i)) o.
Definition is_chain (l : list output) : Prop := forall i o, nth_error l i = Some o -> chain_output i o.

(** All outputs a node has saved, oldest first. *)
Fixpoint saved (ps : list pack) : list output :=
  match ps with [] => [] | p :: r => saved r ++ pk_outs p end.

(** The slot value found on disk is usable: not ahead of the saved outputs and naming the epoch of
    the last one. *)
Definition slot_ok (sl : N * N) (l : list output) : Prop :=
  (snd sl <= N.of_nat (length l))%N /\
  fst sl = match lastof l with None => 0%N | Some o => sd_epoch (out_sub o) end.

Definition after_kill (ps : list pack) : list output :=
  match ps with [] => [] | p :: r => saved r ++ firstn (pk_kept p) (pk_outs p) end.

(** The events a history may contain.  Workers answer with batches of the right digest; state sync
    delivers the next output of the chain (C44).  Excluded, each refuted below: a crash or exit that
    leaves an unusable slot; a mode change in the middle of a save. *)
Definition good_event (n : node) (e : ev) : Prop :=
  match n_up n with
  | None => True
  | Some v =>
      match e with
      | Fetched (Some a) => Forall (fun p => bd (snd p) = fst p) a
      | SyncOut o => v_active v = false -> v_phase v = Idle -> (sd_epoch (out_sub o) <= v_epoch v)%N ->
                     chain_output (length (saved (n_packs n))) o
      | Reenter _ => v_phase v = Idle \/ exists o, v_phase v = Saved o
      | Quit => slot_ok (n_slot n) (saved (n_packs n))
      | Kill i => forall sl, nth_error (n_slots n) i = Some sl -> slot_ok sl (after_kill (n_packs n))
      | _ => True
      end
  end.
Fixpoint good_history (n : node) (evs : list ev) : Prop :=
  match evs with
  | [] => True
  | e :: t => good_event n e /\ good_history (step bd addr hd gd bound G resume n e) t
  end.
End S.
