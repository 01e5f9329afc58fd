(* What a bounded, expiring set of banned keys is, said without maps and queues: the log of the calls
   made so far decides, for every key, since when it is held. *)
From Verif Require Import Util CacheModel.
Local Open Scope N_scope.

Definition when (e : cev) : option N :=
  match e with CInsert now _ => Some now | CBeat now => Some now | CRemove _ => None end.
(* The clock never runs backwards over the calls. *)
Fixpoint clock_from (t : N) (l : list cev) : Prop :=
  match l with
  | [] => True
  | e :: r => match when e with
              | Some now => t <= now /\ clock_from now r
              | None => clock_from t r
              end
  end.
Definition clock_ok (l : list cev) : Prop := clock_from 0 l.

(* The held set as a plain function of the calls: keys with the instant of their latest insertion, the
   least recently inserted first.  Inserting again refreshes; a full set drops its oldest key; a
   heartbeat drops what has been held for dur or longer. *)
Definition without (k : N) (h : list (N * N)) : list (N * N) := filter (fun e => negb (N.eqb (fst e) k)) h.
Definition unexpired (dur now : N) (h : list (N * N)) : list (N * N) := filter (fun e => now <? snd e + dur) h.
Definition cap (n : nat) (h : list (N * N)) : list (N * N) := skipn (length h - n) h.
Definition held_step (dur : N) (n : nat) (h : list (N * N)) (e : cev) : list (N * N) :=
  match e with
  | CInsert now k => cap n (without k h ++ [(k, now)])
  | CRemove k => without k h
  | CBeat now => unexpired dur now h
  end.
Definition held (dur : N) (n : nat) (l : list cev) : list (N * N) := fold_left (held_step dur n) l [].
