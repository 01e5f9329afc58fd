(** What C48 assumes and claims about the slot files. *)
From Verif Require Import Util WireModel LatModel.
Local Open Scope N_scope.

Definition valid (v : N * N) : Prop := fst v < 256 ^ 4 /\ snd v < 256 ^ 8.       (* u32, u64 *)
(** later epoch, or the same epoch and a larger number *)
Definition later (a b : N * N) : Prop := fst a < fst b \/ (fst a = fst b /\ snd a < snd b).
Definition not_later (b a : N * N) : Prop := b = a \/ later b a.

Section Spec.
Variable crc : bytes -> N.
(** Values recorded increase; a write that stops half-way leaves a content whose checksum is wrong (or the old or the new
    content); a machine crash leaves what [survives] says. *)
Definition ev_ok (s : lc) (e : ev) : Prop :=
  match e with
  | EUpdate v => valid v /\ later (l_mem s) v
  | ETurn k _ _ =>
      match l_queue s with
      | Update _ v w :: _ => let c := firstn k (encode_slot crc v) ++ skipn k (f_now (file_of w s)) in
          (16 <= k)%nat \/ read_slot crc c = None \/ c = f_now (file_of w s)
      | _ => True
      end
  | ECrash b1 b2 => survives crc (l_s1 s) b1 /\ survives crc (l_s2 s) b2
  | _ => True
  end.
Fixpoint history (s : lc) (l : list ev) : Prop :=
  match l with [] => True | e :: t => ev_ok s e /\ history (step crc s e) t end.
(** No write to a slot file fails. *)
Definition writes_ok (l : list ev) : Prop := forall k y1 y2, In (ETurn k y1 y2) l -> (16 <= k)%nat.
(** Nothing recorded is still on its way to the disk. *)
Definition settled (s : lc) : Prop := l_queue s = [] /\ f_dirty (l_s1 s) = [] /\ f_dirty (l_s2 s) = [].
(** Every update waits until the one before is on disk (state-sync's save: update, then persist, then the next). *)
Fixpoint paced (s : lc) (l : list ev) : Prop :=
  match l with
  | [] => True
  | e :: t => (match e with EUpdate _ => settled s | _ => True end) /\ paced (step crc s e) t
  end.
Definition start : lc := open_slots crc (fresh []) (fresh []).
Definition updates (l : list ev) : list (N * N) := flat_map (fun e => match e with EUpdate v => [v] | _ => [] end) l.
End Spec.
