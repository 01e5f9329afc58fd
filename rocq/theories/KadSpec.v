(** What a user of the discovery store relies on (C63), told by the history of its calls and nothing else. *)
From Verif Require Import Util KadModel.
Local Open Scope N_scope.

(** The calls made on one store, newest first, with what they answered. *)
Inductive event :=
| EPut (r : krec) (e : option kerr)
| ERemove (k : N) (present : bool)          (* [present]: the store had an unexpired record for the key *)
| EAdd (r : kprov) (e : option kerr)
| ERemProv (k p : N)
| ERestart
| ECorrupt (k : N).                         (* the stored providers of a key were damaged on disk *)

(** The record published last under a key and not withdrawn since; a restart drops what the node cannot read as a node record. *)
Fixpoint last_rec (loads : krec -> bool) (h : list event) (k : N) : option krec :=
  match h with
  | [] => None
  | EPut r None :: h' => if k_key r =? k then Some r else last_rec loads h' k
  | ERemove k' _ :: h' => if k' =? k then None else last_rec loads h' k
  | ERestart :: h' => match last_rec loads h' k with Some r => if loads r then Some r else None | None => None end
  | _ :: h' => last_rec loads h' k
  end.
(** The announcement of a peer accepted last for a key and not withdrawn since. *)
Fixpoint last_prov (h : list event) (k p : N) : option kprov :=
  match h with
  | [] => None
  | EAdd r None :: h' => if (p_key r =? k) && (p_peer r =? p) then Some r else last_prov h' k p
  | ERemProv k' p' :: h' => if (k' =? k) && (p' =? p) then None else last_prov h' k p
  | ECorrupt k' :: h' => if k' =? k then None else last_prov h' k p
  | _ :: h' => last_prov h' k p
  end.
Definition live_rec (now : N) (o : option krec) : option krec :=
  match o with Some r => if expired (k_exp r) now then None else Some r | None => None end.
Definition live_prov (now : N) (o : option kprov) : option kprov :=
  match o with Some r => if expired (p_exp r) now then None else Some r | None => None end.
(** Records are only withdrawn while they are there. *)
Fixpoint careful (h : list event) : Prop :=
  match h with [] => True | ERemove _ false :: _ => False | _ :: h' => careful h' end.

Section R.
Variable kh : N -> N.
Variable cfg : kcfg.
Variable loads : krec -> bool.
Variables (kd : kind) (node local : N).

Notation put := (put kh cfg).
Notation get := (get kh).
(** The store after a history, at a time; the stores of the other kind of network use the same database meanwhile. *)
Inductive reach : list event -> N -> kdb -> kstore -> Prop :=
| r_init t d : recs d kd = [] -> provs d kd = [] -> reach [] t d (new_store d kd node local)
| r_wait h t d s t' : reach h t d s -> t <= t' -> reach h t' d s
| r_put h t d s r d' s' e : reach h t d s -> put d s t r = Some (d', s', e) -> reach (EPut r e :: h) t d' s'
| r_remove h t d s k d' s' b : reach h t d s -> remove kh d s k = (d', s') ->
    (b = true <-> exists x, get d s t k = Some (Some x)) -> reach (ERemove k b :: h) t d' s'
| r_add h t d s r d' s' e : reach h t d s -> add_provider kh cfg d s t r = (d', s', e) -> reach (EAdd r e :: h) t d' s'
| r_remprov h t d s k p d' s' : reach h t d s -> remove_provider kh d s k p = (d', s') -> reach (ERemProv k p :: h) t d' s'
| r_restart h t d s d' s' : reach h t d s -> start kh loads d kd node local t = Some (d', s') -> reach (ERestart :: h) t d' s'
| r_corrupt h t d s k : reach h t d s -> bm_lookup (kh k) (provs d kd) <> None ->
    reach (ECorrupt k :: h) t (set_provs d kd (bm_insert (kh k) None (provs d kd))) s
| r_foreign h t d s d' : reach h t d s -> recs d' kd = recs d kd -> provs d' kd = provs d kd -> reach h t d' s.
End R.
