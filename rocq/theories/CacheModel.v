(* The temporary-ban cache: crates/network-libp2p/src/peers/cache.rs.

   Keys are N (a PeerId).  Instant and Duration are N.  The HashSet "map" is a duplicate-free list of
   which only membership and length are observed; the VecDeque "list" is a list, front first.  A call
   whose expect() would fail is None. *)
From Verif Require Import Util.
Local Open Scope N_scope.

(* cache.rs 74-87 *)
Record cache := mkCache { c_map : list N; c_list : list (N * N); c_dur : N; c_max : nat }.

(* cache.rs 98-106: the cap is clamped to at least one *)
Definition cache_new (dur : N) (max_len : nat) : cache := mkCache [] [] dur (Nat.max max_len 1).

(* HashSet::insert and HashSet::remove *)
Definition set_insert (k : N) (m : list N) : list N := if memN k m then m else k :: m.
Definition set_remove (k : N) (m : list N) : list N := filter (fun x => negb (N.eqb x k)) m.
(* VecDeque: iter().position(|e| e.key == key), then remove(position) *)
Fixpoint take_out (k : N) (l : list (N * N)) : option ((N * N) * list (N * N)) :=
  match l with
  | [] => None
  | e :: t => if N.eqb (fst e) k then Some (e, t)
              else match take_out k t with Some (x, r) => Some (x, e :: r) | None => None end
  end.

(* cache.rs 136-172 *)
Definition cache_insert (now k : N) (c : cache) : option (cache * (bool * option N)) :=
  let is_new := negb (memN k (c_map c)) in
  let map1 := set_insert k (c_map c) in
  if is_new then
    let list1 := c_list c ++ [(k, now)] in
    if (c_max c <? length list1)%nat then
      match list1 with
      | [] => Some (mkCache map1 list1 (c_dur c) (c_max c), (true, None))
      | oldest :: rest =>
          Some (mkCache (set_remove (fst oldest) map1) rest (c_dur c) (c_max c), (true, Some (fst oldest)))
      end
    else Some (mkCache map1 list1 (c_dur c) (c_max c), (true, None))
  else
    match take_out k (c_list c) with
    | None => None
    | Some (e, rest) => Some (mkCache map1 (rest ++ [(fst e, now)]) (c_dur c) (c_max c), (false, None))
    end.

(* cache.rs 177-185 *)
Definition cache_remove (k : N) (c : cache) : option (cache * bool) :=
  if memN k (c_map c) then
    match take_out k (c_list c) with
    | None => None
    | Some (_, rest) => Some (mkCache (set_remove k (c_map c)) rest (c_dur c) (c_max c), true)
    end
  else Some (c, false).

(* cache.rs 191-213: pop from the front while expired *)
Fixpoint pop_expired (now dur : N) (m : list N) (l : list (N * N)) : list N * list (N * N) * list N :=
  match l with
  | [] => (m, [], [])
  | e :: t => if now <? snd e + dur then (m, e :: t, [])
              else let '(m', l', out) := pop_expired now dur (set_remove (fst e) m) t in
                   (m', l', fst e :: out)
  end.
Definition cache_beat (now : N) (c : cache) : cache * list N :=
  let '(m, l, out) := pop_expired now (c_dur c) (c_map c) (c_list c) in
  (mkCache m l (c_dur c) (c_max c), out).

(* cache.rs 216-223 *)
Definition cache_contains (k : N) (c : cache) : bool := memN k (c_map c).
Definition cache_len (c : cache) : nat := length (c_map c).

(* Calls, as the manager makes them *)
Inductive cev := CInsert (now k : N) | CRemove (k : N) | CBeat (now : N).
Definition cstep (c : cache) (e : cev) : option cache :=
  match e with
  | CInsert now k => match cache_insert now k c with Some (c', _) => Some c' | None => None end
  | CRemove k => match cache_remove k c with Some (c', _) => Some c' | None => None end
  | CBeat now => Some (fst (cache_beat now c))
  end.
Fixpoint crun (l : list cev) (c : cache) : option cache :=
  match l with
  | [] => Some c
  | e :: t => match cstep c e with Some c' => crun t c' | None => None end
  end.
