(* Specification vocabulary for C57, independent of how the manager works. *)
From Verif Require Import Util ExexModel.
Local Open Scope N_scope.

(* what ExEx i received in a run, and what it reported *)
Definition got (i : nat) (out : list (nat * note)) : list note := map snd (filter (fun p => Nat.eqb (fst p) i) out).
Definition reports (i : nat) (es : list xev) : list N :=
  flat_map (fun e => match e with XReport j h => if Nat.eqb j i then [h] else [] | _ => [] end) es.

(* the items the sources brought while the manager ran *)
Fixpoint inputs (es : list xev) : list rin :=
  match es with
  | [] => []
  | XIn IClosed :: _ => []
  | XIn i :: r => i :: inputs r
  | _ :: r => inputs r
  end.
Definition stopped (es : list xev) : Prop := In (XIn IClosed) es.

(* The full story the inputs tell: every certificate, output and executed chain in order, an upstream loss as a marker, and a
   marker with the number of missing blocks where a chain starts above the block after the highest one before it. *)
Fixpoint story (best : option N) (l : list rin) : list note :=
  match l with
  | [] => []
  | ICert (inl c) :: r => NCert c :: story best r
  | IOut (inl o) :: r => NOut o :: story best r
  | ICert (inr m) :: r => NLag m :: story best r
  | IOut (inr m) :: r => NLag m :: story best r
  | ICommit new :: r =>
    match new, best with
    | [], _ => story best r
    | _, None => NChain new :: story (Some (seg_tip new)) r
    | _, Some b => (if b + 1 <? seg_first new then [NLag (seg_first new - (b + 1))] else []) ++
                   NChain new :: story (Some (N.max b (seg_tip new))) r
    end
  | IReorg _ new :: r =>
    match new, best with
    | [], _ => story best r
    | _, None => NChain new :: story (Some (seg_tip new)) r
    | _, Some b => (if b + 1 <? seg_first new then [NLag (seg_first new - (b + 1))] else []) ++
                   NChain new :: story (Some (N.max b (seg_tip new))) r
    end
  | IClosed :: r => story best r
  end.

(* lossy a b: b is a where runs of notifications are replaced by a marker with their exact number *)
Inductive lossy : list note -> list note -> Prop :=
| lossy_nil : lossy [] []
| lossy_keep n a b : lossy a b -> lossy (n :: a) (n :: b)
| lossy_gap run a b : run <> [] -> lossy a b -> lossy (run ++ a) (NLag (N.of_nat (length run)) :: b).

Definition heights_u64 (l : list rin) : Prop :=
  forall i, In i l -> match i with ICommit s | IReorg _ s => forall n, In n s -> n <= U64 | _ => True end.

(* consecutive block numbers *)
Fixpoint run_from (n : N) (k : nat) : list N := match k with O => [] | S j => n :: run_from (n + 1) j end.
Definition is_seg (s : list N) : Prop := s <> [] /\ s = run_from (seg_first s) (length s).

(* commits: the chains of a list of inputs; in_order: each is a proper segment above all earlier ones; some may be missing *)
Definition commits (l : list rin) : list (list N) :=
  flat_map (fun i => match i with ICommit s => [s] | IReorg _ s => [s] | _ => [] end) l.
Fixpoint in_order (b : option N) (l : list (list N)) : Prop :=
  match l with
  | [] => True
  | s :: r => is_seg s /\ match b with Some t => t < seg_first s | None => True end /\ in_order (Some (seg_tip s)) r
  end.

(* no_holes t l: reading l, with t the last block seen (None: not known, or a marker came in between), every chain starts
   right after the block before it *)
Fixpoint no_holes (t : option N) (l : list note) : Prop :=
  match l with
  | [] => True
  | NChain s :: r => match t with Some b => seg_first s = b + 1 | None => True end /\ no_holes (Some (seg_tip s)) r
  | NLag _ :: r => no_holes None r
  | _ :: r => no_holes t r
  end.

Definition chains (l : list note) : list (list N) := flat_map (fun n => match n with NChain s => [s] | _ => [] end) l.
Definition chains_i (l : list item) : list (list N) := flat_map (fun n => match n with IOk (NChain s) => [s] | _ => [] end) l.
Definition has_lag (l : list note) : bool := existsb (fun n => match n with NLag _ => true | _ => false end) l.
Definition no_err (l : list item) : Prop := forall x, ~ In (IErr x) l.

(* what a replay of start..=e must deliver: each block in turn up to the first one that cannot be read, which is the last item *)
Fixpoint replay_spec (src : N -> rres) (n : N) (k : nat) : list item :=
  match k with
  | O => []
  | S j => match src n with ROk s => IOk (NChain s) :: replay_spec src (n + 1) j | _ => [IErr n] end
  end.
Definition range_len (start e : N) : nat := N.to_nat (e + 1 - start).

(* linked b l: consecutive segments, the first one starting right after block b *)
Fixpoint linked (b : N) (l : list (list N)) : Prop :=
  match l with [] => True | s :: r => is_seg s /\ seg_first s = b + 1 /\ linked (seg_tip s) r end.
Definition end_of (b : N) (l : list (list N)) : N := match l with [] => b | _ => seg_tip (last l []) end.
(* what is left of a list when some entries are lost *)
Inductive subseq {A} : list A -> list A -> Prop :=
| sub_nil : subseq [] []
| sub_keep a l m : subseq l m -> subseq (a :: l) (a :: m)
| sub_drop a l m : subseq l m -> subseq l (a :: m).

(* what ExEx i or a source does *)
Definition concerns (i : nat) (e : xev) : bool :=
  match e with XIn _ => true | XEvent j | XRecv j | XReport j _ | XDie j => Nat.eqb j i end.
(* the heights of a list of chains strictly increase, and none is empty *)
Definition incr (b : option N) (l : list (list N)) : Prop :=
  (fix go b l := match l with [] => True | s :: r => s <> [] /\ match b with Some t => t < seg_tip s | None => True end /\ go (Some (seg_tip s)) r end) b l.
(* polls within which a source that always has an item is served *)
Definition bound (x : src4) : nat := match x with SCert => 2 | SOut => 4 | SCanon => 8 | SEvents => 8 end.
