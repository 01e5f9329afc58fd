(** What C60's theorems mean: addresses by their published blocks, answers by their text, and what a list of completed sends says. *)
From Verif Require Import Util FwModel.
From Coq Require Import String Ascii.
Import List ListNotations.
Local Open Scope N_scope.

(** ---------- addresses as numbers, blocks by base and prefix length ---------- *)
Definition ip4 (a b c d : N) : N := ((a * 256 + b) * 256 + c) * 256 + d.
Definition ip6 (s : list N) : N := fold_left (fun x g => x * 65536 + g) s 0.
Definition in_block (bits base len x : N) : Prop := x / 2 ^ (bits - len) = base / 2 ^ (bits - len).
(** RFC 1122 loopback and "this network", RFC 1918, RFC 3927, RFC 6598, multicast, reserved *)
Definition v4_local (x : N) : Prop :=
  in_block 32 (ip4 127 0 0 0) 8 x \/ in_block 32 (ip4 0 0 0 0) 8 x \/
  in_block 32 (ip4 10 0 0 0) 8 x \/ in_block 32 (ip4 172 16 0 0) 12 x \/ in_block 32 (ip4 192 168 0 0) 16 x \/
  in_block 32 (ip4 169 254 0 0) 16 x \/ in_block 32 (ip4 100 64 0 0) 10 x \/
  in_block 32 (ip4 224 0 0 0) 4 x \/ in_block 32 (ip4 240 0 0 0) 4 x.
(** ::1, ::, fc00::/7, fe80::/10, ff00::/8, and the addresses that carry a local IPv4 address: compatible ::/96, mapped
    ::ffff:0:0/96, NAT64 64:ff9b::/96, 6to4 2002::/16 *)
Definition v6_local (x : N) : Prop :=
  x = 0 \/ x = 1 \/
  in_block 128 (ip6 [64512; 0; 0; 0; 0; 0; 0; 0]) 7 x \/
  in_block 128 (ip6 [65152; 0; 0; 0; 0; 0; 0; 0]) 10 x \/
  in_block 128 (ip6 [65280; 0; 0; 0; 0; 0; 0; 0]) 8 x \/
  ((in_block 128 0 96 x \/ in_block 128 (ip6 [0; 0; 0; 0; 0; 65535; 0; 0]) 96 x \/
    in_block 128 (ip6 [100; 65435; 0; 0; 0; 0; 0; 0]) 96 x) /\ v4_local (x mod 2 ^ 32)) \/
  (in_block 128 (ip6 [8194; 0; 0; 0; 0; 0; 0; 0]) 16 x /\ v4_local (x / 2 ^ 80 mod 2 ^ 32)).
(** a name whose last label is localhost or local, whatever the case and however many final dots *)
Fixpoint all_dots (s : string) : Prop :=
  match s with EmptyString => True | String a t => a = "."%char /\ all_dots t end.
Definition last_label (label name : string) : Prop :=
  exists front dots, all_dots dots /\ lower name = (front ++ label ++ dots)%string /\
    (front = EmptyString \/ exists f, front = (f ++ ".")%string).
Definition local_name (name : string) : Prop := last_label "localhost" name \/ last_label "local" name.
Definition host_wf (h : fhost) : Prop :=
  match h with
  | H4 a b c d => a < 256 /\ b < 256 /\ c < 256 /\ d < 256
  | H6 s => length s = 8%nat /\ Forall (fun g => g < 65536) s
  | HName _ => True
  end.
Definition public_host (h : option fhost) : Prop :=
  match h with
  | None => False
  | Some (H4 a b c d) => ~ v4_local (ip4 a b c d)
  | Some (H6 s) => ~ v6_local (ip6 s)
  | Some (HName n) => ~ local_name n
  end.

(** ---------- answers ---------- *)
Definition occurs (needle s : string) : Prop := exists a b, s = (a ++ needle ++ b)%string.
(** codes for a full pool and an internal error *)
Definition transient (code : Z) : Prop := code = (-32003)%Z \/ code = (-32603)%Z.
Definition already_known (msg : string) : Prop := occurs "already known" (lower msg).
Definition about_this_node (code : Z) (msg : string) : Prop :=
  code = (-32000)%Z /\
  (occurs "transaction underpriced" (lower msg) \/ occurs "exceeds the configured cap" (lower msg) \/
   occurs "address already reserved" (lower msg)).

(** ---------- one transaction's sends ---------- *)
(** what an answer taking [d] milliseconds counts as *)
Definition counts_as (rd : reply * N) : disp := if 5000 <? snd rd then Unreachable else classify (fst rd).
Definition is_rejection (d : dial) : bool := match d_disp d with Rejected _ => true | _ => false end.
Definition rejections (l : list dial) : list dial := filter is_rejection l.
Definition no_delivery (l : list dial) : Prop := Forall (fun d => d_disp d <> Delivered) l.
(** a subsequence *)
Inductive subseq {A} : list A -> list A -> Prop :=
| sub_nil l : subseq [] l
| sub_keep x a l : subseq a l -> subseq (x :: a) (x :: l)
| sub_skip x a l : subseq a l -> subseq a (x :: l).

(** ---------- one transaction of a batch ---------- *)
(** a send takes at most five seconds *)
Definition cost (rd : reply * N) : N := N.min (snd rd) 5000.
(** a send to the endpoint of its validator, with the answer the validator gave *)
Definition made (env : N -> reply * N) (prov : bmap N) (d : dial) : Prop :=
  bm_lookup (d_key d) prov = Some (d_url d) /\ d_disp d = counts_as (env (d_key d)).
Definition unreach (nd : list dial) (u : N) : Prop := exists d, In d nd /\ d_url d = u /\ d_disp d = Unreachable.
(** sends one after the other, each starting when the one before it ended *)
Fixpoint in_turn (env : N -> reply * N) (t : N) (nd : list dial) (t' : N) : Prop :=
  match nd with
  | [] => t = t'
  | d :: rest => d_at d = t /\ in_turn env (t + cost (env (d_key d))) rest t'
  end.
Fixpoint demos (env : N -> reply * N) (nd : list dial) : list (N * N) :=
  match nd with
  | [] => []
  | d :: rest => match d_disp d with Unreachable => (d_url d, d_at d + cost (env (d_key d))) :: demos env rest | _ => demos env rest end
  end.

(** [l]'s validators were asked, or have no usable endpoint, or their endpoint was found unreachable: earlier in the batch
    ([known]) or for this transaction *)
Definition all_asked (prov : bmap N) (known : N -> Prop) (l : list N) (ds : list dial) : Prop :=
  forall k, In k l -> In k (map d_key ds) \/ bm_lookup k prov = None \/
    exists u, bm_lookup k prov = Some u /\ (known u \/ unreach ds u).
(** the committee slot of the sender first, then the others in the batch's order *)
Definition owns (slots : list N) (x : ftx) (o : N) : Prop :=
  exists v, x_sender x = Some v /\ nth_error slots (N.to_nat (v mod N.of_nat (length slots))) = Some o.
Definition dial_order (slots fallbacks : list N) (x : ftx) (ord : list N) : Prop :=
  (exists o, owns slots x o /\ ord = o :: fallbacks) \/ ((forall o, ~ owns slots x o) /\ ord = fallbacks).

(** the sends: each validator at most once, in order, nobody passed over who could have been asked, no endpoint again that was
    found unreachable *)
Definition sends_ok (env : N -> reply * N) (prov : bmap N) (known : N -> Prop) (ord : list N) (ds : list dial) : Prop :=
  Forall (made env prov) ds /\ NoDup (map d_key ds) /\ subseq (map d_key ds) ord /\
  (forall a d b p q, ds = a ++ d :: b -> ord = p ++ d_key d :: q -> ~ In (d_key d) p -> all_asked prov known p a) /\
  (forall a d b, ds = a ++ d :: b -> ~ known (d_url d) /\ ~ unreach a (d_url d)).
(** the times: within the batch's two minutes, at most fifteen seconds *)
Definition times_ok (env : N -> reply * N) (batch_start : N) (r : tres) : Prop :=
  batch_start <= t_start r /\ t_start r <= t_end r /\ t_end r <= t_start r + 15000 /\ t_end r <= batch_start + 120000 /\
  exists t1, in_turn env (t_start r) (t_dials r) t1 /\ t1 <= t_end r /\
    match t_cut r with
    | None => t1 = t_end r
    | Some c => t_end r = N.min (t_start r + 15000) (batch_start + 120000) /\ t_end r < t1 + cost (env c)
    end.
Definition fate_ok (prov : bmap N) (known : N -> Prop) (ord : list N) (accepted : bool) (batch_start : N) (r : tres) : Prop :=
  let ds := t_dials r in
  match t_fate r with
  | FDelivered => t_cut r = None /\ t_back r = 0 /\
      exists a d, ds = a ++ [d] /\ d_disp d = Delivered /\ no_delivery a /\ (length (rejections a) <= 1)%nat
  | FRejected why => t_back r = 0 /\ no_delivery ds /\
      ((exists a d, ds = a ++ [d] /\ d_disp d = Rejected why /\ length (rejections a) = 1%nat /\ t_cut r = None) \/
       (exists d, rejections ds = [d] /\ d_disp d = Rejected why /\ (t_cut r = None -> all_asked prov known ord ds)))
  | FBack acc => no_delivery ds /\ rejections ds = [] /\ acc = accepted /\
      t_back r = N.max (t_end r) (batch_start + 1000) /\
      (t_cut r = None -> all_asked prov known ord ds \/ (t_start r = batch_start + 120000 /\ ds = []))
  end.
(** the validator at which the time ran out: usable, not asked, everybody before it dealt with *)
Definition cut_ok (prov : bmap N) (known : N -> Prop) (ord : list N) (r : tres) : Prop :=
  forall c, t_cut r = Some c ->
    In c ord /\ ~ In c (map d_key (t_dials r)) /\
    (exists u, bm_lookup c prov = Some u /\ ~ known u /\ ~ unreach (t_dials r) u) /\
    (forall p q, ord = p ++ c :: q -> ~ In c p -> all_asked prov known p (t_dials r)).
Definition tx_ok (env : N -> reply * N) (accepted : bool) (slots fallbacks : list N) (prov : bmap N) (batch_start : N)
    (known : N -> Prop) (r : tres) : Prop :=
  exists ord, dial_order slots fallbacks (t_tx r) ord /\ sends_ok env prov known ord (t_dials r) /\
    times_ok env batch_start r /\ cut_ok prov known ord r /\ fate_ok prov known ord accepted batch_start r.

(** ---------- the tallies ---------- *)
Definition count {A} (f : A -> bool) (l : list A) : nat := length (filter f l).
Definition is_delivered (r : tres) : bool := match t_fate r with FDelivered => true | _ => false end.
Definition is_rejected (r : tres) : bool := match t_fate r with FRejected _ => true | _ => false end.
Definition is_back (r : tres) : bool := match t_fate r with FBack _ => true | _ => false end.
Definition is_taken_back (r : tres) : bool := match t_fate r with FBack true => true | _ => false end.
(** given up because the batch's two minutes were over, rather than for its own fifteen seconds or the endpoints *)
Definition by_deadline (batch_start : N) (r : tres) : bool :=
  is_back r && (t_end r <? t_start r + 15000) &&
  match t_cut r with Some _ => true | None => t_start r =? batch_start + 120000 end.
(** the endpoints found unreachable, with the time *)
Fixpoint demotions (env : nat -> N -> reply * N) (i : nat) (rs : list tres) : list (N * N) :=
  match rs with [] => [] | r :: rest => demos (env i) (t_dials r) ++ demotions env (S i) rest end.

(** ---------- the node over time ---------- *)
(** after a failed send at [t], endpoint [u] stays demoted through [e] *)
Definition keeps_down (u t : N) (e : fev) : Prop :=
  match e with
  | FDemote v _ => v <> u
  | FLift v => v <> u
  | FDone => True
  | FForward now txs slots rpcs => txs <> [] -> slots <> [] -> rpcs <> [] -> In u (map snd rpcs) /\ now - t < 30000
  end.
Definition down_since (evs : list fev) (u t : N) : Prop :=
  exists pre post, evs = pre ++ FDemote u t :: post /\ Forall (keeps_down u t) post.
(** whether [u] may be used at [now]: allowed, well-formed, no failed send in the last thirty seconds that still counts *)
Definition usable (private_ok : bool) (host_of : N -> option fhost) (parses : N -> bool) (evs : list fev) (now u : N) : Prop :=
  (private_ok = true \/ public_host (host_of u)) /\ parses u = true /\ forall t, down_since evs u t -> 30000 <= now - t.
Definition is_done (e : fev) : bool := match e with FDone => true | _ => false end.
