(* What a digest index is: a map from keys to the position last saved, with a durable copy. *)
From Verif Require Import Util HdxModel.

(* saves in order, newest first *)
Record hmap := mk_hmap { m_saves : list elem; m_dlen : nat }.
Record hspec := mk_hspec { p_cur : hmap; p_safe : hmap; p_ro : bool }.

(* the position last saved for k *)
Inductive latest (k : key) : list elem -> option pos -> Prop :=
  | L_none : latest k [] None
  | L_hit p l : latest k ((k, p) :: l) (Some p)
  | L_skip k' p l r : k' <> k -> latest k l r -> latest k ((k', p) :: l) r.

(* number of different keys ever saved *)
Definition distinct (l : list elem) (n : nat) : Prop :=
  exists ks, NoDup ks /\ length ks = n /\ forall k, In k ks <-> In k (map fst l).

Definition saves_of (s : hspec) := m_saves (p_cur s).

(* rot = the files may be damaged behind the index's back *)
Inductive hspec_step (rot : bool) : hspec -> hop -> hout -> hspec -> Prop :=
  | SSave s k p : p_ro s = false ->
      hspec_step rot s (HSave k p) ZUnit (mk_hspec (mk_hmap ((k, p) :: saves_of s) (m_dlen (p_cur s))) (p_safe s) false)
  | SSaveRo s k p : p_ro s = true -> hspec_step rot s (HSave k p) (ZFail HReadOnly) s
  | SLoad s k p : latest k (saves_of s) (Some p) -> hspec_step rot s (HLoad k) (ZPos p) s
  | SLoadNone s k : latest k (saves_of s) None -> hspec_step rot s (HLoad k) (ZFail HNotFound) s
  | SLoadRot s k e : rot = true -> hspec_step rot s (HLoad k) (ZFail e) s
  (* the length lies between the number of different keys and the number of saves *)
  | SLen s n d : distinct (saves_of s) d -> d <= n <= length (saves_of s) -> hspec_step rot s HLen (ZNum n) s
  | SSetLen s n : hspec_step rot s (HSetLen n) ZUnit (mk_hspec (mk_hmap (saves_of s) n) (p_safe s) (p_ro s))
  | SGetLen s : hspec_step rot s HGetLen (ZNum (m_dlen (p_cur s))) s
  | SSync s : p_ro s = false -> hspec_step rot s HSync ZUnit (mk_hspec (p_cur s) (p_cur s) false)
  | SSyncRo s : p_ro s = true -> hspec_step rot s HSync (ZFail HReadOnly) s
  | SReopen s ro : p_ro s = false -> hspec_step rot s (HReopen ro) ZUnit (mk_hspec (p_cur s) (p_cur s) ro)
  | SReopenRo s ro : p_ro s = true -> hspec_step rot s (HReopen ro) ZUnit (mk_hspec (p_safe s) (p_safe s) ro)
  (* a crash brings back exactly the last synced map *)
  | SCrash s e : hspec_step rot s (HCrash e) ZUnit (mk_hspec (p_safe s) (p_safe s) false)
  | SRotB s b k : rot = true -> hspec_step rot s (HRotBucket b k) ZUnit s
  | SRotO s b k : rot = true -> hspec_step rot s (HRotOverflow b k) ZUnit s
  | SRotF s i v : rot = true -> hspec_step rot s (HRotBloom i v) ZUnit s.

Inductive hspec_run (rot : bool) : hspec -> list hop -> list hout -> hspec -> Prop :=
  | SR_nil s : hspec_run rot s [] [] s
  | SR_cons s o x s1 os xs s2 : hspec_step rot s o x s1 -> hspec_run rot s1 os xs s2 ->
      hspec_run rot s (o :: os) (x :: xs) s2.

(* the constants are sane and the split threshold grows with the number of buckets *)
Record hcfg_ok (c : hcfg) : Prop := {
  ho_elems : 0 < hc_elems c;
  ho_init : 0 < hc_init c;
  ho_bsize : 0 < hc_bsize c;
  ho_bloom : 0 < hc_bloom c;
  ho_thresh : forall n, n <= hc_thresh c (n * hc_elems c);
  ho_drain : forall l, Permutation (hc_drain c l) l }.

Definition no_rot (o : hop) : Prop :=
  match o with HRotBucket _ _ | HRotOverflow _ _ | HRotBloom _ _ => False | _ => True end.
