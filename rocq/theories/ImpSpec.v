(** What an imported epoch must be: the outputs the epoch's certified record vouches for. *)
From Verif Require Import Util OutModel OutSpec ImpModel.
Local Open Scope nat_scope.

Section S.
Variable bd : N -> N.
Variable hd : N -> subdag -> N -> N.

(** Headers that follow each other from (hash [p], number [n]) on. *)
Fixpoint linked (p n : N) (hs : list chdr) : Prop :=
  match hs with
  | [] => True
  | h :: t => ch_parent h = p /\ ch_num h = (n + 1)%N /\ linked (digest_of hd h) (n + 1)%N t
  end.
(** The true headers of epoch [e] up to the (hash, number) a certified record names. *)
Definition true_epoch (e p n hash num : N) (hs : list chdr) : Prop :=
  linked p n hs /\ (forall h, In h hs -> sd_epoch (ch_sub h) = e) /\
  exists h hs', hs = hs' ++ [h] /\ digest_of hd h = hash /\ ch_num h = num.

(** No streamed header collides with a true one. *)
Definition no_collision (recs : list rec) (truth : list chdr) : Prop :=
  forall h g, In (RHeader h) recs -> In g truth -> digest_of hd h = digest_of hd g -> h = g.

(** [o] is the output of header [h] under the committee addresses [addr]. *)
Definition output_of (addr : N -> option N) (h : chdr) (o : output) : Prop :=
  output_for bd addr (ch_sub h) (ch_parent h) (ch_num h) o.
End S.
