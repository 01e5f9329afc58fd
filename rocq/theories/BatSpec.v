(** What C46 talks about, independently of the model's loops. *)
From Verif Require Import Util WireModel WireSpec BatModel.
Local Open Scope N_scope.

(** A batch an honest worker of this epoch accepts. *)
Definition valid (recover : bytes -> option tx) (v : validator) (b : batch) : Prop :=
  b_worker b = v_worker v /\ b_epoch b = v_epoch v /\ b_fee b = v_fee v /\
  b_txs b <> [] /\ sumN (map lenN (b_txs b)) <= 1000000 /\
  exists ts, Forall2 (fun e t => recover e = Some t) (b_txs b) ts /\
             Forall (fun t => t_kind t = KLegacy \/ t_kind t = K2930 \/ t_kind t = K1559) ts /\
             sumN (map t_gas ts) <= 30000000.

Definition of_sender (a : N) (l : list ptx) : list ptx := filter (fun p => p_sender p =? a) l.
Definition gas_of (l : list ptx) : N := sumN (map p_gas l).
Definition size_of (l : list ptx) : N := sumN (map p_size l).
Definition cost_of (l : list ptx) : N := sumN (map p_cost l).

Definition accepts (l : list answer) : N := N.of_nat (length (filter (fun a => match a with AAccept => true | _ => false end) l)).
Definition rejects (l : list answer) : N := N.of_nat (length (filter (fun a => match a with AReject => true | _ => false end) l)).

(** The node has the batch with this digest (cache or consensus chain). *)
Definition held (H : bytes -> bytes) (s : nst) (d : bytes) : Prop := exists b, local s d = Some b /\ digest H b = d.
