(* Words used to state C56. *)
From Verif Require Import Util EpochModel EpochSpec VqModel.

(* the signature of a vote is the signer's own *)
Definition vsig (V : venv) (d k s : N) : Prop := ve_ok V d k s = true.
Definition vgood (V : venv) (v : vote) : Prop := vsig V (v_hash v) (v_key v) (v_sig v).

(* every stored certificate verifies against the record it is stored for *)
Definition certs_verify (E : eenv) (d : edb) : Prop := forall k c, In (k, c) (db_certs d) -> exists r, k = ee_dig E r /\ verify_with_cert E r c = true.

Definition older_certified (E : eenv) (d : edb) (e : nat) : Prop := forall k, k < e -> epoch_certified E d k = true.

(* the events after the record is stored: gossip, routing, the record reaching the router, turns of tasks; the disk works *)
Definition calm (g : vevt) : bool :=
  match g with GGossip _ _ | GRoute | GRecord => true | GTask _ _ _ w2 _ => w2 | _ => false end.
(* the votes of this epoch that were gossiped and hold for the record *)
Definition votes_for (E : eenv) (V : venv) (r : erec) (g : vevt) : list N :=
  match g with
  | GGossip true v => if (v_epoch v =? er_epoch r) && N.eqb (v_hash v) (ee_dig E r) && memN (v_key v) (er_com r) && ve_ok V (v_hash v) (v_key v) (v_sig v) then [v_key v] else []
  | _ => []
  end.
Definition waits (i : nat) (g : vevt) : nat := match g with GTask j true _ _ _ => if j =? i then 1 else 0 | _ => 0 end.

Definition certified (E : eenv) (r : erec) (s : vsys) : Prop := exists c, cget (db_certs (y_db s)) (ee_dig E r) = Some c /\ verify_with_cert E r c = true.

Definition waits_of (i : nat) (gs : list vevt) : nat := list_sum (map (waits i) gs).

(* the record a closing finds already stored is on disk *)
Definition close_flushed (E : eenv) (s : vsys) (g : vevt) : Prop :=
  match g with GClose r _ _ => forall x, have_record E (y_db s) (er_epoch r) = Some x -> er_epoch r < y_dur s | _ => True end.

Fixpoint all_flushed (E : eenv) (V : venv) (s : vsys) (gs : list vevt) : Prop :=
  match gs with [] => True | g :: r => close_flushed E s g /\ all_flushed E V (snd (ystep E V s g)) r end.