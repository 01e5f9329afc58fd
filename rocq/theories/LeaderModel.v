(** Model of crates/consensus/primary/src/consensus/leader_schedule.rs and
    crates/types/src/primary/reputation.rs. *)
From Verif Require Import Util Types CommitteeModel.
Local Open Scope N_scope.

(** types/src/primary/reputation.rs 8-20: BTreeMap of scores plus the final flag. *)
Record scores := mkScores { sc_map : bmap N; sc_final : bool }.

(** reputation.rs 25-30 [ReputationScores::new]. *)
Definition scores_new (c : committee) : scores :=
  mkScores (bm_of_list (map (fun a => (a_id a, 0)) (cm_authorities c))) false.

(** reputation.rs 32-38 [add_score] (u64, scores are bounded by the number of certificates of a
    schedule, so the wrap is not modelled). *)
Definition add_score (s : scores) (id v : N) : scores :=
  match bm_lookup id (sc_map s) with
  | Some x => mkScores (bm_insert id (x + v) (sc_map s)) (sc_final s)
  | None => mkScores (bm_insert id v (sc_map s)) (sc_final s)
  end.

(** reputation.rs 41-43 [total_authorities]. *)
Definition total_authorities (s : scores) : N := N.of_nat (length (sc_map s)).

(** reputation.rs 51-71 [authorities_by_score_desc]: descending score, ties by descending id.
    [sort_by] is stable; the comparator is total on distinct ids, so any sort gives this list. *)
Definition before (a b : N * N) : bool :=
  (snd b <? snd a) || ((snd b =? snd a) && (fst b <=? fst a)).
Fixpoint ins_desc (x : N * N) (l : list (N * N)) : list (N * N) :=
  match l with
  | [] => [x]
  | y :: t => if before x y then x :: l else y :: ins_desc x t
  end.
Definition by_score_desc (s : scores) : list (N * N) := fold_right ins_desc [] (sc_map s).

(** leader_schedule.rs 21-33. [bad] is the HashMap (by id), as a list of distinct authorities. *)
Record swap_table := mkTable { st_round : N; st_good : list authority; st_bad : list authority }.
(** derived Default *)
Definition table_default : swap_table := mkTable 0 [] [].

(** leader_schedule.rs 104-116 and 132-144: filter_map through [committee.authority]. *)
Definition pick (c : committee) (p : N -> bool) (l : list (N * N)) : list authority :=
  flat_map (fun e => if p (snd e)
                     then match cm_authority c (fst e) with Some a => [a] | None => [] end
                     else []) l.

Section Table.
(** [(x as f64).sqrt() as u64], leader_schedule.rs 91: left abstract. *)
Variable fsqrt : N -> N.
Variable c : committee.

(** leader_schedule.rs 101-125, the bad-node loop.  [None] = out of fuel (the loop would run
    on).  Returns the bad list and the final ceiling. *)
Fixpoint bad_loop (fuel : nat) (l : list (N * N)) (threshold sd ceil old : N)
  : option (list authority * N) :=
  match fuel with
  | O => None
  | S fuel =>
      let bad := pick c (fun r => r <=? ceil) (rev l) in
      if N.of_nat (length bad) <=? threshold then Some (bad, ceil)
      else
        let ceil' := ceil - sd in
        if old =? ceil' then Some (bad, ceil')
        else bad_loop fuel l threshold sd ceil' ceil'
  end.

(** leader_schedule.rs 129-154, the good-node loop. *)
Fixpoint good_loop (fuel : nat) (l : list (N * N)) (threshold sd bad_ceil floor old : N)
  : option (list authority) :=
  match fuel with
  | O => None
  | S fuel =>
      let good := pick c (fun r => floor <=? r) l in
      if threshold <=? N.of_nat (length good) then Some good
      else
        let floor' := N.max (floor - sd) (bad_ceil + 1) in
        if old =? floor' then Some good
        else good_loop fuel l threshold sd bad_ceil floor' floor'
  end.

(** integer statistics, leader_schedule.rs 70-91 *)
Definition mean (l : list (N * N)) : N := sumN (map snd l) / N.of_nat (length l).
Definition absdiff (a b : N) : N := (a - b) + (b - a).
Definition variance (l : list (N * N)) : N :=
  sumN (map (fun e => absdiff (snd e) (mean l) * absdiff (snd e) (mean l)) l) / N.of_nat (length l).
Definition list_threshold (l : list (N * N)) (pct : N) : N :=
  N.max 1 (N.of_nat (length l) * pct / 100).

(** leader_schedule.rs 63-207 [LeaderSwapTable::new].  [None] = a panic (percentage out of range,
    non-final scores, no score at all: division by zero, no good node for a bad one) or a loop
    that does not end. *)
Definition table_new (round : N) (s : scores) (pct : N) : option swap_table :=
  if negb (pct <=? 33) then None
  else if negb (sc_final s) then None
  else
    let l := by_score_desc s in
    match l with
    | [] => None
    | (_, highest) :: _ =>
        let lowest := snd (last l (0, 0)) in
        let sd := fsqrt (variance l) in
        let threshold := list_threshold l pct in
        if (sd =? 0) || (highest - 2 * sd <? lowest) then Some (mkTable round [] [])
        else
          let ceil := highest - 2 * sd in
          match bad_loop (S (S (N.to_nat highest))) l threshold sd ceil ceil with
          | None => None
          | Some (bad, bad_ceil) =>
              let floor := N.max (highest - sd) (bad_ceil + 1) in
              match good_loop (S (S (N.to_nat highest))) l threshold sd bad_ceil floor floor with
              | None => None
              | Some good =>
                  match bad, good with
                  | _ :: _, [] => None
                  | _, _ => Some (mkTable round good bad)
                  end
              end
          end
    end.

(** [good_nodes.choose(&mut ChaCha12Rng::from_seed(round))], leader_schedule.rs 218-236: a
    deterministic function of the list and the round; which element is left abstract. *)
Variable choose : list authority -> N -> option authority.

(** leader_schedule.rs 217-251 [swap]; inner [None] = no swap, outer [None] = the expect panics. *)
Definition swap (t : swap_table) (leader : authority) (round : N) : option (option authority) :=
  if existsb (fun b => a_id b =? a_id leader) (st_bad t)
  then match choose (st_good t) round with Some g => Some (Some g) | None => None end
  else Some None.

(** leader_schedule.rs 303-324 [LeaderSchedule::leader]; [None] = odd round, empty committee or a
    panic in swap. *)
Definition leader (t : swap_table) (round : N) : option authority :=
  if negb (round mod 2 =? 0) then None
  else if cm_size c =? 0 then None
  else
    let i := (round / 2 - 1) mod cm_size c in
    match nth_error (cm_authorities c) (N.to_nat i) with
    | None => None
    | Some l => match swap t l round with
                | None => None
                | Some None => Some l
                | Some (Some g) => Some g
                end
    end.
End Table.
