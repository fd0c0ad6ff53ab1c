(** Model of the dual decomposition solver:
    r_u_sure/decision_diagrams/consistent_path_dual_solver.py:60-1146.

    Arrays mutated in place become values threaded through the functions, so
    an update that raises loses the partial mutation.  -1 in
    [dag_variable_index_map] and in assignment vectors is [None]; the initial
    dual bound -inf is [None].  Rounding is not modelled (costs are exact). *)

From Coq Require Import List Bool Arith Lia ZArith QArith Qcanon.
From Verif Require Import Base Graph PackedDag Convert.
Import ListNotations.
Close Scope Qc_scope. Close Scope Q_scope. Open Scope nat_scope.

(** consistent_path_dual_solver.py:67-112. *)
Record sysdata := mkSys {
  tables : list memo;
  imap : list (list (option nat));       (* variable, then DAG *)
  weights : list Qc;                     (* dag_update_proportions *)
  extra : list (list cost);              (* extra_unary_costs *)
  num_keys : nat;
  num_values : nat
}.

(** numpy [a + b] on vectors of equal length. *)
Definition vadd (a b : list cost) : list cost := map (fun p => cadd (fst p) (snd p)) (combine a b).
(** [a - b] of floats.  Subtracting [inf] from a finite number gives -inf,
    which is not a cost: it becomes [NaN] here, and the solver never does it. *)
Definition csub (a b : cost) : cost :=
  match a, b with
  | Fin x, Fin y => Fin (x - y)%Qc
  | Inf, Fin _ => Inf
  | _, _ => NaN
  end.

(** [for j, k in enumerate(index_map[v, :])] paired with [dag_tables[j]]. *)
Definition participants (s : sysdata) (v : nat) : result (list (memo * option nat)) :=
  do row <- or_err IndexError (nth_error (imap s) v);
  Ok (combine (tables s) row).

(** [set_penalties] on each participating table; the others are untouched. *)
Definition write_rows (ps : list (memo * option nat)) (rows : list (list cost)) : list memo :=
  map (fun x => match snd (fst x) with
                | Some k => set_penalties (fst (fst x)) k (snd x)
                | None => fst (fst x)
                end) (combine ps rows).

(** lines 269-322, [clone_system] and [clone_system_data]: a copy has the same values. *)
Definition clone_system_data (s : sysdata) : sysdata :=
  mkSys (map copy_memo (tables s)) (imap s) (weights s) (extra s) (num_keys s) (num_values s).

(** lines 335-347: one subproblem's contribution to the aggregate. *)
Definition aggregate_one (nv : nat) (p : memo * option nat) : result (list cost * memo) :=
  match snd p with
  | None =>
      do r <- compute_minimal_cost (fst p) FROM_MIDDLE;
      Ok (repeat (fst r) nv, snd r)
  | Some k => compute_min_marginals (fst p) k
  end.
(** lines 326-349, [system_min_marginals]. *)
Definition system_min_marginals (s : sysdata) (v : nat) : result (list cost * sysdata) :=
  do ps <- participants s v;
  do rs <- mapM (aggregate_one (num_values s)) ps;
  Ok (fold_left vadd (map fst rs) (repeat (Fin 0%Qc) (num_values s)),
      mkSys (map snd rs) (imap s) (weights s) (extra s) (num_keys s) (num_values s)).

(** lines 546-577: what the first loop of [min_marginal_average] computes for
    one subproblem: its minimal cost, or its min marginals with the variable's
    penalties zeroed out. *)
Definition collect_one (nv : nat) (p : memo * option nat) : result ((list cost + cost) * memo) :=
  match snd p with
  | None =>
      do r <- compute_minimal_cost (fst p) FROM_MIDDLE;
      Ok (inr (fst r), snd r)
  | Some k =>
      do r <- compute_min_marginals (set_penalties (fst p) k (repeat (Fin 0%Qc) nv)) k;
      Ok (inl (fst r), snd r)
  end.
Definition add_marginals (acc : list cost) (i : list cost + cost) : list cost :=
  match i with inl mm => vadd acc mm | inr _ => acc end.
Definition add_nonparticipating (acc : cost) (i : list cost + cost) : cost :=
  match i with inl _ => acc | inr c => cadd acc c end.
Definition add_weight (acc : Qc) (iw : (list cost + cost) * Qc) : Qc :=
  match fst iw with inl _ => (acc + snd iw)%Qc | inr _ => acc end.
(** lines 592-603: the new penalties of one subproblem. *)
Definition new_penalties (total : list cost) (total_weight : Qc) (iw : (list cost + cost) * Qc) : list cost :=
  match fst iw with
  | inl mm =>
      map (fun x => let desired := cscale (snd iw / total_weight)%Qc (fst x) in
                    csub desired (if eqb desired Inf then Fin 0%Qc else snd x))
          (combine total mm)
  | inr _ => []
  end.
(** lines 353-619, [min_marginal_average]. *)
Definition min_marginal_average (s : sysdata) (v : nat) : result (cost * sysdata) :=
  do ps <- participants s v;
  do rs <- mapM (collect_one (num_values s)) ps;
  let infos := map fst rs in
  do ex <- or_err IndexError (nth_error (extra s) v);
  let total := vadd (fold_left add_marginals infos (repeat (Fin 0%Qc) (num_values s))) ex in
  let total_weight := fold_left add_weight (combine infos (weights s)) 0%Qc in
  let nonpart := fold_left add_nonparticipating infos (Fin 0%Qc) in
  let rows := map (new_penalties total total_weight) (combine infos (weights s)) in
  do best <- np_min total;
  Ok (cadd best nonpart,
      mkSys (write_rows (combine (map snd rs) (map snd ps)) rows)
            (imap s) (weights s) (extra s) (num_keys s) (num_values s)).

(** lines 622-636 (time stamps are left out). *)
Record sweep_results := mkSweeps {
  objective_at_step : list cost;
  variable_at_step : list nat;
  objective_at_sweep : list (option cost);
  steps_at_sweep : list nat;
  reached_plateau : bool
}.

(** line 711: [(new - last) > tolerance], where [last] may still be -inf. *)
Definition did_improve (last : option cost) (new : cost) (tolerance : Qc) : bool :=
  match last, new with
  | None, NaN => false
  | None, _ => true
  | Some (Fin l), Fin n => qc_ltb tolerance (n - l)%Qc
  | Some (Fin _), Inf => true
  | Some _, _ => false
  end.

Inductive direction := FORWARD | REVERSE.
(** lines 700-705. *)
Definition sweep_variables (dir : direction) (n : nat) : list nat :=
  match dir with FORWARD => seq 0 (n - 1) | REVERSE => rev (seq 1 (n - 1)) end.

(** lines 708-719: one sweep; the accumulated state is (system, last bound,
    saw_any_change, steps so far in order). *)
Record progress := mkProgress {
  g_sys : sysdata;
  g_last : option cost;
  g_changed : bool;
  g_objectives : list cost;
  g_variables : list nat;
  g_sweeps : list (option cost);
  g_steps : list nat
}.
Fixpoint run_sweep (tolerance : Qc) (vs : list nat) (g : progress) : result progress :=
  match vs with
  | [] => Ok g
  | v :: vs' =>
      do r <- min_marginal_average (g_sys g) v;
      run_sweep tolerance vs'
        (mkProgress (snd r) (Some (fst r))
           (if did_improve (g_last g) (fst r) tolerance then true else g_changed g)
           (g_objectives g ++ [fst r]) (g_variables g ++ [v]) (g_sweeps g) (g_steps g))
  end.
(** lines 721-730, the metadata of a finished sweep.  [clock i] says whether
    the clock is past the soft timeout after sweep [i]. *)
Definition end_sweep (g : progress) : progress :=
  mkProgress (g_sys g) (g_last g) (g_changed g) (g_objectives g) (g_variables g)
    (g_sweeps g ++ [g_last g]) (g_steps g ++ [length (g_objectives g)]).
(** lines 698-730: the loop over the two directions.  The [break] of line 730
    leaves this loop only. *)
Fixpoint run_directions (clock : nat -> bool) (tolerance : Qc) (dirs : list direction) (g : progress)
  : result progress :=
  match dirs with
  | [] => Ok g
  | dir :: dirs' =>
      do g1 <- run_sweep tolerance (sweep_variables dir (num_keys (g_sys g))) g;
      let g2 := end_sweep g1 in
      if clock (length (g_sweeps g1)) then Ok g2
      else run_directions clock tolerance dirs' g2
  end.
(** lines 695-735, [while True].  [fuel] bounds the iterations of the model;
    running out is the outcome [None], which is not a return value. *)
Fixpoint run_rounds (fuel : nat) (clock : nat -> bool) (tolerance : Qc) (g : progress)
  : option (result progress) :=
  match fuel with
  | 0 => None
  | S f =>
      match run_directions clock tolerance [FORWARD; REVERSE]
              (mkProgress (g_sys g) (g_last g) false (g_objectives g) (g_variables g)
                 (g_sweeps g) (g_steps g)) with
      | Err e => Some (Err e)
      | Ok g1 => if g_changed g1 then run_rounds f clock tolerance g1 else Some (Ok g1)
      end
  end.
(** lines 639-745, [solve_system_with_sweeps]; the only exit is a round
    without a change, so [reached_plateau] is always true. *)
Definition solve_system_with_sweeps (fuel : nat) (clock : nat -> bool) (tolerance : Qc) (s : sysdata)
  : option (result (sweep_results * sysdata)) :=
  match run_rounds fuel clock tolerance (mkProgress s None false [] [] [] []) with
  | None => None
  | Some (Err e) => Some (Err e)
  | Some (Ok g) =>
      Some (Ok (mkSweeps (g_objectives g) (g_variables g) (g_sweeps g) (g_steps g) true, g_sys g))
  end.

(** [np.argmin]: the first position of a least element (arrays holding [nan]
    are not modelled). *)
Fixpoint argmin_from (l : list cost) (i best : nat) (best_cost : cost) : nat :=
  match l with
  | [] => best
  | c :: l' => if cltb c best_cost then argmin_from l' (S i) i c else argmin_from l' (S i) best best_cost
  end.
Definition np_argmin (l : list cost) : result nat :=
  match l with [] => Err ValueError | c :: l' => Ok (argmin_from l' 1 0 c) end.

(** lines 772-777 and 887-892. *)
Definition iteration_order (dir : direction) (n : nat) : list nat :=
  match dir with FORWARD => seq 0 n | REVERSE => rev (seq 0 n) end.

(** lines 786-810: all values of [v] but [choice] become infinitely expensive. *)
Definition only_choice (nv choice : nat) (row : list cost) : list cost :=
  updnth choice (nth choice row NaN) (repeat Inf nv).
Definition commit_choice (s : sysdata) (v choice : nat) : result sysdata :=
  do ps <- participants s v;
  do ex <- or_err IndexError (nth_error (extra s) v);
  Ok (mkSys
        (write_rows ps
           (map (fun p => match snd p with
                          | Some k => only_choice (num_values s) choice (nth k (pens (fst p)) [])
                          | None => [] end) ps))
        (imap s) (weights s) (updnth v (only_choice (num_values s) choice ex) (extra s))
        (num_keys s) (num_values s)).
(** lines 779-813, the loop of [greedy_extract]. *)
Fixpoint greedy_loop (s : sysdata) (vs : list nat) (assignments : list (option nat)) (last : cost)
  : result (list (option nat) * cost) :=
  match vs with
  | [] => Ok (assignments, last)
  | v :: vs' =>
      do r <- system_min_marginals s v;
      do choice <- np_argmin (fst r);
      do s' <- commit_choice (snd r) v choice;
      greedy_loop s' vs' (updnth v (Some choice) assignments) (get (fst r) choice)
  end.
(** lines 749-813, [greedy_extract]: it works on a copy, so the caller's system
    is not among the results. *)
Definition greedy_extract (s : sysdata) (dir : direction) : result (list (option nat) * cost) :=
  greedy_loop (clone_system_data s) (iteration_order dir (num_keys s))
    (repeat None (num_keys s)) NaN.

(** lines 816-821. *)
Inductive commitment_status := MADE_PARTIAL_ASSIGNMENT | NEEDS_GREEDY_EXTRACT | STUCK.

(** lines 983-996. *)
Definition forbid (mask : list bool) (row : list cost) : list cost :=
  map (fun p : bool * cost => if fst p then Inf else snd p) (combine mask row).
Definition forbid_values (s : sysdata) (v : nat) (mask : list bool) : result sysdata :=
  do ps <- participants s v;
  do ex <- or_err IndexError (nth_error (extra s) v);
  Ok (mkSys
        (write_rows ps
           (map (fun p => match snd p with
                          | Some k => forbid mask (nth k (pens (fst p)) [])
                          | None => [] end) ps))
        (imap s) (weights s) (updnth v (forbid mask ex) (extra s))
        (num_keys s) (num_values s)).
(** lines 962-996, the second loop; returns the count of newly forbidden
    values too. *)
Fixpoint commit_loop (s : sysdata) (vs : list nat) (bound gap : cost) (count : nat)
  : result (nat * sysdata) :=
  match vs with
  | [] => Ok (count, s)
  | v :: vs' =>
      do r <- system_min_marginals s v;
      do best <- np_min (fst r);
      let bound' := if cltb bound best then best else bound in
      let mask := map (fun c => cltb (cadd bound' gap) c) (fst r) in
      let fresh := length (filter (fun p : bool * cost => fst p && is_finite (snd p)) (combine mask (fst r))) in
      do s' <- forbid_values (snd r) v mask;
      commit_loop s' vs' bound' gap (count + fresh)
  end.
(** lines 899-902, the first loop. *)
Fixpoint all_marginals (s : sysdata) (vs : list nat) : result (list (list cost) * sysdata) :=
  match vs with
  | [] => Ok ([], s)
  | v :: vs' =>
      do r <- system_min_marginals s v;
      do k <- all_marginals (snd r) vs';
      Ok (fst r :: fst k, snd k)
  end.
Definition cmax (a b : cost) : cost := if cltb a b then b else a.
(** Float comparison [a <= b]. *)
Definition cleb (a b : cost) : bool :=
  match a, b with NaN, _ | _, NaN => false | _, _ => negb (cltb b a) end.
(** lines 824-1003, [partially_commit].  [threshold] is the quantile of the
    aggregated min marginals computed by numpy (line 926); [None] stands for
    -inf.  The quantile is not modelled: it may be any value. *)
Definition partially_commit (s : sysdata) (dir : direction) (threshold : option cost)
    (gap_strictness epsilon : Qc) : result (commitment_status * sysdata) :=
  let order := iteration_order dir (num_keys s) in
  do mms <- all_marginals s order;
  do mins <- mapM np_min (fst mms);
  do bound <- match mins with [] => Err ValueError | c :: cs => Ok (fold_left cmax cs c) end;
  match threshold with
  | None => Ok (NEEDS_GREEDY_EXTRACT, snd mms)
  | Some t =>
      if cleb t (cadd bound (Fin epsilon)) then Ok (NEEDS_GREEDY_EXTRACT, snd mms)
      else
        let target := match csub t bound with
                      | Fin g => if qc_ltb 0%Qc g then Fin g else Fin 0%Qc
                      | Inf => Inf
                      | NaN => Fin 0%Qc end in
        do r <- commit_loop (snd mms) order bound (cscale gap_strictness target) 0;
        Ok (if fst r =? 0 then STUCK else MADE_PARTIAL_ASSIGNMENT, snd r)
  end.

(** lines 1058-1080 and 1121-1146: add a vector of unary costs of a variable,
    split evenly over the participating subproblems. *)
Definition add_unary (s : sysdata) (v : nat) (vec : list cost) : result sysdata :=
  do ps <- participants s v;
  do ex <- or_err IndexError (nth_error (extra s) v);
  let relevant := length (filter (fun p => match snd p with Some _ => true | None => false end) ps) in
  let share := map (cscale (/ Q2Qc (inject_Z (Z.of_nat relevant)))%Qc) vec in
  Ok (mkSys
        (write_rows ps
           (map (fun p => match snd p with
                          | Some k => vadd (nth k (pens (fst p)) []) share
                          | None => [] end) ps))
        (imap s) (weights s) (updnth v (vadd ex vec) (extra s))
        (num_keys s) (num_values s)).

(** lines 1083-1146, [break_symmetry_randomly]; [noise] is what the random
    generator returns, one vector per variable. *)
Definition break_symmetry (s : sysdata) (noise : nat -> list cost) : result sysdata :=
  foldM (fun s v => add_unary s v (noise v)) (seq 0 (num_keys s)) s.

Section System.
  Context {St Ky Vl In : Type} `{EqDec St} `{EqDec Ky} `{EqDec Vl}.
  Context (kle : Ky -> Ky -> bool).

  (** lines 115-131. *)
  Record system := mkSystem {
    data : sysdata;
    sys_keys : list Ky;
    sys_values : list Vl;
    conversion_data : list (@conversion St Ky Vl In)
  }.

  (** lines 162-266, [make_system]; [proportions = None] is the default. *)
  Definition make_system (converted : list (pdag * @conversion St Ky Vl In)) (proportions : option (list Qc))
    : result system :=
    match converted with
    | [] => Err ValueError
    | (_, cv0) :: rest =>
        if forallb (fun c => eqb (variable_values (snd c)) (variable_values cv0)) rest then
          let keys := sort kle (fold_left add_new (flat_map (fun c => variable_keys (snd c)) converted) []) in
          let values := variable_values cv0 in
          Ok (mkSystem
                (mkSys (map (fun c => empty_unpenalized_table (fst c)) converted)
                   (map (fun key => map (fun c => index_of (variable_keys (snd c)) key) converted) keys)
                   (match proportions with Some w => w | None => map (fun _ => 1%Qc) converted end)
                   (map (fun _ => repeat (Fin 0%Qc) (length values)) keys)
                   (length keys) (length values))
                keys values (map snd converted))
        else Err ValueError
    end.

  (** lines 1006-1025, [assignments_from_assignment_vector]. *)
  Definition assignments_from_assignment_vector (sy : system) (vector : list nat) : result (list (Ky * Vl)) :=
    mapM (fun kv =>
            do key <- or_err IndexError (nth_error (sys_keys sy) (fst kv));
            do value <- or_err IndexError (nth_error (sys_values sy) (snd kv));
            Ok (key, value)) (enumerate vector).

  (** lines 1028-1080, [constrain_system]. *)
  Definition constraint_vector (nv : nat) (penalty : cost) (value : nat) : list cost :=
    updnth value (Fin 0%Qc) (repeat penalty nv).
  Definition constrain_one (sy : system) (penalty : cost) (kv : Ky * Vl) : result system :=
    do v <- or_err KeyError (index_of (sys_keys sy) (fst kv));
    do a <- or_err KeyError (index_of (sys_values sy) (snd kv));
    do s <- add_unary (data sy) v (constraint_vector (num_values (data sy)) penalty a);
    Ok (mkSystem s (sys_keys sy) (sys_values sy) (conversion_data sy)).
  Definition constrain_system (sy : system) (constraints : list (Ky * Vl)) (penalty : cost) : result system :=
    foldM (fun sy kv => constrain_one sy penalty kv) constraints sy.
End System.
