(** Model of the packed DAG and its prefix/suffix cost tables:
    r_u_sure/decision_diagrams/packed_dags.py:93-158, 200-225, 942-1544.

    Packed edges are [edge nat (nat * nat) unit]: state indices, and the pair
    (key index, value index) or [None] where the array holds -1.
    Simplifications: array reads out of range give the default ([NaN] or 0)
    instead of IndexError; [layout] below rules them out.  Tags are integers,
    as in the code (-1 is "no variable yet"). *)

From Coq Require Import List Bool Arith Lia ZArith QArith Qcanon.
From Verif Require Import Base Graph.
Import ListNotations.
Close Scope Qc_scope. Close Scope Q_scope. Open Scope nat_scope.

Definition pedge := edge nat (nat * nat) unit.

(** packed_dags.py:93-158, [PackedStateDAG]. *)
Record pdag := mkPdag {
  n_states : nat;
  n_keys : nat;
  n_values : nat;
  pedges : list pedge;
  egb : list nat;          (* edge_group_boundary_indices *)
  svb : list nat           (* state_variable_boundary_indices *)
}.

Definition zget (l : list nat) (i : Z) : nat := nth (Z.to_nat i) l 0.

(** packed_dags.py:200-225. *)
Definition before_assigning (d : pdag) (v : Z) : nat := zget (egb d) (2 * v + 1).
Definition after_assigning (d : pdag) (v : Z) : nat := zget (egb d) (2 * v + 2).
Definition state_tag_start (d : pdag) (v : Z) : nat := zget (svb d) (v + 1).
Definition state_tag_end (d : pdag) (v : Z) : nat := zget (svb d) (v + 2).

(** packed_dags.py:942-953, [scale_packed_dag_costs]; numpy [inf * scale] is
    [inf] for a positive scale, [nan] for zero.  Negative scales of infinite
    costs (-inf) are not modelled. *)
Definition cscale (q : Qc) (c : cost) : cost :=
  match c with
  | Fin x => Fin (x * q)%Qc
  | Inf => if Qclt_le_dec 0%Qc q then Inf else NaN
  | NaN => NaN
  end.
Definition scale_packed_dag_costs (d : pdag) (q : Qc) : pdag :=
  mkPdag (n_states d) (n_keys d) (n_values d)
    (map (fun e => mkEdge (source e) (dest e) (cscale q (ecost e)) (assignment e) (info e)) (pedges d))
    (egb d) (svb d).

(** packed_dags.py:956-1033, [PenalizedShortestPrefixSuffixTables]. *)
Record memo := mkMemo {
  m_dag : pdag;
  pens : list (list cost);
  pre_table : list cost;
  suf_table : list cost;
  pre_valid : Z;             (* prefixes_valid_ending_at_tag *)
  suf_valid : Z              (* suffixes_valid_starting_from_tag *)
}.

(** packed_dags.py:1037-1058, [empty_table]. *)
Definition empty_table (d : pdag) (penalties : list (list cost)) : memo :=
  mkMemo d penalties (repeat NaN (n_states d)) (repeat NaN (n_states d))
    (-2) (Z.of_nat (n_keys d)).
(** packed_dags.py:1062-1072. *)
Definition empty_unpenalized_table (d : pdag) : memo :=
  empty_table d (repeat (repeat (Fin 0%Qc) (n_values d)) (n_keys d)).
(** packed_dags.py:1076-1088: copying has no effect on values. *)
Definition copy_memo (m : memo) : memo :=
  mkMemo (m_dag m) (pens m) (pre_table m) (suf_table m) (pre_valid m) (suf_valid m).

(** numpy [l[a:b] = x]. *)
Definition fill (a b : nat) (x : cost) (l : list cost) : list cost :=
  map (fun p => if (a <=? fst p) && (fst p <? b) then x else snd p)
      (combine (seq 0 (length l)) l).
(** [es[a:b]]. *)
Definition slice {A} (a b : nat) (l : list A) : list A := firstn (b - a) (skipn a l).

(** packed_dags.py:1092-1116. *)
Definition masked_prefixes (m : memo) : list cost :=
  fill (state_tag_end (m_dag m) (pre_valid m)) (length (pre_table m)) NaN (pre_table m).
Definition masked_suffixes (m : memo) : list cost :=
  fill 0 (state_tag_start (m_dag m) (suf_valid m)) NaN (suf_table m).

(** packed_dags.py:1178-1183 (and 1256-1261, 1483-1488): the penalty of an edge. *)
Definition penalty (P : list (list cost)) (e : pedge) : cost :=
  match assignment e with
  | None => Fin 0%Qc
  | Some (k, v) => nth v (nth k P []) NaN
  end.

Definition get (T : list cost) (i : nat) : cost := nth i T NaN.

(** packed_dags.py:1168-1188, loop body. *)
Definition relax_fwd (P : list (list cost)) (T : list cost) (e : pedge) : list cost :=
  updnth (dest e)
    (cmin (get T (dest e)) (cadd (cadd (get T (source e)) (ecost e)) (penalty P e))) T.
(** packed_dags.py:1246-1266, loop body. *)
Definition relax_bwd (P : list (list cost)) (T : list cost) (e : pedge) : list cost :=
  updnth (source e)
    (cmin (get T (source e)) (cadd (cadd (get T (dest e)) (ecost e)) (penalty P e))) T.

(** packed_dags.py:1120-1190, [update_prefixes_up_to]. *)
Definition update_prefixes_up_to (m : memo) (desired : Z) : result memo :=
  let d := m_dag m in
  if ((desired <? -1) || (Z.of_nat (n_keys d) <=? desired))%Z then Err AssertionError
  else
    let was := pre_valid m in
    if (desired <=? was)%Z then Ok m
    else
      let T0 := fill (state_tag_start d (was + 1)) (state_tag_end d desired) Inf (pre_table m) in
      let '(start, T1) :=
        if (was =? -2)%Z then (0, updnth 0 (Fin 0%Qc) T0)
        else (before_assigning d (was + 1), T0) in
      let stop := before_assigning d (desired + 1) in
      let T2 := fold_left (relax_fwd (pens m)) (slice start stop (pedges d)) T1 in
      Ok (mkMemo d (pens m) T2 (suf_table m) desired (suf_valid m)).

(** packed_dags.py:1194-1268, [update_suffixes_up_to].  The loop runs over edge
    indices from [hi - 1] down to [lo]. *)
Definition update_suffixes_up_to (m : memo) (desired : Z) : result memo :=
  let d := m_dag m in
  if ((desired <? -1) || (Z.of_nat (n_keys d) <=? desired))%Z then Err AssertionError
  else
    let was := suf_valid m in
    if (was <=? desired)%Z then Ok m
    else
      let T0 := fill (state_tag_start d desired) (state_tag_end d (was - 1)) Inf (suf_table m) in
      let '(hi, T1) :=
        if (was =? Z.of_nat (n_keys d))%Z
        then (last (egb d) 0, updnth (length T0 - 1) (Fin 0%Qc) T0)
        else (after_assigning d was, T0) in
      let lo := if (desired =? -1)%Z then 0 else after_assigning d desired in
      let T2 := fold_left (relax_bwd (pens m)) (rev (slice lo hi (pedges d))) T1 in
      Ok (mkMemo d (pens m) (pre_table m) T2 (pre_valid m) desired).

(** packed_dags.py:1272-1300, [set_penalties]. *)
Definition set_penalties (m : memo) (v : nat) (row : list cost) : memo :=
  mkMemo (m_dag m) (updnth v row (pens m)) (pre_table m) (suf_table m)
    (Z.min (pre_valid m) (Z.of_nat v - 1)) (Z.max (suf_valid m) (Z.of_nat v)).

(** packed_dags.py:1304-1307. *)
Definition make_fully_valid (m : memo) : result memo :=
  do m1 <- update_prefixes_up_to m (Z.of_nat (n_keys (m_dag m)) - 1);
  update_suffixes_up_to m1 (-1).

(** packed_dags.py:1340-1359, loop body. *)
Definition marginal_step (m : memo) (mm : list cost) (e : pedge) : list cost :=
  match assignment e with
  | None => mm                     (* excluded by the assertion of line 1349 *)
  | Some (_, v) =>
      updnth v (cmin (get mm v)
                  (cadd (cadd (cadd (get (pre_table m) (source e)) (ecost e)) (penalty (pens m) e))
                        (get (suf_table m) (dest e)))) mm
  end.
(** packed_dags.py:1311-1360, [compute_min_marginals_for_variable]. *)
Definition compute_min_marginals (m : memo) (v : nat) : result (list cost * memo) :=
  let d := m_dag m in
  if n_keys d <=? v then Err AssertionError
  else
    do m1 <- update_prefixes_up_to m (Z.of_nat v - 1);
    do m2 <- update_suffixes_up_to m1 (Z.of_nat v);
    let group := slice (before_assigning d (Z.of_nat v)) (after_assigning d (Z.of_nat v)) (pedges d) in
    if forallb (fun e => match assignment e with Some (k, _) => k =? v | None => false end) group
    then Ok (fold_left (marginal_step m2) group (repeat Inf (n_values d)), m2)
    else Err AssertionError.

(** packed_dags.py:1364-1385, [compute_all_min_marginals]. *)
Fixpoint all_marginals_loop (m : memo) (vs : list nat) : result (list (list cost) * memo) :=
  match vs with
  | [] => Ok ([], m)
  | v :: vs' =>
      do r <- compute_min_marginals m v;
      do k <- all_marginals_loop (snd r) vs';
      Ok (fst r :: fst k, snd k)
  end.
Definition compute_all_min_marginals (m : memo) : result (list (list cost) * memo) :=
  do m1 <- make_fully_valid m;
  all_marginals_loop m1 (seq 0 (n_keys (m_dag m))).

(** packed_dags.py:1388-1402. *)
Inductive strategy := AT_END | AT_START | FROM_MIDDLE.

(** [np.min] of a 1D array. *)
Definition np_min (l : list cost) : result cost :=
  match l with [] => Err ValueError | x :: l' => Ok (fold_left cmin l' x) end.

(** packed_dags.py:1406-1434, [compute_minimal_cost]. *)
Definition compute_minimal_cost (m : memo) (s : strategy) : result (cost * memo) :=
  let d := m_dag m in
  match s with
  | AT_START => do m1 <- update_suffixes_up_to m (-1); Ok (get (suf_table m1) 0, m1)
  | AT_END =>
      do m1 <- update_prefixes_up_to m (Z.of_nat (n_keys d) - 1);
      Ok (get (pre_table m1) (length (pre_table m1) - 1), m1)
  | FROM_MIDDLE =>
      let t := Z.min (Z.max 0 (suf_valid m)) (Z.of_nat (n_keys d) - 1) in
      if (t <? 0)%Z then Err AssertionError
      else
        do r <- compute_min_marginals m (Z.to_nat t);
        do c <- np_min (fst r);
        Ok (c, snd r)
  end.

(** packed_dags.py:1473-1494: choosing the next edge; the accumulator is
    (best_index, best_cost_to_go, best_next_state). *)
Definition choose (m : memo) (acc : nat * cost * nat) (k : nat) : nat * cost * nat :=
  let '(_, best, _) := acc in
  match nth_error (pedges (m_dag m)) k with
  | None => acc                                   (* IndexError in the code *)
  | Some e =>
      let c := cadd (cadd (get (suf_table m) (dest e)) (ecost e)) (penalty (pens m) e) in
      if cltb c best then (k, c, dest e) else acc
  end.

(** packed_dags.py:1463-1509, the while loop, returning the packed edge indices
    taken.  [fuel] bounds the number of iterations; running out is the separate
    outcome [Err RuntimeError]. *)
Fixpoint extract_loop (m : memo) (outgoing : list (list nat)) (fuel : nat) (state : nat)
  : result (list nat) :=
  if state <? n_states (m_dag m) - 1 then
    match fuel with
    | 0 => Err RuntimeError
    | S f =>
        match nth_error outgoing state with
        | None => Err IndexError
        | Some [] => Err AssertionError
        | Some ((k0 :: _) as ks) =>
            let '(k, _, next) := fold_left (choose m) ks (k0, Inf, n_states (m_dag m)) in
            do rest <- extract_loop m outgoing f next;
            Ok (k :: rest)
        end
    end
  else Ok [].

(** The first part of packed_dags.py:1437-1511: edge indices of the extracted
    path (what is done with them is in [Convert.v]). *)
Definition extract_indices (m : memo) (outgoing : list (list nat)) : result (list nat * memo) :=
  do m1 <- update_suffixes_up_to m (-1);
  do p <- extract_loop m1 outgoing (S (length (pedges (m_dag m)))) 0;
  Ok (p, m1).

(** packed_dags.py:1538-1540: the penalty row forcing value [v]. *)
Definition force_row (n v : nat) : list cost := updnth v (Fin 0%Qc) (repeat Inf n).
(** packed_dags.py:1534-1540, on key and value indices. *)
Definition constrain (m : memo) (cs : list (nat * nat)) : memo :=
  fold_left (fun m kv => set_penalties m (fst kv) (force_row (n_values (m_dag m)) (snd kv))) cs m.

(** ** Specification: what a packed DAG must look like, and path costs. *)
Record layout (d : pdag) : Prop := {
  l_svb_len : length (svb d) = n_keys d + 2;
  l_svb_0 : nth 0 (svb d) 0 = 0;
  l_svb_end : nth (n_keys d + 1) (svb d) 0 = n_states d;
  l_svb_mono : forall i j, i <= j <= n_keys d + 1 -> nth i (svb d) 0 <= nth j (svb d) 0;
  l_egb_len : length (egb d) = 2 * n_keys d + 2;
  l_egb_0 : nth 0 (egb d) 0 = 0;
  l_egb_end : nth (2 * n_keys d + 1) (egb d) 0 = length (pedges d);
  l_egb_mono : forall i j, i <= j <= 2 * n_keys d + 1 -> nth i (egb d) 0 <= nth j (egb d) 0;
  (* edges between assignments: no assignment, both ends carry the same tag *)
  l_between : forall i k e, i <= n_keys d ->
    nth (2 * i) (egb d) 0 <= k < nth (2 * i + 1) (egb d) 0 ->
    nth_error (pedges d) k = Some e ->
    assignment e = None /\
    nth i (svb d) 0 <= source e < nth (i + 1) (svb d) 0 /\
    nth i (svb d) 0 <= dest e < nth (i + 1) (svb d) 0;
  (* edges assigning variable [i] lead from tag [i - 1] to tag [i] *)
  l_assign : forall i k e, i < n_keys d ->
    nth (2 * i + 1) (egb d) 0 <= k < nth (2 * i + 2) (egb d) 0 ->
    nth_error (pedges d) k = Some e ->
    (exists v, assignment e = Some (i, v) /\ v < n_values d) /\
    nth i (svb d) 0 <= source e < nth (i + 1) (svb d) 0 /\
    nth (i + 1) (svb d) 0 <= dest e < nth (i + 2) (svb d) 0;
  l_topological : topological (pedges d);
  l_costs : forall e, In e (pedges d) -> ecost e <> NaN;
  l_initial : 0 < nth 1 (svb d) 0;
  l_final : nth (n_keys d) (svb d) 0 < n_states d
}.

Definition pens_ok (d : pdag) (P : list (list cost)) : Prop :=
  length P = n_keys d /\
  Forall (fun row => length row = n_values d /\ Forall (fun c => c <> NaN) row) P.

(** Cost of a path with penalties: the edge costs plus the penalties of the
    assignments made. *)
Definition penalized_cost (P : list (list cost)) (p : list pedge) : cost :=
  cadd (path_cost p)
       (csum (map (fun a => nth (snd a) (nth (fst a) P []) NaN) (path_assignments p))).

(** [c] is the least of the costs in [S], or infinite if there are none. *)
Definition least (S : cost -> Prop) (c : cost) : Prop :=
  c <> NaN /\ (forall x, S x -> cle c x) /\ (S c \/ c = Inf).

Definition path_costs (d : pdag) P (s t : nat) (c : cost) : Prop :=
  exists p, is_path (pedges d) s p t /\ penalized_cost P p = c.
(** Complete paths: from the first state to the last. *)
Definition packed_complete (d : pdag) (p : list pedge) : Prop :=
  is_path (pedges d) 0 p (n_states d - 1).
Definition complete_costs (d : pdag) P (c : cost) : Prop :=
  path_costs d P 0 (n_states d - 1) c.
