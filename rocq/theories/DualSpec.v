(** Specification vocabulary for the dual decomposition solver: consistent
    solutions, their cost, and the dual objective.  Nothing here mentions how
    the solver works. *)

From Coq Require Import List Bool Arith Lia ZArith QArith Qcanon.
From Verif Require Import Base Graph PackedDag PackedTables DualSolver.
Import ListNotations.
Close Scope Qc_scope. Close Scope Q_scope. Open Scope nat_scope.

Definition no_dag : pdag := mkPdag 0 0 0 [] [] [].
Definition no_table : memo := empty_table no_dag [].
(** The [j]-th subproblem. *)
Definition table (s : sysdata) (j : nat) : memo := nth j (tables s) no_table.
Definition dag_of (s : sysdata) (j : nat) : pdag := m_dag (table s j).
Definition num_dags (s : sysdata) : nat := length (tables s).
(** Position of variable [v] in subproblem [j], if it takes part in it. *)
Definition local (s : sysdata) (v j : nat) : option nat := nth j (nth v (imap s) []) None.
Definition extra_at (s : sysdata) (v a : nat) : cost := nth a (nth v (extra s) []) NaN.
(** The penalty that subproblem [j] charges for giving value [a] to variable [v]. *)
Definition pen_at (s : sysdata) (j v a : nat) : cost :=
  match local s v j with
  | Some k => nth a (nth k (pens (table s j)) []) NaN
  | None => Fin 0%Qc
  end.
Definition over (n : nat) (f : nat -> cost) : cost := csum (map f (seq 0 n)).
(** The penalties of [v := a] summed over the subproblems. *)
Definition pen_sum (s : sysdata) (v a : nat) : cost :=
  over (num_dags s) (fun j => pen_at s j v a).

(** Path [p] of subproblem [j] gives every variable the value that [x] lists for it. *)
Definition chooses (s : sysdata) (x : list nat) (j : nat) (p : list pedge) : Prop :=
  packed_complete (dag_of s j) p /\
  forall v k, v < num_keys s -> local s v j = Some k -> In (k, nth v x 0) (path_assignments p).
(** One complete path per subproblem, all agreeing with the assignment vector [x]. *)
Definition solution (s : sysdata) (x : list nat) (ps : list (list pedge)) : Prop :=
  length x = num_keys s /\ length ps = num_dags s /\
  forall j, j < num_dags s -> chooses s x j (nth j ps []).
(** Its cost: that of the paths, plus the extra unary costs. *)
Definition solution_cost (s : sysdata) (x : list nat) (ps : list (list pedge)) : cost :=
  cadd (csum (map (fun p : list pedge => path_cost p) ps))
       (over (num_keys s) (fun v => extra_at s v (nth v x 0))).

(** The dual objective: the subproblems' minimal penalized costs, summed. *)
Definition dual_objective (s : sysdata) (c : cost) : Prop :=
  exists L : nat -> cost,
    (forall j, j < num_dags s ->
       least (complete_costs (dag_of s j) (pens (table s j))) (L j)) /\
    c = over (num_dags s) L.

(** The local positions of the variables taking part in subproblem [j], in order. *)
Definition column (s : sysdata) (j : nat) : list nat :=
  flat_map (fun row => match nth j row None with Some k => [k] | None => [] end) (imap s).

(** Well-formed systems: array shapes, consistent cost tables, positive update
    proportions, and an index map that numbers each subproblem's variables in
    order.  [0 < n_keys] is a genuine restriction: the solver fails on a
    subproblem without variables (see [C14_no_variables_refuted]). *)
Record sys_ok (s : sysdata) : Prop := {
  so_imap : length (imap s) = num_keys s;
  so_rows : forall v, v < num_keys s -> length (nth v (imap s) []) = num_dags s;
  so_weights : length (weights s) = num_dags s;
  so_positive : forall w, In w (weights s) -> (0 < w)%Qc;
  so_extra : length (extra s) = num_keys s;
  so_extra_rows : forall v, v < num_keys s -> length (nth v (extra s) []) = num_values s;
  so_extra_nn : forall v a, v < num_keys s -> a < num_values s -> extra_at s v a <> NaN;
  so_tables : forall j, j < num_dags s ->
    inv (table s j) /\ n_values (dag_of s j) = num_values s /\ 0 < n_keys (dag_of s j);
  so_columns : forall j, j < num_dags s -> column s j = seq 0 (n_keys (dag_of s j));
  so_participant : forall v, v < num_keys s -> exists j, j < num_dags s /\ local s v j <> None;
  so_values : 0 < num_values s
}.

(** The penalties of [v := a] sum to the extra unary cost. *)
Definition conserved (s : sysdata) (v a : nat) : Prop := pen_sum s v a = extra_at s v a.

(** Cost of a path leaving out the penalty of local variable [k]. *)
Definition rest_cost (P : list (list cost)) (k : nat) (p : list pedge) : cost :=
  cadd (path_cost p)
    (csum (map (fun a => nth (snd a) (nth (fst a) P []) NaN)
               (filter (fun a => negb (fst a =? k)) (path_assignments p)))).
(** Subproblem [j] rules out [v := a] whatever the penalty of [v] itself. *)
Definition blocked (s : sysdata) (v a j : nat) : Prop :=
  exists k, local s v j = Some k /\
  forall p, packed_complete (dag_of s j) p -> In (k, a) (path_assignments p) ->
    rest_cost (pens (table s j)) k p = Inf.
(** What is left of conservation: a value whose penalties do not sum to the
    extra unary cost is forbidden by every subproblem, ruled out by one of
    them on other grounds, and used by no solution of finite cost. *)
Definition nearly_conserved (s : sysdata) : Prop :=
  forall v a, v < num_keys s -> a < num_values s ->
    conserved s v a \/
    ((forall j, j < num_dags s -> local s v j <> None -> pen_at s j v a = Inf) /\
     (exists j, j < num_dags s /\ blocked s v a j) /\
     (forall x ps, solution s x ps -> nth v x 0 = a -> solution_cost s x ps = Inf)).
