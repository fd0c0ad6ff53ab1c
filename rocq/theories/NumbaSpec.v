(** Specification: two results of combining that differ at most in the names of the
    states of the DAGs. *)

From Coq Require Import List Bool Arith ZArith QArith Qcanon.
From Verif Require Import Base Graph GatedDag GatedDagRewrite PackedDag Convert Decisions DualSolver Combine.
Import ListNotations.
Close Scope Qc_scope. Close Scope Q_scope. Close Scope Z_scope. Open Scope nat_scope.

(** The states of a DAG have different slots in a table of [size] entries. *)
Definition collision_free {S A I} (hash : S -> nat) (size : nat) (d : dag S A I) : Prop :=
  forall s s', List.In s (states_of d) -> List.In s' (states_of d) -> hash s mod size = hash s' mod size -> s = s'.

(** What is needed to read a path back, with each state renamed. *)
Definition renamed {S S' K V I} (c : @conversion S K V I) (c' : @conversion S' K V I) : Prop :=
  exists g : S -> S',
    (forall s s', List.In s (original_states c) -> List.In s' (original_states c) -> g s = g s' -> s = s') /\
    variable_keys c' = variable_keys c /\ variable_values c' = variable_values c /\
    original_states c' = map g (original_states c) /\
    original_edges c' = map (rename_edge g) (original_edges c) /\
    tagged_states c' = map (fun t => (g (fst t), snd t)) (tagged_states c) /\
    tagged_edges c' = map (rename_edge (fun t => (g (fst t), snd t))) (tagged_edges c) /\
    outgoing_indices c' = outgoing_indices c.
(** The same packed DAGs, tables, variables and values. *)
Definition same_system {S S' K V I} (sy : @system S K V I) (sy' : @system S' K V I) : Prop :=
  data sy' = data sy /\ sys_keys sy' = sys_keys sy /\ sys_values sy' = sys_values sy /\
  Forall2 renamed (conversion_data sy) (conversion_data sy').
(** All fields of the result are equal but the system, which is the same up to names. *)
Definition same_result {M S S' I} (r : combine_result M S I) (r' : combine_result M S' I) : Prop :=
  r_context_info r' = r_context_info r /\ r_prototype r' = r_prototype r /\ r_targets r' = r_targets r /\
  same_system (r_system r) (r_system r') /\ r_opt_results r' = r_opt_results r /\
  utility_dual_bound r' = utility_dual_bound r /\ solution_utility r' = solution_utility r /\
  assignment_vector r' = assignment_vector r /\ assignment_map r' = assignment_map r /\ r_solution_info r' = r_solution_info r.
(** Neither ends, or both raise the same exception, or both return. *)
Definition same_outcome {M S S' I} (o : option (result (combine_result M S I))) (o' : option (result (combine_result M S' I))) : Prop :=
  match o, o' with
  | None, None => True
  | Some (Err e), Some (Err e') => e = e'
  | Some (Ok r), Some (Ok r') => same_result r r'
  | _, _ => False
  end.
