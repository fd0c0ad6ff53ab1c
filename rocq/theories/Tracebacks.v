(** Model of edge tracebacks, decision_diagrams/gated_state_dag.py:232-272 and 327-345.

    Simplifications: a value kept in an edge's [info] is a dictionary, a stack frame or something else;
    the frame that [traceback.extract_stack] finds (line 258) is given with the call.  A program is a list of calls and
    [with] blocks. *)

From Coq Require Import String.
From Coq Require Import List Bool Arith.
From Verif Require Import Base SeqNodes Graph GatedDag Html.
Import ListNotations.
Close Scope string_scope. Open Scope nat_scope. Open Scope list_scope.

Section Tracebacks.
  Context {St As X Fr : Type} {dSt : EqDec St}.
  (** What an [info] can be. *)
  Inductive value := Dict (d : list (text * value)) | Frame (f : Fr) | Other (x : X).
  Notation E := (edge St As value).
  Notation P := (partial_dag St As value).

  (** Dictionaries keep the order in which keys were first set: [d[k] = v], also in [{**d, k: v}], and [del d[k]]. *)
  Fixpoint dict_set (k : text) (v : value) (d : list (text * value)) : list (text * value) :=
    match d with
    | [] => [(k, v)]
    | (k', v') :: d' => if eqb k k' then (k', v) :: d' else (k', v') :: dict_set k v d'
    end.
  Definition dict_del (k : text) (d : list (text * value)) : list (text * value) := filter (fun p => negb (eqb k (fst p))) d.

  (** Lines 256-269: the edge with a traceback. *)
  Definition with_traceback (f : Fr) (e : E) : E :=
    mkEdge (source e) (dest e) (ecost e) (assignment e)
      match info e with
      | Dict d => Dict (dict_set (chars "traceback") (Frame f) d)
      | i => Dict [(chars "original_info", i); (chars "traceback", Frame f)]
      end.
  (** Lines 246-272, [partial_state_dag_add_edge], given EDGE_TRACEBACKS_ENABLED. *)
  Definition add_edge_traced (enabled : bool) (d : P) (e : E) (f : Fr) : result P :=
    match assoc (dest e) (p_seen_outgoing d) with
    | Some _ => match assoc (source e) (p_seen_outgoing d) with Some _ => Err ValueError | None => Err KeyError end
    | None =>
        let e := if enabled then with_traceback f e else e in
        Ok (mkPartial (p_initial d) (p_edges d ++ [e]) ((source e, dest e) :: p_seen_outgoing d))
    end.
  (** Lines 327-345, [strip_traceback_from_edge] *)
  Definition strip_traceback_from_edge (e : E) : E :=
    let strip original := mkEdge (source e) (dest e) (ecost e) (assignment e) original in
    match info e with
    | Dict d =>
        match assoc (chars "original_info") d with
        | Some original => strip original
        | None =>
            match assoc (chars "traceback") d with
            | Some _ => strip (Dict (dict_del (chars "traceback") d))
            | None => e
            end
        end
    | _ => e
    end.

  (** Calls of [partial_state_dag_add_edge] and [with adding_edge_tracebacks():] blocks. *)
  Inductive step := Add (e : E) (f : Fr) | Tracing (body : list step).
  (** What the steps do to EDGE_TRACEBACKS_ENABLED and to the DAG, and the exception that ends them; lines 235-243,
      [adding_edge_tracebacks], sets the flag, and clears it however the block ends. *)
  Fixpoint run_step (enabled : bool) (d : P) (s : step) : bool * P * option exn :=
    match s with
    | Add e f => match add_edge_traced enabled d e f with Ok d' => (enabled, d', None) | Err x => (enabled, d, Some x) end
    | Tracing body =>
        let '(_, d', x) :=
          (fix go (enabled : bool) (d : P) (l : list step) : bool * P * option exn :=
             match l with
             | [] => (enabled, d, None)
             | s :: l' => match run_step enabled d s with (b, d', None) => go b d' l' | r => r end
             end) true d body in
        (false, d', x)
    end.
  Fixpoint run (enabled : bool) (d : P) (l : list step) : bool * P * option exn :=
    match l with
    | [] => (enabled, d, None)
    | s :: l' => match run_step enabled d s with (b, d', None) => run b d' l' | r => r end
    end.
End Tracebacks.
Arguments value : clear implicits.
Arguments step : clear implicits.
