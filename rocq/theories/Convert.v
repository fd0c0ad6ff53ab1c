(** Model of [convert_dag_to_packed],
    r_u_sure/decision_diagrams/packed_dags.py:343-899, and of the functions that
    read its conversion data (1437-1544).

    Simplifications.  Keys and values come with a boolean total order (Python's
    [<] used by [list.sort]).  Dictionaries are association lists, sets are
    duplicate-free lists in insertion order.  The per-variable lists
    [edge_groups_before_var]/[edge_groups_assigning_var] are represented by one
    list of (group number, edge), group [2 i] being "before variable i" and
    [2 i + 1] "assigning variable i"; appending to a list is appending to this
    one.  An edge's metadata field [info] holding -1 is [None]. *)

From Coq Require Import List Bool Arith Lia ZArith QArith Qcanon.
From Verif Require Import Base Graph PackedDag.
Import ListNotations.
Close Scope Qc_scope. Close Scope Q_scope. Open Scope nat_scope.

#[export] Instance EqDec_Z : EqDec Z := Z.eq_dec.

(** Python [list.sort] for a total order. *)
Fixpoint insert_sorted {A} (le : A -> A -> bool) (x : A) (l : list A) : list A :=
  match l with
  | [] => [x]
  | y :: l' => if le x y then x :: l else y :: insert_sorted le x l'
  end.
Definition sort {A} (le : A -> A -> bool) (l : list A) : list A :=
  fold_right (insert_sorted le) [] l.

Definition enumerate {A} (l : list A) : list (nat * A) := combine (seq 0 (length l)) l.

(** [d[x] = True] on a dict used as an ordered set. *)
Definition add_new {A} `{EqDec A} (l : list A) (x : A) : list A :=
  if mem x l then l else l ++ [x].

(** [for i, x in enumerate(l): d[x] = i] followed by a lookup. *)
Definition index_of {A} `{EqDec A} (l : list A) (x : A) : option nat :=
  assoc x (rev (map (fun ix => (snd ix, fst ix)) (enumerate l))).

Definition or_err {A} (e : exn) (o : option A) : result A :=
  match o with Some a => Ok a | None => Err e end.

(** [range(a, b)]. *)
Definition zrange (a b : Z) : list Z :=
  map (fun i => (a + Z.of_nat i)%Z) (seq 0 (Z.to_nat (b - a))).

Section Convert.
  Context {St Ky Vl In : Type} `{EqDec St} `{EqDec Ky} `{EqDec Vl}.
  Context (kle : Ky -> Ky -> bool) (vle : Vl -> Vl -> bool).
  Notation E := (edge St (Ky * Vl) In).
  Notation D := (dag St (Ky * Vl) In).
  (** packed_dags.py:166-170, [VariableTaggedState]. *)
  Notation tstate := (St * Z)%type.
  Notation tedge := (edge (St * Z) (Ky * Vl) (option nat)).

  (** packed_dags.py:172-199, [PackedStateDAGConversionData]. *)
  Record conversion := mkConversion {
    variable_keys : list Ky;
    variable_values : list Vl;
    original_states : list St;
    original_edges : list E;
    tagged_states : list tstate;
    tagged_edges : list tedge;
    outgoing_indices : list (list nat)
  }.

  (** packed_dags.py:505-521: the keys and values seen, the source states. *)
  Definition edge_keys (es : list E) : list Ky := map fst (path_assignments es).
  Definition edge_vals (es : list E) : list Vl := map snd (path_assignments es).
  Definition keys_seen (es : list E) : list Ky := fold_left add_new (edge_keys es) [].
  Definition values_seen (missing : Vl) (es : list E) : list Vl :=
    fold_left add_new (edge_vals es) [missing].
  Definition source_states (es : list E) : list St := fold_left add_new (map source es) [].
  (** packed_dags.py:519-523: [edges_by_source[s]]. *)
  Definition edges_from (es : list E) (s : St) : list (nat * E) :=
    filter (fun ie => eqb (source (snd ie)) s) (enumerate es).

  (** packed_dags.py:566-573 (603-606): the variable index an edge leads to. *)
  Definition key_index (keys : list Ky) (k : Ky) : result Z :=
    do i <- or_err KeyError (index_of keys k); Ok (Z.of_nat i).

  Definition dict := list (St * Z).
  Definition upd_with (f : Z -> Z -> Z) (d : dict) (s : St) (u : Z) : dict :=
    (s, match assoc s d with None => u | Some t => f t u end) :: d.

  (** packed_dags.py:560-591, [largest_possible_before]. *)
  Definition possible_step (keys : list Ky) (d : dict) (e : E) : result dict :=
    do u <- match assignment e with
            | Some (k, _) => key_index keys k
            | None => or_err ValueError (assoc (source e) d)
            end;
    Ok (upd_with Z.max d (dest e) u).
  (** packed_dags.py:599-625, [largest_guaranteed_before]. *)
  Definition guaranteed_step (keys : list Ky) (possible d : dict) (e : E) : result dict :=
    do u <- match assignment e with
            | Some (k, _) => key_index keys k
            | None => or_err KeyError (assoc (source e) possible)
            end;
    Ok (upd_with Z.min d (dest e) u).
  (** packed_dags.py:630-661, [largest_immediately_after] and the ordering check. *)
  Definition after_step (keys : list Ky) (possible d : dict) (e : E) : result dict :=
    match assignment e with
    | Some (k, _) =>
        do u <- key_index keys k;
        do t <- or_err KeyError (assoc (source e) possible);
        if (u <=? t)%Z then Err ValueError
        else Ok (upd_with Z.max d (source e) u)
    | None => Ok d
    end.
  Fixpoint foldM {A B} (f : A -> B -> result A) (l : list B) (a : A) : result A :=
    match l with [] => Ok a | x :: l' => do a' <- f a x; foldM f l' a' end.

  (** packed_dags.py:698-724: the None-assigning edge [(state, tag) -> (state, tag + 1)]. *)
  Definition chain_edge (keys : list Ky) (missing : Vl) (s : St) (tag : Z) : result (nat * tedge) :=
    do k <- or_err IndexError (nth_error keys (Z.to_nat (tag + 1)));
    Ok (2 * Z.to_nat (tag + 1) + 1,
        mkEdge (s, tag) (s, (tag + 1)%Z) (Fin 0%Qc) (Some (k, missing)) None).
  (** packed_dags.py:726-788: the copy of an original edge. *)
  Definition copy_edge (keys : list Ky) (sources : list St) (default : Z) (s : St) (ie : nat * E)
    : result (list (nat * tedge)) :=
    let e := snd ie in
    if negb (mem (dest e) sources) then Ok []
    else if eqb (ecost e) Inf then Ok []
    else
      match assignment e with
      | None =>
          Ok [(2 * Z.to_nat (default + 1),
               mkEdge (s, default) (dest e, default) (ecost e) None (Some (fst ie)))]
      | Some (k, v) =>
          do i <- key_index keys k;
          Ok [(2 * Z.to_nat i + 1,
               mkEdge (s, (i - 1)%Z) (dest e, i) (ecost e) (Some (k, v)) (Some (fst ie)))]
      end.
  (** packed_dags.py:677-788: everything emitted for one state. *)
  Definition emit_state (keys : list Ky) (missing : Vl) (es : list E) (sources : list St)
      (possible guaranteed after : dict) (s : St) : result (list (nat * tedge)) :=
    do smallest <- or_err KeyError (assoc s guaranteed);
    do default <- or_err KeyError (assoc s possible);
    let largest := match assoc s after with Some a => (a - 1)%Z | None => default end in
    do chain <- mapM (chain_edge keys missing s) (zrange smallest largest);
    do copies <- mapM (copy_edge keys sources default s) (edges_from es s);
    Ok (chain ++ concat copies).

  (** packed_dags.py:836-848, the boundaries between states of different tags. *)
  Definition svb_step (a : Z * list nat) (it : nat * tstate) : Z * list nat :=
    (snd (snd it),
     fold_left (fun arr f => updnth (Z.to_nat (f + 2)) (fst it) arr)
       (zrange (fst a) (snd (snd it))) (snd a)).
  Definition compute_svb (K : nat) (ts : list tstate) : list nat :=
    let '(last_tag, arr) := fold_left svb_step (enumerate ts) ((-1)%Z, repeat 0 (K + 2)) in
    fold_left (fun arr f => updnth (Z.to_nat (f + 2)) (length ts) arr)
      (zrange last_tag (Z.of_nat K)) arr.

  (** packed_dags.py:850-884, one packed edge. *)
  Definition pack_edge (keys : list Ky) (vals : list Vl) (table : list tstate) (e : tedge)
    : result pedge :=
    do a <- match assignment e with
            | Some (k, v) =>
                do i <- or_err KeyError (index_of keys k);
                do j <- or_err KeyError (index_of vals v);
                Ok (Some (i, j))
            | None => Ok None
            end;
    do s <- or_err KeyError (index_of table (source e));
    do t <- or_err KeyError (index_of table (dest e));
    Ok (mkEdge s t (ecost e) a tt).

  (** packed_dags.py:853-855, 884: running totals of the group sizes. *)
  Fixpoint running (n : nat) (ls : list nat) : list nat :=
    match ls with [] => [n] | l :: ls' => n :: running (n + l) ls' end.

  Definition convert_dag_to_packed (d : D) (missing : Vl) (value_ordering : option (list Vl))
    : result (pdag * conversion) :=
    let es := edges d in
    let src := source_states es in
    do first <- or_err IndexError (nth_error src 0);
    if negb (eqb first (initial_state d)) then Err AssertionError
    else if mem (final_state d) src then Err AssertionError
    else
      let sources := src ++ [final_state d] in
      let keys := sort kle (keys_seen es) in
      let vals := match value_ordering with
                  | None => sort vle (values_seen missing es)
                  | Some l => l
                  end in
      let K := length keys in
      do possible <- foldM (possible_step keys) es [(initial_state d, (-1)%Z)];
      do guaranteed <- foldM (guaranteed_step keys possible) es [(initial_state d, (-1)%Z)];
      do after <- foldM (after_step keys possible) es [];
      do emitted <- mapM (emit_state keys missing es sources possible guaranteed after) sources;
      let group g := map snd (filter (fun ge => fst ge =? g) (concat emitted)) in
      let groups := map group (seq 0 (2 * K + 1)) in
      let tedges := concat groups in
      let table := fold_left add_new (map source tedges) [] in
      do t0 <- or_err IndexError (nth_error table 0);
      if negb (eqb t0 (initial_state d, (-1)%Z)) then Err AssertionError
      else
        let final := (final_state d, (Z.of_nat K - 1)%Z) in
        if mem final table then Err AssertionError
        else
          let tstates := table ++ [final] in
          do ps <- mapM (pack_edge keys vals tstates) tedges;
          Ok (mkPdag (length tstates) K (length vals) ps
                (running 0 (map (@length tedge) groups)) (compute_svb K tstates),
              mkConversion keys vals sources es tstates tedges
                (map (fun s => map fst (filter (fun ke => eqb (source (snd ke)) s) (enumerate tedges))) tstates)).

  (** packed_dags.py:1495-1509: the edges and assignments collected from the
      chosen edge indices ([tagged = False]). *)
  Definition read_path (c : conversion) (ks : list nat) : result (list E * list (Ky * Vl)) :=
    do tes <- mapM (fun k => or_err IndexError (nth_error (tagged_edges c) k)) ks;
    do path <- mapM (fun i => or_err IndexError (nth_error (original_edges c) i))
                 (flat_map (fun te : tedge => match info te with Some i => [i] | None => [] end) tes);
    Ok (path, path_assignments tes).

  (** packed_dags.py:1437-1511, [extract_minimal_cost_path_and_assignments]; the
      assignment dict is the list of assignments in path order. *)
  Definition extract_minimal_cost_path_and_assignments (m : memo) (c : conversion)
    : result ((list E * list (Ky * Vl)) * memo) :=
    do r <- extract_indices m (outgoing_indices c);
    do out <- read_path c (fst r);
    Ok (out, snd r).

  (** packed_dags.py:1514-1544, [constrained_best_path]. *)
  Definition constrained_best_path (d : pdag) (c : conversion) (constraints : list (Ky * Vl))
    : result (list E * list (Ky * Vl)) :=
    do cs <- mapM (fun kv => do i <- or_err KeyError (index_of (variable_keys c) (fst kv));
                             do j <- or_err KeyError (index_of (variable_values c) (snd kv));
                             Ok (i, j)) constraints;
    do r <- extract_minimal_cost_path_and_assignments (constrain (empty_unpenalized_table d) cs) c;
    Ok (fst r).
End Convert.
Arguments mkConversion {St Ky Vl In}. Arguments variable_keys {St Ky Vl In}.
Arguments variable_values {St Ky Vl In}. Arguments original_states {St Ky Vl In}.
Arguments original_edges {St Ky Vl In}. Arguments tagged_states {St Ky Vl In}.
Arguments tagged_edges {St Ky Vl In}. Arguments outgoing_indices {St Ky Vl In}.
