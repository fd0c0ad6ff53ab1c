(** C05-C13, C53: packed DAGs, their cost tables and the conversion.
    Specification vocabulary: [Graph.v] ([complete_path], [path_cost],
    [path_assignments], [topological]); [PackedDag.v] ([layout], [least],
    [penalized_cost], [packed_complete]); [ConvertApi.v] ([packed_route],
    [route], [full_assignment], [objective], [satisfies]). *)

From Coq Require Import List Bool Arith Lia ZArith Sorted QArith Qcanon.
From Verif Require Import Base Graph PackedDag PackedDagProofs PackedTables Convert ConvertLists
  ConvertProofs ConvertLayout ConvertPaths ConvertApi ConvertSuccess PackedScale.
Import ListNotations.
Close Scope Qc_scope. Close Scope Q_scope. Open Scope nat_scope.

(** No cost is not-a-number. *)
Definition no_nan {St As In} (d : dag St As In) : Prop :=
  forall e, List.In e (edges d) -> ecost e <> NaN.

(** The example used throughout: states 0-4, variables 5, 7, 9, missing value 2;
    neither 5 nor 7 nor 9 is assigned on every path. *)
Definition c (q : Q) : cost := Fin (Q2Qc q).
Definition ex : dag nat (nat * nat) nat := mkDag 0
  [ mkEdge 0 1 (c 1) None 0; mkEdge 0 2 (c 2) (Some (5, 1)) 1; mkEdge 1 3 (c 1) (Some (7, 0)) 2;
    mkEdge 2 3 (c 1) None 3; mkEdge 3 4 (c 0) (Some (9, 3)) 4; mkEdge 3 4 (c 2) None 5 ] 4.
Definition ex_result := convert_dag_to_packed Nat.leb Nat.leb ex 2 None.
Definition ex_pd : pdag := match ex_result with Ok (pd, _) => pd | _ => mkPdag 0 0 0 [] [] [] end.
Definition ex_cv := match ex_result with Ok (_, cv) => cv | _ => mkConversion [] [] [] [] [] [] [] end.
Example ex_converts : convert_dag_to_packed Nat.leb Nat.leb ex 2 None = Ok (ex_pd, ex_cv).
Proof. vm_compute. reflexivity. Qed.
Lemma ex_topological : topological (edges ex).
Proof.
  split; cbn.
  - repeat split; intros e' Hin; repeat (destruct Hin as [<-|Hin]; [cbn; discriminate|]); destruct Hin.
  - intros e Hin. repeat (destruct Hin as [<-|Hin]; [cbn; discriminate|]). destruct Hin.
Qed.
Lemma ex_no_nan : no_nan ex.
Proof. intros e Hin. repeat (destruct Hin as [<-|Hin]; [cbn; discriminate|]). destruct Hin. Qed.
Ltac walk :=
  match goal with
  | |- is_path _ _ [] _ => apply path_nil
  | |- is_path ?es _ (?e :: _) _ => apply (path_cons es e); [simpl; tauto|cbn [dest]; walk]
  end.
Lemma nat_order : total_order Nat.leb.
Proof.
  constructor; intros *; rewrite ?Nat.leb_le; lia.
Qed.

(** ** C05.  Reading a packed path back gives a path of the input with the same
    cost, each variable getting the value the path assigns to it or the missing
    value; and every finite-cost path of the input has exactly one packed path.
    Paths are identified by the positions of their edges, so parallel edges are
    kept apart. *)
Theorem C05_packing_preserves_paths :
  forall (St Ky Vl In : Type) (sd : EqDec St) (kd : EqDec Ky) (vd : EqDec Vl) kle vle
         (d : dag St (Ky * Vl) In) missing ordering pd cv,
    topological (edges d) ->
    convert_dag_to_packed kle vle d missing ordering = Ok (pd, cv) ->
    (forall ks p, packed_route pd ks p ->
       exists q, route d (original_indices cv ks) q /\
         read_path cv ks = Ok (q, full_assignment (variable_keys cv) missing q) /\
         path_cost q = path_cost p /\
         Forall2 (fun kv ij => index_of (variable_keys cv) (fst kv) = Some (fst ij) /\
                               index_of (variable_values cv) (snd kv) = Some (snd ij))
           (full_assignment (variable_keys cv) missing q) (path_assignments p)) /\
    (forall qs q x, route d qs q -> path_cost q = Fin x ->
       exists ks, (exists p, packed_route pd ks p) /\ original_indices cv ks = qs /\
         forall ks' p', packed_route pd ks' p' -> original_indices cv ks' = qs -> ks' = ks).
Proof.
  intros St Ky Vl In sd kd vd kle vle d missing ordering pd cv T Hc.
  destruct (convert_parts _ _ _ _ _ _ _ Hc) as [Q _]. split.
  - apply (convert_sound kle vle d missing ordering pd cv Q).
  - apply (convert_complete kle vle d missing ordering pd cv Q T).
Qed.
(** The variables are the keys the input assigns, each once, sorted. *)
Theorem C05_variables :
  forall (St Ky Vl In : Type) (sd : EqDec St) (kd : EqDec Ky) (vd : EqDec Vl) kle vle
         (d : dag St (Ky * Vl) In) missing ordering pd cv,
    total_order kle ->
    convert_dag_to_packed kle vle d missing ordering = Ok (pd, cv) ->
    (forall k, List.In k (variable_keys cv) <-> exists e v, List.In e (edges d) /\ assignment e = Some (k, v)) /\
    StronglySorted (fun a b => kle a b = true /\ a <> b) (variable_keys cv) /\
    match ordering with
    | Some l => variable_values cv = l
    | None => forall v, List.In v (variable_values cv) <->
                v = missing \/ exists e k, List.In e (edges d) /\ assignment e = Some (k, v)
    end.
Proof.
  intros St Ky Vl In sd kd vd kle vle d missing ordering pd cv Tk Hc.
  destruct (convert_parts _ _ _ _ _ _ _ Hc) as [Q _].
  pose (R := p_stage kle vle d missing ordering pd cv Q).
  rewrite (cv_keys kle vle d missing ordering pd cv Q), (cv_values kle vle d missing ordering pd cv Q).
  splits.
  - intros k. split.
    + apply (keys_assigned kle d missing R).
    + intros [e [v [He Ea]]]. eapply (keys_In kle d missing R); eauto.
  - pose proof (keys_NoDup kle d missing R) as Hn.
    pose proof (sort_sorted kle (keys_seen (edges d)) Tk) as Hs.
    change (NoDup (sort kle (keys_seen (edges d)))) in Hn.
    change (StronglySorted (fun a b => kle a b = true /\ a <> b) (sort kle (keys_seen (edges d)))).
    induction Hs as [|a l Hs IH Ha]; constructor; inversion Hn; subst; auto.
    rewrite Forall_forall in *. intros x Hx. split; auto. congruence.
  - unfold p_vals. destruct ordering as [l|]; [reflexivity|]. intros v.
    rewrite sort_In. unfold values_seen. rewrite fold_add_new_In. unfold edge_vals. rewrite in_map_iff.
    split.
    + intros [[<-|[]]|[[k v'] [<- Hi]]]; auto. right. clear -Hi.
      induction (edges d) as [|e es IH]; [destruct Hi|]. cbn [path_assignments] in Hi.
      destruct (assignment e) as [a|] eqn:Ea.
      * destruct Hi as [->|Hi]; [exists e, k; simpl; auto|].
        destruct (IH Hi) as [e' [k' [H1 H2]]]. exists e', k'. simpl; auto.
      * destruct (IH Hi) as [e' [k' [H1 H2]]]. exists e', k'. simpl; auto.
    + intros [->|[e [k [He Ea]]]]; [simpl; auto|]. right. exists (k, v). split; auto. clear -He Ea.
      induction (edges d) as [|e0 es IH]; [destruct He|]. cbn [path_assignments].
      destruct He as [->|He]; [rewrite Ea; simpl; auto|]. destruct (assignment e0); simpl; auto.
Qed.

Example C05_example :
  topological (edges ex) /\ no_nan ex /\ convert_dag_to_packed Nat.leb Nat.leb ex 2 None = Ok (ex_pd, ex_cv) /\
  variable_keys ex_cv = [5; 7; 9] /\ variable_values ex_cv = [0; 1; 2; 3] /\
  (* the path 0 -> 2 -> 3 -> 4 (edges 1, 3, 5) assigns 5 := 1 and leaves 7, 9 missing *)
  (exists ks p, packed_route ex_pd ks p /\ original_indices ex_cv ks = [1; 3; 5] /\
     full_assignment (variable_keys ex_cv) 2 (map (fun i => nth i (edges ex) (mkEdge 0 0 NaN None 0)) [1; 3; 5])
       = [(5, 1); (7, 2); (9, 2)]).
Proof.
  splits.
  - apply ex_topological.
  - apply ex_no_nan.
  - apply ex_converts.
  - vm_compute. reflexivity.
  - vm_compute. reflexivity.
  - assert (Hr : route ex [1; 3; 5] (map (fun i => nth i (edges ex) (mkEdge 0 0 NaN None 0)) [1; 3; 5])).
    { split.
      - repeat constructor.
      - unfold complete_path. cbn. walk. }
    destruct (convert_parts Nat.leb Nat.leb ex 2 None ex_pd ex_cv ex_converts) as [Q _].
    destruct (convert_complete Nat.leb Nat.leb ex 2 None ex_pd ex_cv Q ex_topological
               _ _ (Q2Qc 5) Hr) as [ks [[p Hp] [Ho _]]].
    + vm_compute. reflexivity.
    + exists ks, p. splits; auto.
Qed.

(** ** C06.  Every packed path assigns every variable exactly once, in order.
    (Variable [i] of the packed DAG is the [i]-th key of C05.) *)
Theorem C06_each_variable_once_in_order :
  forall (St Ky Vl In : Type) (sd : EqDec St) (kd : EqDec Ky) (vd : EqDec Vl) kle vle
         (d : dag St (Ky * Vl) In) missing ordering pd cv p,
    topological (edges d) -> no_nan d ->
    convert_dag_to_packed kle vle d missing ordering = Ok (pd, cv) ->
    packed_complete pd p ->
    map fst (path_assignments p) = seq 0 (length (variable_keys cv)) /\
    n_keys pd = length (variable_keys cv) /\
    Forall (fun kv => snd kv < length (variable_values cv)) (path_assignments p).
Proof.
  intros St Ky Vl In sd kd vd kle vle d missing ordering pd cv p T N Hc Hp.
  destruct (convert_parts _ _ _ _ _ _ _ Hc) as [Q _].
  pose proof (convert_layout kle vle d missing ordering pd cv Q T N) as L.
  assert (Ek : n_keys pd = length (variable_keys cv)).
  { rewrite (cv_keys kle vle d missing ordering pd cv Q). apply (pd_n_keys kle vle d missing ordering pd cv Q). }
  assert (Ev : n_values pd = length (variable_values cv)).
  { rewrite (cv_values kle vle d missing ordering pd cv Q). apply (pd_n_values kle vle d missing ordering pd cv Q). }
  splits; auto.
  - rewrite <- Ek. now apply complete_keys.
  - pose proof (path_values pd L _ _ _ Hp) as Hv. rewrite <- Ev. eapply Forall_impl; [|exact Hv].
    cbn. tauto.
Qed.
Example C06_example : exists p, packed_complete ex_pd p /\ length (path_assignments p) = 3.
Proof.
  destruct C05_example as [T [N [Hc [Hk [Hv [ks [p [[Hi Hp] _]]]]]]]]. exists p. split; auto.
  destruct (C06_each_variable_once_in_order nat nat nat nat _ _ _ Nat.leb Nat.leb ex 2 None ex_pd ex_cv p T N Hc Hp) as [E _].
  rewrite <- (map_length fst), E, seq_length, Hk. reflexivity.
Qed.

(** ** C07.  The layout documented on [PackedStateDAG]; [layout] in
    [PackedDag.v] spells it out: monotone boundaries from 0 to the end, edges
    between assignments carry no assignment and stay within one tag, the edges
    of group [i] assign variable [i] and lead to the next tag, edges in
    topological order. *)
Theorem C07_packed_layout :
  forall (St Ky Vl In : Type) (sd : EqDec St) (kd : EqDec Ky) (vd : EqDec Vl) kle vle
         (d : dag St (Ky * Vl) In) missing ordering pd cv,
    topological (edges d) -> no_nan d ->
    convert_dag_to_packed kle vle d missing ordering = Ok (pd, cv) ->
    layout pd /\ outgoing_ok pd (outgoing_indices cv) /\
    nth_error (tagged_states cv) 0 = Some (initial_state d, (-1)%Z) /\
    nth_error (tagged_states cv) (n_states pd - 1) = Some (final_state d, (Z.of_nat (n_keys pd) - 1)%Z).
Proof.
  intros St Ky Vl In sd kd vd kle vle d missing ordering pd cv T N Hc.
  destruct (convert_parts _ _ _ _ _ _ _ Hc) as [Q _].
  assert (Ets : tagged_states cv = p_tstates kle d missing (p_stage kle vle d missing ordering pd cv Q)).
  { exact (f_equal tagged_states (pp_cv kle vle _ _ _ _ _ Q)). }
  splits.
  - apply (convert_layout kle vle d missing ordering pd cv Q T N).
  - apply (packed_outgoing kle vle d missing ordering pd cv Q).
  - rewrite Ets. apply (initial_index kle vle d missing ordering pd cv Q).
  - rewrite Ets. pose proof (final_index kle vle d missing ordering pd cv Q) as Hf.
    rewrite (pd_n_keys kle vle d missing ordering pd cv Q). exact Hf.
Qed.
Example C07_example : layout ex_pd /\ egb ex_pd = [0; 1; 3; 4; 6; 7; 9; 9] /\ length (pedges ex_pd) = 9.
Proof.
  split; [|vm_compute; auto].
  destruct (C07_packed_layout nat nat nat nat _ _ _ Nat.leb Nat.leb ex 2 None ex_pd ex_cv ex_topological ex_no_nan ex_converts) as [L _].
  exact L.
Qed.

(** ** C08.  On a pruned DAG ([all_useful]: every edge is finite and lies on a
    complete path) with at least one edge, conversion succeeds exactly when
    every path assigns keys in strictly increasing order, and otherwise raises
    ValueError.  A given value ordering has to list the missing value and the
    values assigned ([values_listed]). *)
Theorem C08_in_order_iff_accepted :
  forall (St Ky Vl In : Type) (sd : EqDec St) (kd : EqDec Ky) (vd : EqDec Vl) kle vle
         (d : dag St (Ky * Vl) In) missing ordering,
    total_order kle -> topological (edges d) -> edges d <> [] -> all_useful d ->
    values_listed d missing ordering ->
    let in_order := forall p, complete_path d p ->
      StronglySorted (fun a b => kle a b = true /\ a <> b) (map fst (path_assignments p)) in
    (in_order -> exists r, convert_dag_to_packed kle vle d missing ordering = Ok r) /\
    (~ in_order -> convert_dag_to_packed kle vle d missing ordering = Err ValueError).
Proof.
  intros St Ky Vl In sd kd vd kle vle d missing ordering Tk T Hne U Hv in_order. split.
  - intros Ho. exact (convert_increasing kle vle d missing ordering T Hne U Tk Hv Ho).
  - intros Hn.
    destruct (convert_order_dec kle vle d missing ordering T Hne U Tk) as [Hs|Hs]; auto.
    exfalso. apply Hn. exact Hs.
Qed.
(** In particular one out-of-order path is enough. *)
Corollary C08_out_of_order_rejected :
  forall (St Ky Vl In : Type) (sd : EqDec St) (kd : EqDec Ky) (vd : EqDec Vl) kle vle
         (d : dag St (Ky * Vl) In) missing ordering p,
    total_order kle -> topological (edges d) -> all_useful d ->
    complete_path d p ->
    ~ StronglySorted (fun a b => kle a b = true /\ a <> b) (map fst (path_assignments p)) ->
    convert_dag_to_packed kle vle d missing ordering = Err ValueError.
Proof.
  intros St Ky Vl In sd kd vd kle vle d missing ordering p Tk T U Hp Hs.
  apply (convert_not_increasing kle vle d missing ordering T); eauto.
  intros E0. destruct p as [|e p]; [apply Hs; constructor|].
  apply is_path_cons_inv in Hp as [_ [He _]]. rewrite E0 in He. destruct He.
Qed.
(** Finding: without the pruning hypothesis an in-order DAG can be refused with
    KeyError (a variable that is assigned only on a dead end). *)
Theorem C08_unpruned_in_order_accepted_refuted :
  ~ (forall (d : dag nat (nat * nat) nat),
       topological (edges d) -> edges d <> [] -> no_nan d ->
       (forall p, complete_path d p ->
          StronglySorted (fun a b => Nat.leb a b = true /\ a <> b) (map fst (path_assignments p))) ->
       exists r, convert_dag_to_packed Nat.leb Nat.leb d 2 None = Ok r).
Proof.
  intros C.
  pose (dead := mkDag 0 [mkEdge 0 1 (c 1) None 0; mkEdge 0 2 (c 1) (Some (5, 1)) 1] 1 : dag nat (nat * nat) nat).
  destruct (C dead) as [r Hr].
  - split; cbn.
    + repeat split; intros e' Hin; repeat (destruct Hin as [<-|Hin]; [cbn; discriminate|]); destruct Hin.
    + intros e Hin. repeat (destruct Hin as [<-|Hin]; [cbn; discriminate|]). destruct Hin.
  - discriminate.
  - intros e Hin. repeat (destruct Hin as [<-|Hin]; [cbn; discriminate|]). destruct Hin.
  - intros p Hp. destruct p as [|e [|e' p]]; [constructor| |].
    + cbn. destruct (assignment e) as [a|]; repeat constructor.
    + exfalso. apply is_path_cons_inv in Hp as [_ [He Hp]]. apply is_path_cons_inv in Hp as [E1 [He' _]].
      destruct He as [<-|[<-|[]]]; destruct He' as [<-|[<-|[]]]; discriminate.
  - vm_compute in Hr. discriminate.
Qed.
Lemma ex_useful : all_useful ex.
Proof.
  assert (Hall : Forall (fun e => finite_edge e /\ (exists p, is_path (edges ex) 0 p (source e)) /\
                                  (exists p, is_path (edges ex) (dest e) p 4)) (edges ex)).
  { pose (g := fun i => nth i (edges ex) (mkEdge 0 0 NaN None 0)).
    assert (P1 : is_path (edges ex) 0 [g 0] 1) by (apply (path_cons (edges ex) (g 0)); [simpl; tauto|constructor]).
    assert (P2 : is_path (edges ex) 0 [g 1] 2) by (apply (path_cons (edges ex) (g 1)); [simpl; tauto|constructor]).
    assert (P3 : is_path (edges ex) 3 [g 4] 4) by (apply (path_cons (edges ex) (g 4)); [simpl; tauto|constructor]).
    assert (P4 : is_path (edges ex) 1 [g 2; g 4] 4) by (apply (path_cons (edges ex) (g 2)); [simpl; tauto|exact P3]).
    assert (P5 : is_path (edges ex) 2 [g 3; g 4] 4) by (apply (path_cons (edges ex) (g 3)); [simpl; tauto|exact P3]).
    assert (P6 : is_path (edges ex) 0 [g 0; g 2] 3)
      by (apply (path_cons (edges ex) (g 0)); [simpl; tauto|apply (path_cons (edges ex) (g 2)); [simpl; tauto|constructor]]).
    assert (P7 : is_path (edges ex) 0 [] 0) by constructor. assert (P8 : is_path (edges ex) 4 [] 4) by constructor.
    unfold ex at 3. cbn [edges].
    repeat apply Forall_cons; try apply Forall_nil; cbn [source dest]; (split; [eexists; reflexivity|]); eauto. }
  rewrite Forall_forall in Hall. exact Hall.
Qed.
Example C08_example :
  total_order Nat.leb /\ topological (edges ex) /\ edges ex <> [] /\ all_useful ex /\ values_listed ex 2 None /\
  (* swapping two keys makes some path assign them out of order *)
  convert_dag_to_packed Nat.leb Nat.leb
    (mkDag 0 [mkEdge 0 1 (c 1) (Some (7, 0)) 0; mkEdge 1 2 (c 1) (Some (5, 0)) 1] 2) 2 None = Err ValueError.
Proof.
  splits; try (apply nat_order || apply ex_topological || apply ex_useful || exact I || discriminate).
  vm_compute. reflexivity.
Qed.

(** ** C09.  After any history of table operations the entries the table claims
    valid are exact for the current penalties, and the rest are masked. *)
Theorem C09_tables_exact :
  forall (pd : pdag) (P : list (list cost)) (history : list table_op),
    layout pd -> pens_ok pd P -> Forall (op_legal pd) history ->
    exists m, run_ops (empty_table pd P) history = Ok m /\
      m_dag m = pd /\ pens m = fold_left op_pens history P /\
      forall s, s < n_states pd ->
        ((s < state_tag_end pd (pre_valid m) /\ least (path_costs pd (pens m) 0 s) (get (masked_prefixes m) s)) \/
         (state_tag_end pd (pre_valid m) <= s /\ get (masked_prefixes m) s = NaN)) /\
        ((state_tag_start pd (suf_valid m) <= s /\ least (path_costs pd (pens m) s (n_states pd - 1)) (get (masked_suffixes m) s)) \/
         (s < state_tag_start pd (suf_valid m) /\ get (masked_suffixes m) s = NaN)).
Proof.
  intros pd P h L HP Hh. pose proof (empty_table_inv pd P L HP) as I0.
  destruct (run_ops_spec h (empty_table pd P) I0 Hh) as [m [Em [Im [Ed Ep]]]].
  cbn [empty_table m_dag pens] in Ed, Ep. exists m. splits; auto. intros s Hs.
  pose proof (masked_prefixes_spec m s Im) as H1. pose proof (masked_suffixes_spec m s Im) as H2.
  rewrite Ed in H1, H2. split; [now apply H1|now apply H2].
Qed.
(** After [make_fully_valid] every entry is valid. *)
Theorem C09_make_fully_valid :
  forall (pd : pdag) (P : list (list cost)) (history : list table_op),
    layout pd -> pens_ok pd P -> Forall (op_legal pd) history ->
    exists m, run_ops (empty_table pd P) (history ++ [OFullyValid]) = Ok m /\
      forall s, s < n_states pd ->
        least (path_costs pd (pens m) 0 s) (get (pre_table m) s) /\
        least (path_costs pd (pens m) s (n_states pd - 1)) (get (suf_table m) s).
Proof.
  intros pd P h L HP Hh. pose proof (empty_table_inv pd P L HP) as I0.
  destruct (run_ops_spec h (empty_table pd P) I0 Hh) as [m [Em [Im [Ed Ep]]]].
  destruct (make_fully_valid_spec m Im) as [m' [Em' [Im' [Ed' [Ep' [Hp Hs]]]]]].
  exists m'. split.
  - assert (Happ : forall l1 l2 m0, run_ops m0 (l1 ++ l2) = do m1 <- run_ops m0 l1; run_ops m1 l2).
    { induction l1 as [|o l1 IH]; intros l2 m0; cbn [app run_ops bind]; auto.
      destruct (run_op m0 o); cbn [bind]; auto. }
    rewrite Happ, Em. cbn [bind run_ops run_op]. rewrite Em'. reflexivity.
  - cbn [empty_table m_dag] in Ed. rewrite Ed in *. intros s Hlt. split.
    + pose proof (i_pre m' Im' s) as Hx. rewrite Ed', Hp in Hx. apply Hx.
      unfold state_tag_end, zget. replace (Z.to_nat _) with (n_keys pd + 1) by lia. now rewrite (l_svb_end pd L).
    + pose proof (i_suf m' Im' s) as Hx. rewrite Ed', Hs in Hx. apply Hx.
      unfold state_tag_start, zget. replace (Z.to_nat _) with 0 by lia. rewrite (l_svb_0 pd L). lia.
Qed.

Definition ex_pens : list (list cost) :=
  [[c 0; c 1; c 0; c 0]; [c 3; c 0; c 0; Inf]; [c 0; c 0; c 1; c 0]].
Lemma ex_layout : layout ex_pd. Proof. exact (proj1 C07_example). Qed.
Lemma ex_pens_ok : pens_ok ex_pd ex_pens.
Proof.
  split; [vm_compute; reflexivity|].
  repeat constructor; try (vm_compute; reflexivity); discriminate.
Qed.
Definition ex_history : list table_op :=
  [OMarginals 1; OSetPenalties 0 [Inf; c 0; c 2; c 0]; OPrefixes 1; OSetPenalties 2 [c 0; c 0; c 0; c 5];
   OMinimalCost FROM_MIDDLE; OCopy; OSuffixes 0].
Lemma ex_history_legal : Forall (op_legal ex_pd) ex_history.
Proof.
  unfold ex_history. repeat apply Forall_cons; try apply Forall_nil; cbn [op_legal strategy_legal];
    replace (n_keys ex_pd) with 3 by (vm_compute; reflexivity);
    replace (n_values ex_pd) with 4 by (vm_compute; reflexivity); try lia; try exact I;
    splits; try lia; try reflexivity; repeat constructor; discriminate.
Qed.
Example C09_example : layout ex_pd /\ pens_ok ex_pd ex_pens /\ Forall (op_legal ex_pd) ex_history /\ 0 < n_states ex_pd.
Proof. splits; [apply ex_layout|apply ex_pens_ok|apply ex_history_legal|vm_compute; lia]. Qed.

(** ** C10.  Min-marginals. *)
Theorem C10_min_marginals_exact :
  forall (pd : pdag) (P : list (list cost)) (history : list table_op) m,
    layout pd -> pens_ok pd P -> Forall (op_legal pd) history ->
    run_ops (empty_table pd P) history = Ok m ->
    (forall v, v < n_keys pd ->
       exists mm m', compute_min_marginals m v = Ok (mm, m') /\ pens m' = pens m /\ length mm = n_values pd /\
         forall val, val < n_values pd ->
           least (fun x => exists p, packed_complete pd p /\ List.In (v, val) (path_assignments p) /\
                                     penalized_cost (pens m) p = x) (get mm val)) /\
    (exists mms m', compute_all_min_marginals m = Ok (mms, m') /\ pens m' = pens m /\ length mms = n_keys pd /\
       forall v, v < n_keys pd -> length (nth v mms []) = n_values pd /\
         forall val, val < n_values pd ->
           least (fun x => exists p, packed_complete pd p /\ List.In (v, val) (path_assignments p) /\
                                     penalized_cost (pens m) p = x) (get (nth v mms []) val)).
Proof.
  intros pd P h m L HP Hh Hr. pose proof (empty_table_inv pd P L HP) as I0.
  destruct (run_ops_spec h (empty_table pd P) I0 Hh) as [m1 [Em [Im [Ed Ep]]]].
  rewrite Hr in Em. injection Em as <-. cbn [empty_table m_dag] in Ed. split.
  - intros v Hv. rewrite <- Ed in Hv. destruct (min_marginals_spec m v Im Hv) as [mm [m' [E1 [I1 [E2 [E3 [E4 E5]]]]]]].
    rewrite Ed in E4, E5. exists mm, m'. splits; auto.
  - destruct (all_min_marginals_spec m Im) as [mms [m' [E1 [I1 [E2 [E3 [E4 E5]]]]]]].
    rewrite Ed in E4, E5. exists mms, m'. splits; auto.
Qed.
Example C10_example :
  match run_ops (empty_table ex_pd ex_pens) ex_history with
  | Ok m => match compute_min_marginals m 0 with Ok (mm, _) => Some mm | Err _ => None end
  | Err _ => None end = Some [Inf; c 5; c 9; Inf].
Proof. vm_compute. reflexivity. Qed.

(** ** C11.  Minimal cost, whichever strategy. *)
Theorem C11_minimal_cost_all_strategies :
  forall (pd : pdag) (P : list (list cost)) (history : list table_op) m s,
    layout pd -> pens_ok pd P -> Forall (op_legal pd) history ->
    run_ops (empty_table pd P) history = Ok m ->
    (s = FROM_MIDDLE -> 0 < n_keys pd /\ 0 < n_values pd) ->
    exists x m', compute_minimal_cost m s = Ok (x, m') /\ pens m' = pens m /\
      least (fun y => exists p, packed_complete pd p /\ penalized_cost (pens m) p = y) x.
Proof.
  intros pd P h m s L HP Hh Hr Hs. pose proof (empty_table_inv pd P L HP) as I0.
  destruct (run_ops_spec h (empty_table pd P) I0 Hh) as [m1 [Em [Im [Ed Ep]]]].
  rewrite Hr in Em. injection Em as <-. cbn [empty_table m_dag] in Ed.
  assert (Hl : strategy_legal (m_dag m) s) by (rewrite Ed; destruct s; cbn; auto).
  destruct (minimal_cost_spec m s Im Hl) as [x [m' [E1 [_ [_ [E2 E3]]]]]]. rewrite Ed in E3.
  exists x, m'. splits; auto.
Qed.
(** Finding: FROM_MIDDLE fails its assertion on a DAG without variables. *)
Theorem C11_from_middle_without_variables_refuted :
  ~ (forall (pd : pdag) P s, layout pd -> pens_ok pd P ->
       exists r, compute_minimal_cost (empty_table pd P) s = Ok r).
Proof.
  intros C.
  pose (e1 := mkEdge 0 1 (c 1) None tt : pedge).
  assert (L : layout (mkPdag 2 0 0 [e1] [0; 1] [0; 2])).
  { constructor; cbn; auto; try lia.
    - intros i j. destruct i as [|[|i]], j as [|[|j]]; cbn; lia.
    - intros i j. destruct i as [|[|i]], j as [|[|j]]; cbn; lia.
    - intros i k e Hi Hk He. assert (i = 0) by lia. subst i. cbn in Hk. assert (k = 0) by lia. subst k.
      cbn in He. injection He as <-. cbn. splits; auto; lia.
    - split; cbn; [tauto|]. intros e [<-|[]]. discriminate.
    - intros e [<-|[]]. discriminate. }
  destruct (C _ [] FROM_MIDDLE L) as [r Hr].
  - split; auto.
  - rewrite from_middle_no_keys in Hr by reflexivity. discriminate.
Qed.
Example C11_example :
  match run_ops (empty_table ex_pd ex_pens) ex_history with
  | Ok m => map (fun s => match compute_minimal_cost m s with Ok (x, _) => Some x | Err _ => None end)
              [AT_START; AT_END; FROM_MIDDLE]
  | Err _ => [] end = [Some (c 5); Some (c 5); Some (c 5)].
Proof. vm_compute. reflexivity. Qed.

(** ** C12.  The extracted path is a complete path of the input of least
    penalised cost (whenever that is finite), and the assignments returned are
    the ones it makes. *)
Theorem C12_extracted_path_optimal :
  forall (St Ky Vl In : Type) (sd : EqDec St) (kd : EqDec Ky) (vd : EqDec Vl) kle vle
         (d : dag St (Ky * Vl) In) missing ordering pd cv P history m,
    topological (edges d) -> no_nan d ->
    convert_dag_to_packed kle vle d missing ordering = Ok (pd, cv) ->
    pens_ok pd P -> Forall (op_legal pd) history ->
    run_ops (empty_table pd P) history = Ok m ->
    (exists q0 x0, complete_path d q0 /\ objective cv missing (pens m) q0 = Fin x0) ->
    exists q x m', extract_minimal_cost_path_and_assignments m cv
                     = Ok ((q, full_assignment (variable_keys cv) missing q), m') /\
      complete_path d q /\ objective cv missing (pens m) q = Fin x /\
      forall q', complete_path d q' -> (exists y, path_cost q' = Fin y) ->
        cle (Fin x) (objective cv missing (pens m) q').
Proof.
  intros St Ky Vl In sd kd vd kle vle d missing ordering pd cv P h m T N Hc HP Hh Hr [q0 [x0 [Hq0 Ho0]]].
  destruct (convert_parts _ _ _ _ _ _ _ Hc) as [Q _].
  pose proof (convert_layout kle vle d missing ordering pd cv Q T N) as L.
  pose proof (empty_table_inv pd P L HP) as I0.
  destruct (run_ops_spec h (empty_table pd P) I0 Hh) as [m1 [Em [Im [Ed Ep]]]].
  rewrite Hr in Em. injection Em as <-. cbn [empty_table m_dag] in Ed.
  destruct (minimal_cost_spec m AT_END Im I) as [x [m' [_ [_ [_ [_ Hl]]]]]]. rewrite Ed in Hl.
  assert (Hpo : pens_ok pd (pens m)) by (rewrite <- Ed; apply (i_pens m Im)).
  pose proof (proj1 (convert_least kle vle d missing ordering pd cv Q T N (pens m) x Hpo) Hl) as Hl'.
  assert (Hpc : exists y, path_cost q0 = Fin y).
  { unfold objective in Ho0. destruct (cadd_fin_inv _ _ _ Ho0) as [a [b [E1 _]]]. eauto. }
  assert (Hx : exists xq, x = Fin xq).
  { destruct Hl' as [_ [Hm _]]. specialize (Hm (Fin x0)).
    apply (cle_fin_r x x0). apply Hm. exists q0. auto. }
  destruct Hx as [xq ->].
  destruct (extract_api kle vle d missing ordering pd cv Q T N m xq Im Ed Hl') as [q [m2 [E1 [_ [_ [_ [E2 E3]]]]]]].
  exists q, xq, m2. splits; auto. intros q' Hq' Hy. destruct Hl' as [_ [Hm _]]. apply Hm. eauto.
Qed.
(** Finding: when every path has infinite penalised cost, no error is raised;
    a single arbitrary edge is returned as the "path". *)
Theorem C12_infeasible_rejected_refuted :
  ~ (forall (d : dag nat (nat * nat) nat) pd cv P r,
       topological (edges d) -> no_nan d ->
       convert_dag_to_packed Nat.leb Nat.leb d 2 None = Ok (pd, cv) -> pens_ok pd P ->
       extract_minimal_cost_path_and_assignments (empty_table pd P) cv = Ok r ->
       complete_path d (fst (fst r))).
Proof.
  intros C.
  pose (P := [[Inf; Inf; Inf; Inf]; [c 0; c 0; c 0; c 0]; [c 0; c 0; c 0; c 0]]).
  destruct (extract_minimal_cost_path_and_assignments (empty_table ex_pd P) ex_cv) as [r|x] eqn:Er.
  - assert (HP : pens_ok ex_pd P).
    { split; [vm_compute; reflexivity|]. repeat constructor; try (vm_compute; reflexivity); discriminate. }
    pose proof (C ex ex_pd ex_cv P r ex_topological ex_no_nan ex_converts HP Er) as Hp.
    assert (Hlen : length (fst (fst r)) = 1).
    { assert (Hm : match extract_minimal_cost_path_and_assignments (empty_table ex_pd P) ex_cv with
                   | Ok r => length (fst (fst r)) | Err _ => 0 end = 1) by (vm_compute; reflexivity).
      rewrite Er in Hm. exact Hm. }
    clear Er C. destruct (fst (fst r)) as [|e [|e' p]]; try discriminate Hlen.
    apply is_path_cons_inv in Hp as [Es [He Hp]]. apply is_path_nil_inv in Hp.
    cbn in Es, Hp. repeat (destruct He as [<-|He]; [cbn in Es, Hp; lia|]). destruct He.
  - vm_compute in Er. discriminate.
Qed.
Example C12_example :
  match run_ops (empty_table ex_pd ex_pens) ex_history with
  | Ok m => match extract_minimal_cost_path_and_assignments m ex_cv with
            | Ok ((q, a), _) => Some (map (@info _ _ _) q, a, objective ex_cv 2 (pens m) q)
            | Err _ => None end
  | Err _ => None end = Some ([1; 3; 5], [(5, 1); (7, 2); (9, 2)], (c 5)).
Proof. vm_compute. reflexivity. Qed.

(** ** C13.  [constrained_best_path]: among the paths giving each constrained
    variable its value (unassigned variables count as having the missing
    value), one of least cost. *)
Theorem C13_constrained_best_path :
  forall (St Ky Vl In : Type) (sd : EqDec St) (kd : EqDec Ky) (vd : EqDec Vl) kle vle
         (d : dag St (Ky * Vl) In) missing ordering pd cv constraints,
    topological (edges d) -> no_nan d ->
    convert_dag_to_packed kle vle d missing ordering = Ok (pd, cv) ->
    NoDup (map fst constraints) ->
    (forall k v, List.In (k, v) constraints -> List.In k (variable_keys cv) /\ List.In v (variable_values cv)) ->
    (exists q0 x0, complete_path d q0 /\ satisfies missing constraints q0 /\ path_cost q0 = Fin x0) ->
    exists q x, constrained_best_path pd cv constraints = Ok (q, full_assignment (variable_keys cv) missing q) /\
      complete_path d q /\ satisfies missing constraints q /\ path_cost q = Fin x /\
      forall q', complete_path d q' -> satisfies missing constraints q' -> cle (Fin x) (path_cost q').
Proof.
  intros St Ky Vl In sd kd vd kle vle d missing ordering pd cv constraints T N Hc Hn Hk [q0 [x0 [H1 [H2 H3]]]].
  destruct (convert_parts _ _ _ _ _ _ _ Hc) as [Q _].
  exact (constrained_best kle vle d missing ordering pd cv Q T N constraints q0 x0 Hn Hk H1 H2 H3).
Qed.
Theorem C13_unknown_constraint :
  forall (St Ky Vl In : Type) (sd : EqDec St) (kd : EqDec Ky) (vd : EqDec Vl) kle vle
         (d : dag St (Ky * Vl) In) missing ordering pd cv constraints k v,
    convert_dag_to_packed kle vle d missing ordering = Ok (pd, cv) ->
    List.In (k, v) constraints -> ~ (List.In k (variable_keys cv) /\ List.In v (variable_values cv)) ->
    constrained_best_path pd cv constraints = Err KeyError.
Proof.
  intros St Ky Vl In sd kd vd kle vle d missing ordering pd cv constraints k v Hc Hi Hn.
  destruct (convert_parts _ _ _ _ _ _ _ Hc) as [Q _].
  exact (constrained_unknown pd cv constraints k v Hi Hn).
Qed.
Example C13_example :
  match constrained_best_path ex_pd ex_cv [(5, 2); (9, 2)] with
  | Ok (q, a) => Some (map (@info _ _ _) q, a) | Err _ => None end
  = Some ([0; 2; 5], [(5, 2); (7, 0); (9, 2)]).
Proof. vm_compute. reflexivity. Qed.

(** ** C53.  Scaling by a positive factor multiplies the cost of every path,
    and keeps the assignments and the ranking of paths. *)
Theorem C53_scaling :
  forall (pd : pdag) (q : Qc), (0 < q)%Qc -> layout pd ->
    let pd' := scale_packed_dag_costs pd q in
    let times a := match a with Fin x => Fin (x * q)%Qc | other => other end in
    layout pd' /\
    (forall ks p, packed_route pd ks p ->
       exists p', packed_route pd' ks p' /\ path_cost p' = times (path_cost p) /\
                  path_assignments p' = path_assignments p) /\
    (forall ks p', packed_route pd' ks p' ->
       exists p, packed_route pd ks p /\ path_cost p' = times (path_cost p) /\
                  path_assignments p' = path_assignments p).
Proof.
  intros pd q Hq L pd' times.
  assert (Ht : forall a, times a = cscale q a).
  { intros [x| |]; cbn [times]; auto. now rewrite cscale_inf. }
  splits.
  - now apply scale_layout.
  - intros ks p [Hi Hp]. exists (map (scale_edge q) p). splits.
    + split; [now apply scale_index|now apply scale_complete_to].
    + rewrite Ht. now apply scale_cost.
    + apply scale_assignments.
  - intros ks p' [Hi Hp]. destruct (unscale_index q _ _ _ Hi) as [p [Hi' ->]]. exists p. splits.
    + split; auto. exact (unscale_path q _ _ _ _ _ Hi' Hp).
    + rewrite Ht. now apply scale_cost.
    + apply scale_assignments.
Qed.
Theorem C53_scaling_keeps_optima :
  forall (pd : pdag) (q : Qc), (0 < q)%Qc ->
    let pd' := scale_packed_dag_costs pd q in
    let cheapest D ks := exists p, packed_route D ks p /\
      forall ks' p', packed_route D ks' p' -> cle (path_cost p) (path_cost p') in
    forall ks, cheapest pd ks <-> cheapest pd' ks.
Proof.
  intros pd q Hq pd' cheapest ks. split.
  - intros [p [[Hi Hp] Hm]]. exists (map (scale_edge q) p). split.
    + split; [now apply scale_index|now apply scale_complete_to].
    + intros ks' p' [Hi' Hp']. destruct (unscale_index q _ _ _ Hi') as [p0 [Hi0 ->]].
      rewrite !scale_cost by auto. apply cscale_le; auto. apply (Hm ks'). split; auto. exact (unscale_path q _ _ _ _ _ Hi0 Hp').
  - intros [p' [[Hi' Hp'] Hm]]. destruct (unscale_index q _ _ _ Hi') as [p [Hi ->]]. exists p. split.
    + split; auto. exact (unscale_path q _ _ _ _ _ Hi Hp').
    + intros ks' p0 [Hi0 Hp0]. apply (cscale_le q Hq). rewrite <- !scale_cost by auto. apply (Hm ks').
      split; [now apply scale_index|now apply scale_complete_to].
Qed.
Example C53_example : (0 < Q2Qc (1 # 3))%Qc /\ layout ex_pd /\
  exists ks p, packed_route ex_pd ks p.
Proof.
  splits; [reflexivity|apply ex_layout|].
  destruct C05_example as [_ [_ [_ [_ [_ [ks [p [Hp _]]]]]]]]. eauto.
Qed.

Print Assumptions C05_packing_preserves_paths.
Print Assumptions C05_variables.
Print Assumptions C06_each_variable_once_in_order.
Print Assumptions C07_packed_layout.
Print Assumptions C08_in_order_iff_accepted.
Print Assumptions C08_out_of_order_rejected.
Print Assumptions C08_unpruned_in_order_accepted_refuted.
Print Assumptions C09_tables_exact.
Print Assumptions C09_make_fully_valid.
Print Assumptions C10_min_marginals_exact.
Print Assumptions C11_minimal_cost_all_strategies.
Print Assumptions C11_from_middle_without_variables_refuted.
Print Assumptions C12_extracted_path_optimal.
Print Assumptions C12_infeasible_rejected_refuted.
Print Assumptions C13_constrained_best_path.
Print Assumptions C13_unknown_constraint.
Print Assumptions C53_scaling.
Print Assumptions C53_scaling_keeps_optima.
