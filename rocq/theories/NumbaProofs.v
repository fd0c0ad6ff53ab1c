(** Proofs about NumbaBuild.v. *)

From Coq Require Import List Bool Arith Lia ZArith QArith Qcanon.
From Verif Require Import Base SeqNodes Transforms PackedSeq Numbered Graph GatedDag GatedDagRewrite PackedDag Convert MapDag Decisions ConstraintDag EditDag SelectionDag
  RegionDecisions PseudoParse CallSequence DualSolver BuildSystem Combine SystemSpec BuildProofs NumbaBuild NumbaSpec.
Import ListNotations.
Close Scope Qc_scope. Close Scope Q_scope. Close Scope Z_scope. Open Scope nat_scope.

(** ** Builders without the check. *)
Section Unchecked.
  Context {S A I : Type} `{EqDec S}.
  Lemma unchecked_fields (es : list (edge S A I)) : forall d, p_initial (add_edges_unchecked d es) = p_initial d /\ p_edges (add_edges_unchecked d es) = p_edges d ++ es.
  Proof.
    unfold add_edges_unchecked. induction es as [|e es IH]; intros d; cbn [fold_left]; [now rewrite app_nil_r|].
    destruct (IH (add_edge_unchecked d e)) as [-> ->]. cbn. split; auto. now rewrite <- app_assoc.
  Qed.
  Lemma unchecked_same (s t : S) (es : list (edge S A I)) d : add_edges (partial_starting_from s) es = Ok d ->
    partial_finish (add_edges_unchecked (partial_starting_from s) es) t = partial_finish d t.
  Proof.
    intros E. apply add_edges_inv in E as (_ & E1 & E2); [|apply partial_inv_start].
    destruct (unchecked_fields es (partial_starting_from s)) as [U1 U2]. unfold partial_finish. now rewrite U1, U2, E1, E2.
  Qed.
End Unchecked.
Lemma edit_jit {M} `{EqDec M} (P : parameters) (p t : storage M) d : construct_edit_dag P p t = Ok d -> construct_edit_dag_jit P p t = Ok d.
Proof.
  unfold construct_edit_dag, construct_edit_dag_jit. intros E. apply bind_ok_inv in E as (ps & E1 & E). rewrite E1. apply bind_ok_inv in E as (ts & E2 & E).
  rewrite E2. cbn [bind]. apply bind_ok_inv in E as (pd & E3 & E). injection E as <-. f_equal. now apply unchecked_same.
Qed.
Lemma constraint_jit {M} (p : storage M) d : construct_constraint_dag p = Ok d -> construct_constraint_dag_jit p = Ok d.
Proof.
  unfold construct_constraint_dag, construct_constraint_dag_jit. intros E. apply bind_ok_inv in E as (ps & E1 & E). rewrite E1.
  cbn [bind]. apply bind_ok_inv in E as (pd & E3 & E). injection E as <-. f_equal. now apply unchecked_same.
Qed.
Lemma selection_jit {M} `{EqDec M} U (p t : storage M) d : construct_selection_dag U p t = Ok d -> construct_selection_dag_jit U p t = Ok d.
Proof.
  unfold construct_selection_dag, construct_selection_dag_jit. intros E. apply bind_ok_inv in E as (ps & E1 & E). rewrite E1. apply bind_ok_inv in E as (ts & E2 & E).
  rewrite E2. cbn [bind]. cbv zeta in *. apply bind_ok_inv in E as (es & E3 & E). rewrite E3. cbn [bind].
  apply bind_ok_inv in E as (pd & E4 & E). injection E as <-. f_equal. now apply unchecked_same.
Qed.

(** ** Packing a DAG with renamed states. *)
Section Rename.
  Context {S K V I : Type} `{EqDec S} `{EqDec K} `{EqDec V} (kle : K -> K -> bool) (vle : V -> V -> bool).
  Variable (f : S -> nat) (d : dag S (K * V) I).
  Hypothesis inj : forall s s', List.In s (states_of d) -> List.In s' (states_of d) -> f s = f s' -> s = s'.
  Let g (s : S) : S + nat := if mem s (states_of d) then inr (f s) else inl s.
  Local Notation keep := (fun c : cost => c).
  Lemma g_inj x y : g x = g y -> x = y.
  Proof.
    unfold g. destruct (mem x (states_of d)) eqn:X, (mem y (states_of d)) eqn:Y; intros E; try discriminate; injection E as E; auto.
    apply mem_true_iff in X, Y. auto.
  Qed.
  Lemma g_known s n : g s = inr n -> n = f s.
  Proof. unfold g. destruct (mem s _); [now injection 1 as <-|discriminate]. Qed.
  Lemma g_state s : List.In s (states_of d) -> g s = inr (f s).
  Proof. unfold g. intros E. apply mem_true_iff in E. now rewrite E. Qed.
  Lemma map_g : map_dag g keep (fun i => i) d = map_dag inr keep (fun i => i) (rename_dag f d).
  Proof.
    unfold map_dag, rename_dag. cbn [initial_state final_state edges]. rewrite !g_state by (cbn; auto). f_equal.
    rewrite map_map. apply map_ext_in. intros e E. unfold map_edge, rename_edge. cbn.
    rewrite !g_state; auto; unfold states_of; right; right; apply in_flat_map; exists e; cbn; auto.
  Qed.
  Lemma map_inj {A B C} (a : A -> B) (b : C -> B) (h : A -> C) l l' : (forall x y, a x = b y -> y = h x) -> map a l = map b l' -> l' = map h l.
  Proof.
    intros E. revert l'. induction l as [|x l IH]; intros [|y l'] M; try discriminate; auto. injection M as M1 M2. cbn. f_equal; auto.
  Qed.
  Lemma keep_costs p : map_costs keep p = p.
  Proof.
    destruct p as [a b c es e f']. unfold map_costs. cbn. f_equal. rewrite <- (map_id es) at 2. apply map_ext. now intros [].
  Qed.
  Lemma convert_rename missing ordering :
    convert_dag_to_packed kle vle (rename_dag f d) missing ordering =
    rmap (fun r => (fst r, map_conversion f keep (fun i => i) (snd r))) (convert_dag_to_packed kle vle d missing ordering).
  Proof.
    assert (Kinf : forall c : cost, keep c = Inf <-> c = Inf) by tauto.
    assert (J : forall x y : nat, @inr S nat x = inr y -> x = y) by (intros x y E; now injection E).
    pose proof (convert_map kle vle g g_inj (fun i : I => i) keep Kinf eq_refl d missing ordering) as G.
    pose proof (convert_map kle vle inr J (fun i : I => i) keep Kinf eq_refl (rename_dag f d) missing ordering) as G'.
    rewrite map_g, G' in G. clear G'.
    destruct (convert_dag_to_packed kle vle (rename_dag f d) missing ordering) as [[p' c']|x], (convert_dag_to_packed kle vle d missing ordering) as [[p c]|x'];
      cbn [rmap fst snd] in *; try discriminate; [|injection G as ->; reflexivity].
    rewrite !keep_costs in G. injection G as -> E1 E2 E3 E4 E5 E6 E7. do 2 f_equal.
    assert (T : forall x y, map_tag g x = map_tag inr y -> y = map_tag f x).
    { intros [x z] [y z'] E. unfold map_tag in *. cbn in *. injection E as E E'. apply g_known in E. congruence. }
    destruct c' as [a1 a2 a3 a4 a5 a6 a7], c as [b1 b2 b3 b4 b5 b6 b7]. unfold map_conversion. cbn in *. subst. f_equal.
    - eapply map_inj; [|symmetry; exact E3]. apply g_known.
    - eapply map_inj; [|symmetry; exact E4]. intros [s t k a i] [s' t' k' a' i'] E. unfold map_edge in *. cbn in *. injection E as X1 X2 X3 X4 X5.
      apply g_known in X1, X2. congruence.
    - eapply map_inj; [|symmetry; exact E5]. apply T.
    - eapply map_inj; [|symmetry; exact E6]. intros [s t k a i] [s' t' k' a' i'] E. unfold map_edge in *. cbn [source dest ecost assignment info] in *.
      pose proof (T _ _ (f_equal source E)) as X1. pose proof (T _ _ (f_equal dest E)) as X2.
      pose proof (f_equal ecost E). pose proof (f_equal assignment E). pose proof (f_equal info E). cbn [source dest ecost assignment info] in *. congruence.
  Qed.
End Rename.

(** ** The same packed DAG. *)
Lemma renamed_map {S S' K V I} (g : S -> S') (c : @conversion S K V I) :
  (forall s s', List.In s (original_states c) -> List.In s' (original_states c) -> g s = g s' -> s = s') ->
  renamed c (map_conversion g (fun c => c) (fun i => i) c).
Proof. intros J. exists g. splits; auto. Qed.
Lemma renamed_inv {S S' K V I} (c : @conversion S K V I) (c' : @conversion S' K V I) : renamed c c' ->
  exists g, c' = map_conversion g (fun c => c) (fun i => i) c.
Proof.
  intros (g & _ & E1 & E2 & E3 & E4 & E5 & E6 & E7). exists g. destruct c', c. unfold map_conversion. cbn in *. now subst.
Qed.
Lemma renamed_refl {S K V I} (c : @conversion S K V I) : renamed c c.
Proof.
  assert (G : forall (A : Type) (h : A -> A) (l : list A), (forall x, h x = x) -> l = map h l).
  { intros A h l E. induction l as [|x l IH]; auto. cbn. now rewrite E, <- IH. }
  exists (fun s => s). splits; auto; apply G; auto; intros x; destruct x as [x y] || destruct x as [x y k a i]; auto. destruct x, y; reflexivity.
Qed.
Definition rel_result {A B} (R : A -> B -> Prop) (r : result A) (r' : result B) : Prop :=
  match r, r' with Ok a, Ok b => R a b | Err e, Err e' => e = e' | _, _ => False end.
Definition same_item {S S' K V I} (x : pdag * @conversion S K V I) (y : pdag * @conversion S' K V I) : Prop :=
  fst y = fst x /\ renamed (snd x) (snd y).

Section Same.
  Context {S I : Type} `{EqDec S}.
  Lemma source_states_In (es : list (edge S decision I)) s : List.In s (source_states es) -> exists e, List.In e es /\ source e = s.
  Proof.
    unfold source_states.
    assert (G : forall l acc, List.In s (fold_left add_new l acc) -> List.In s acc \/ List.In s l).
    { induction l as [|x l IH]; intros acc E; cbn in *; auto. apply IH in E as [E|E]; auto. unfold add_new in E.
      destruct (mem x acc); auto. apply in_app_iff in E as [E|[E|[]]]; auto. }
    intros E. apply G in E as [[]|E]. apply in_map_iff in E as (e & <- & E). eauto.
  Qed.
  Lemma converted_states kle vle (d : dag S decision I) missing o r : convert_dag_to_packed kle vle d missing o = Ok r ->
    original_states (snd r) = source_states (edges d) ++ [final_state d].
  Proof.
    unfold convert_dag_to_packed. intros E. apply bind_ok_inv in E as (t & _ & E).
    destruct (negb _); [discriminate|]. destruct (mem _ _); [discriminate|].
    do 4 (apply bind_ok_inv in E as (? & _ & E)). cbv zeta in E. apply bind_ok_inv in E as (? & _ & E).
    destruct (negb _); [discriminate|]. destruct (mem _ _); [discriminate|]. apply bind_ok_inv in E as (? & _ & E). injection E as <-. reflexivity.
  Qed.
  Lemma pruned_useful (d : dag S decision I) s : ordered (edges d) -> (exists p, complete_path d p /\ Forall finite_edge p) ->
    List.In s (states_of (prune_to_reachable d)) -> useful d s.
  Proof.
    intros O (p & P & F) E. destruct (prune_spec d O) as (_ & _ & (keep & K1 & K2) & _). unfold states_of in E. rewrite K1 in E. cbn in E.
    destruct E as [<-|[<-|E]].
    - split; [exists []; split; constructor|eauto].
    - split; [eauto|exists []; split; constructor].
    - apply in_flat_map in E as (e & E & Es). apply filter_In in E as [E1 E2]. apply (K2 e E1) in E2 as (p1 & p2 & P' & F').
      apply is_path_app_inv in P' as (t & P1 & P2). apply is_path_cons_inv in P2 as (-> & _ & P2).
      apply Forall_app in F' as [F1 F2]. inversion F2; subst. destruct Es as [<-|[<-|[]]].
      + split; [eauto|]. exists (e :: p2). split; auto. now constructor.
      + split; [|eauto]. exists (p1 ++ [e]). split; [now apply is_path_snoc|]. apply Forall_app. auto.
  Qed.
  Lemma add_same {S' I'} (fs : S -> S') (inj : forall x y, fs x = fs y -> x = y) (un : S' -> option S) (un_fs : forall s, un (fs s) = Some s) (fi : I -> I') hash scratch (d : dag S decision I) factor :
    ordered (edges d) -> 0 < length scratch -> collision_free hash (length scratch) d -> (exists p, complete_path d p /\ Forall finite_edge p) ->
    rel_result same_item (add_dag fs fi d factor) (add_dag_rewrite hash scratch fi d factor).
  Proof.
    intros O L C P. destruct (proj1 (rewrite_exact_aux hash (states_of d) (length scratch) L C d scratch eq_refl eq_refl O)) as (f & n & E & _ & J & _).
    { apply pruned_useful; auto. cbn. auto. }
    unfold add_dag, add_dag_rewrite. rewrite E. cbn [bind]. 
    assert (J' : forall s s', List.In s (states_of (prune_to_reachable d)) -> List.In s' (states_of (prune_to_reachable d)) -> f s = f s' -> s = s')
      by (intros; apply J; auto; now apply pruned_useful).
    rewrite (convert_rename (K := dkey) (V := dvalue) dkey_leb dvalue_leb f (prune_to_reachable d) J').
    destruct (convert_dag_to_packed dkey_leb dvalue_leb (prune_to_reachable d) DNA (Some all_values)) as [[p c]|] eqn:Ec; cbn [rmap bind rel_result]; auto.
    cbn [fst snd]. split; [reflexivity|]. cbn [snd].
    replace (map_conversion (fun s : nat => s) (fun c0 : cost => c0) fi (map_conversion f (fun c0 : cost => c0) (fun i : I => i) c))
      with (map_conversion (fun x => match un x with Some s => f s | None => 0 end) (fun c => c) (fun i => i) (map_conversion fs (fun c => c) fi c)).
    - apply renamed_map. cbn [map_conversion original_states]. apply converted_states in Ec. cbn [snd] in Ec.
      intros s s' X X'. apply in_map_iff in X as (x & <- & X). apply in_map_iff in X' as (x' & <- & X'). rewrite !un_fs. intros Ef. f_equal.
      assert (U : forall y, List.In y (original_states c) -> useful d y).
      { rewrite Ec. intros y Y. apply pruned_useful; auto. unfold states_of. apply in_app_iff in Y as [Y|[<-|[]]]; [|right; left; reflexivity].
        apply source_states_In in Y as (e & Y & <-). right. right. apply in_flat_map. exists e. cbn. auto. }
      apply J; auto.
    - unfold map_conversion. cbn [variable_keys variable_values original_states original_edges tagged_states tagged_edges outgoing_indices].
      rewrite !map_map. f_equal; apply map_ext; intros x; unfold map_edge, map_tag; cbn [source dest ecost assignment info fst snd]; now rewrite ?un_fs.
  Qed.
  Lemma add_jit {S' I'} (fs : S -> S') (fi : I -> I') (d : dag S decision I) factor : ordered (edges d) -> add_dag_jit fs fi d factor = add_dag fs fi d factor.
  Proof. intros O. unfold add_dag_jit, add_dag. now rewrite prune_jit_agrees. Qed.
End Same.

(** ** The same system. *)
Lemma mapM_rel {A B B'} (R : B -> B' -> Prop) (f : A -> result B) (f' : A -> result B') l :
  (forall x, List.In x l -> rel_result R (f x) (f' x)) -> rel_result (Forall2 R) (mapM f l) (mapM f' l).
Proof.
  induction l as [|x l IH]; intros H; cbn [mapM]; [exact (Forall2_nil _)|].
  pose proof (H x (or_introl eq_refl)) as Hx. specialize (IH (fun y Hy => H y (or_intror Hy))).
  destruct (f x), (f' x); cbn [rel_result bind] in *; try contradiction; auto.
  destruct (mapM f l), (mapM f' l); cbn [rel_result bind] in *; try contradiction; auto.
Qed.
Lemma same_make {S S' I} (l : list (pdag * @conversion S dkey dvalue I)) (l' : list (pdag * @conversion S' dkey dvalue I)) w :
  Forall2 same_item l l' -> rel_result same_system (make_system dkey_leb l w) (make_system dkey_leb l' w).
Proof.
  intros F.
  assert (E1 : map fst l' = map fst l) by (induction F as [|x y l l' [X1 X2] F IH]; cbn; congruence).
  assert (E2 : map (fun c => variable_keys (snd c)) l' = map (fun c => variable_keys (snd c)) l).
  { clear E1. induction F as [|x y l l' [X1 X2] F IH]; cbn; auto. destruct X2 as (g & _ & X2 & _). congruence. }
  assert (E3 : map (fun c => variable_values (snd c)) l' = map (fun c => variable_values (snd c)) l).
  { clear E1 E2. induction F as [|x y l l' [X1 X2] F IH]; cbn; auto. destruct X2 as (g & _ & _ & X2 & _). congruence. }
  assert (E4 : Forall2 renamed (map snd l) (map snd l')).
  { clear E1 E2 E3. induction F as [|x y l l' [X1 X2] F IH]; cbn; constructor; auto. }
  unfold make_system. destruct F as [|[p c] [p' c'] l l' [X1 X2] F]; [reflexivity|]. cbn in X1. subst p'.
  assert (V : variable_values c' = variable_values c) by (cbn in E3; congruence).
  assert (Fb : forallb (fun c0 => eqb (variable_values (snd c0)) (variable_values c')) l' = forallb (fun c0 => eqb (variable_values (snd c0)) (variable_values c)) l).
  { cbn in E3. injection E3 as _ E3. rewrite V. clear -E3. revert l' E3. induction l as [|x l IH]; intros [|y l'] E; try discriminate; auto.
    cbn in E. injection E as E1 E2. cbn. rewrite E1. f_equal. now apply IH. }
  rewrite Fb. destruct (forallb _ l); [|reflexivity]. set (L := (p, c) :: l) in *. set (L' := (p, c') :: l') in *.
  assert (Kq : flat_map (fun c0 => variable_keys (snd c0)) L' = flat_map (fun c0 => variable_keys (snd c0)) L) by (rewrite !flat_map_concat_map; now rewrite E2).
  cbv zeta. rewrite Kq, V. cbn [rel_result]. unfold same_system. cbn [data sys_keys sys_values conversion_data]. splits; auto. f_equal.
  - rewrite <- (map_map fst empty_unpenalized_table L'), E1, map_map. reflexivity.
  - apply map_ext. intros key. rewrite <- (map_map (fun c => variable_keys (snd c)) (fun ks => index_of ks key) L'), E2, map_map. reflexivity.
  - destruct w; auto. rewrite <- (map_map fst (fun _ => 1%Qc) L'), E1, map_map. reflexivity.
Qed.

Section SameBuild.
  Context {S1 S2 S S' I1 I2 T : Type}.
  Context (add1 : dag S1 decision I1 -> Qc -> result (pdag * @conversion S dkey dvalue (I1 + I2))) (add2 : dag S2 decision I2 -> Qc -> result (pdag * @conversion S dkey dvalue (I1 + I2))).
  Context (add1' : dag S1 decision I1 -> Qc -> result (pdag * @conversion S' dkey dvalue (I1 + I2))) (add2' : dag S2 decision I2 -> Qc -> result (pdag * @conversion S' dkey dvalue (I1 + I2))).
  Context (construct construct' : T -> result (dag S1 decision I1)) (constraint constraint' : result (dag S2 decision I2)).
  Lemma same_build targets factors :
    (forall t, List.In t targets -> exists d, construct t = Ok d /\ construct' t = Ok d /\ forall k, rel_result same_item (add1 d k) (add1' d k)) ->
    (exists d, constraint = Ok d /\ constraint' = Ok d /\ forall k, rel_result same_item (add2 d k) (add2' d k)) ->
    rel_result same_system (build_system_with add1 add2 construct constraint targets factors) (build_system_with add1' add2' construct' constraint' targets factors).
  Proof.
    intros H1 (dc & C1 & C2 & H2). unfold build_system_with.
    destruct (match factors with Some l => Ok l | None => uniform_weights targets end) as [fs|]; cbn [bind]; [|reflexivity].
    pose proof (mapM_rel same_item (fun tf => do d <- construct (fst tf); add1 d (snd tf)) (fun tf => do d <- construct' (fst tf); add1' d (snd tf)) (combine targets fs)) as R.
    cbv zeta. match type of R with ?X -> _ => assert (Y : X) end.
    { intros [t k] E. apply in_combine_l in E. destruct (H1 t E) as (d & X1 & X2 & G). cbn [fst snd]. rewrite X1, X2. exact (G k). }
    specialize (R Y). rewrite C1, C2. destruct (mapM (fun tf => do d <- construct (fst tf); add1 d (snd tf)) (combine targets fs)), (mapM (fun tf => do d <- construct' (fst tf); add1' d (snd tf)) (combine targets fs));
      cbn [rel_result bind] in *; try contradiction; auto.
    specialize (H2 (fold_right Qcplus 0%Qc fs)). destruct (add2 dc _), (add2' dc _); cbn [rel_result bind] in *; try contradiction; auto.
    apply same_make. apply Forall2_app; auto.
  Qed.
End SameBuild.

(** ** The same result. *)
Lemma same_info {S S' I} dags : forall (cs : list (@conversion S dkey dvalue I)) (cs' : list (@conversion S' dkey dvalue I)) asg total, Forall2 renamed cs cs' ->
  compute_sample_system_info dags cs' asg total = compute_sample_system_info dags cs asg total.
Proof.
  intros cs cs' asg total F. unfold compute_sample_system_info.
  replace (mapM (fun dc => do r <- constrained_best_path (fst dc) (snd dc) asg; Ok (path_cost (fst r))) (combine dags cs'))
    with (mapM (fun dc => do r <- constrained_best_path (fst dc) (snd dc) asg; Ok (path_cost (fst r))) (combine dags cs)); [reflexivity|].
  revert dags. induction F as [|c c' cs cs' R F IH]; intros [|d dags]; auto. cbn [combine mapM fst snd]. rewrite IH.
  apply renamed_inv in R as [g ->]. rewrite best_path_map. destruct (constrained_best_path d c asg) as [[path a]|]; cbn [rmap bind fst]; auto.
  now rewrite map_path_cost.
Qed.
Lemma same_removelast {A B} (R : A -> B -> Prop) l l' : Forall2 R l l' -> Forall2 R (removelast l) (removelast l').
Proof.
  induction 1 as [|x y l l' H F IH]; [constructor|]. cbn [removelast]. destruct F; [constructor|]. constructor; auto.
Qed.
Lemma same_finish {M S S' I} (p : storage M) ci ts (sy : @system S dkey dvalue I) (sy' : @system S' dkey dvalue I) res : same_system sy sy' ->
  rel_result same_result (finish p ci ts sy res) (finish p ci ts sy' res).
Proof.
  intros Hs. pose proof Hs as (E1 & E2 & E3 & E4). unfold finish. destruct (rev (objective_at_step res)); [cbn; unfold same_result; cbn; splits; auto|].
  rewrite E1, E3. destruct (greedy_extract (data sy) FORWARD) as [g|]; cbn [bind]; [|reflexivity].
  unfold assignments_from_assignment_vector. rewrite E2, E3. destruct (mapM _ _) as [asg|]; cbn [bind]; [|reflexivity].
  unfold solution_info. destruct (extract_sequence_with_regions p asg []) as [parts [err|]]; cbn [bind]; [reflexivity|].
  rewrite E1, (same_info _ _ _ asg None (same_removelast _ _ _ E4)). destruct (compute_sample_system_info _ _ _ _); cbn [bind]; [|reflexivity].
  cbn. unfold same_result. cbn. splits; auto.
Qed.
Lemma same_combine {M S S' I} fuel clock (w : wrapper M S I) (w' : wrapper M S' I) parse context samples index :
  w_prototype w' = w_prototype w -> w_target w' = w_target w ->
  (forall s ns targets, py_index (map (fun sample => context ++ sample) samples) index = Ok s -> parse s = Ok ns ->
     mapM (fun s => do ns <- parse s; Ok (w_target w ns (length context))) (map (fun sample => context ++ sample) samples) = Ok targets ->
     rel_result same_system (w_build w (fst (w_prototype w ns (length context))) targets) (w_build w' (fst (w_prototype w ns (length context))) targets)) ->
  same_outcome (combine_samples fuel clock w parse context samples index) (combine_samples fuel clock w' parse context samples index).
Proof.
  intros E1 E2 H. unfold combine_samples, prepare. rewrite E1, E2. cbv zeta.
  destruct (py_index _ index) as [s|] eqn:Ei; cbn [bind]; [|reflexivity].
  destruct (parse s) as [ns|] eqn:Ep; cbn [bind]; [|reflexivity]. specialize (H s ns). destruct (w_prototype w ns (length context)) as [p ci].
  destruct (mapM _ _) as [ts|] eqn:Et; cbn [bind]; [|reflexivity]. specialize (H ts eq_refl Ep eq_refl). cbn [fst] in H.
  destruct (w_build w p ts) as [sy|], (w_build w' p ts) as [sy'|]; cbn [rel_result bind] in *; try contradiction; [|exact H].
  destruct sy' as [d' k' v' c']. destruct H as (D1 & D2 & D3 & D4). cbn [data sys_keys sys_values conversion_data] in *. subst.
  destruct (solve_system_with_sweeps fuel clock default_tolerance (data sy)) as [[[res s']|]|]; cbn; auto.
  pose proof (same_finish p ci ts (mkSystem s' (sys_keys sy) (sys_values sy) (conversion_data sy)) (mkSystem s' (sys_keys sy) (sys_values sy) c') res) as G.
  unfold rel_result in G. assert (SS : same_system (mkSystem s' (sys_keys sy) (sys_values sy) (conversion_data sy)) (mkSystem s' (sys_keys sy) (sys_values sy) c')).
  { unfold same_system. cbn. splits; auto. }
  specialize (G SS). destruct (finish _ _ _ (mkSystem s' (sys_keys sy) (sys_values sy) (conversion_data sy)) res), (finish _ _ _ (mkSystem s' (sys_keys sy) (sys_values sy) c') res); auto; contradiction.
Qed.
