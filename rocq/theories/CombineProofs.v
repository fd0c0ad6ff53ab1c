(** [combine_samples]: it always returns, and what it returns. *)

From Coq Require Import List Bool Arith Lia ZArith Sorted QArith Qcanon.
From Verif Require Import Base SeqNodes Transforms PackedSeq PackedSeqProofs Numbered Graph GatedDag PackedDag Convert MapDag Decisions ConstraintSpec ConstraintDag
  RegionDecisions RegionProofs ConstraintProofs ConstraintPack DualSolver DualSpec DualLists Properties_Regions SystemSpec BuildSystem BuildProofs BuildKeys Combine.
Import ListNotations.
Close Scope Qc_scope. Close Scope Q_scope. Close Scope Z_scope. Open Scope nat_scope.

(** ** Building for mapped targets. *)
Lemma combine_map_l {A B C} (g : A -> B) (l : list A) (l' : list C) : combine (map g l) l' = map (fun p => (g (fst p), snd p)) (combine l l').
Proof. revert l'. induction l as [|x l IH]; intros [|y l']; auto. cbn. now rewrite IH. Qed.
Lemma mapM_through {A B C} (g : A -> B) (f : B -> result C) l : mapM f (map g l) = mapM (fun x => f (g x)) l.
Proof. induction l as [|x l IH]; auto. cbn [map mapM]. now rewrite IH. Qed.
Section BuildMap.
  Context {S1 S2 I1 I2 T T' : Type} {d1 : EqDec S1} {d2 : EqDec S2}.
  Context (construct : T -> result (dag S1 decision I1)) (constraint : result (dag S2 decision I2)) (g : T' -> T).
  Lemma build_map targets factors :
    build_system construct constraint (map g targets) (Some factors) = build_system (fun t => construct (g t)) constraint targets (Some factors).
  Proof.
    unfold build_system. cbn [bind]. rewrite combine_map_l, mapM_through. rewrite map_map. reflexivity.
  Qed.
  Lemma build_default targets : targets <> [] ->
    build_system construct constraint (map g targets) None =
    build_system (fun t => construct (g t)) constraint targets
      (Some (repeat (1 / Q2Qc (inject_Z (Z.of_nat (length targets))))%Qc (length targets))).
  Proof.
    intros Hn. rewrite <- build_map. unfold build_system.
    assert (E : uniform_weights (map g targets) = Ok (repeat (1 / Q2Qc (inject_Z (Z.of_nat (length targets))))%Qc (length targets))).
    { unfold uniform_weights. rewrite <- (map_length g targets). destruct (map g targets) as [|t l] eqn:E.
      - destruct targets; [congruence|discriminate].
      - f_equal. clear. generalize (1 / Q2Qc (inject_Z (Z.of_nat (length (t :: l)))))%Qc. generalize (t :: l).
        intros k q. induction k; cbn; congruence. }
    rewrite E. reflexivity.
  Qed.
End BuildMap.

(** ** The uniform weights average. *)
Lemma count_positive n : (0 < n) -> (0 < Q2Qc (inject_Z (Z.of_nat n)))%Qc.
Proof.
  intros Hn. unfold Qclt. cbn [this Q2Qc]. rewrite !Qred_correct. unfold Qlt. cbn. lia.
Qed.
Lemma weighted_average ks : ks <> [] ->
  weighted (repeat (1 / Q2Qc (inject_Z (Z.of_nat (length ks))))%Qc (length ks)) ks = average ks.
Proof.
  intros Hn. unfold average. generalize (Q2Qc (inject_Z (Z.of_nat (length ks)))). intros n. unfold weighted.
  replace (fold_right Qcplus 0 ks / n)%Qc with (fold_right Qcplus 0 ks * (1 / n))%Qc by (unfold Qcdiv; ring).
  generalize (1 / n)%Qc. clear. intros f. induction ks as [|k l IH]; cbn [length repeat combine fold_right fst snd]; [ring|].
  rewrite IH. ring.
Qed.
Lemma combine_repeat_fst {A B} (l : list A) (b : B) : map fst (combine l (repeat b (length l))) = l.
Proof. induction l as [|x l IH]; cbn; congruence. Qed.
Lemma combine_repeat_snd {A B} (l : list A) (b : B) : map snd (combine l (repeat b (length l))) = repeat b (length l).
Proof. induction l as [|x l IH]; cbn; congruence. Qed.

(** ** With at least two variables the solver makes a step. *)
Lemma run_sweep_grows tol vs : forall g g', run_sweep tol vs g = Ok g' ->
  length (g_objectives g') = length (g_objectives g) + length vs /\ num_keys (g_sys g') = num_keys (g_sys g).
Proof.
  induction vs as [|v vs IH]; intros g g' E; cbn [run_sweep] in E.
  - injection E as <-. cbn. split; auto.
  - apply bind_ok_inv in E as [r [Hr E]]. apply IH in E as [E1 E2]. cbn [g_objectives g_sys] in *. rewrite app_length in E1. cbn [length] in *.
    split; [lia|]. rewrite E2. unfold min_marginal_average in Hr. 
    repeat (apply bind_ok_inv in Hr as [? [? Hr]]). injection Hr as <-. reflexivity.
Qed.
Lemma run_directions_grows clock tol dirs : forall g g', run_directions clock tol dirs g = Ok g' -> length (g_objectives g) <= length (g_objectives g').
Proof.
  induction dirs as [|d dirs IH]; intros g g' E; cbn [run_directions] in E; [injection E as <-; auto|].
  apply bind_ok_inv in E as [g1 [E1 E]]. apply run_sweep_grows in E1 as [E1 _]. destruct (clock (length (g_sweeps g1))).
  - injection E as <-. cbn. lia.
  - apply IH in E. cbn in E. lia.
Qed.
Lemma run_rounds_grows clock tol fuel : forall g g', run_rounds fuel clock tol g = Some (Ok g') -> length (g_objectives g) <= length (g_objectives g').
Proof.
  induction fuel as [|f IH]; intros g g' E; [discriminate|]. cbn [run_rounds] in E.
  destruct (run_directions clock tol [FORWARD; REVERSE] _) as [g1|] eqn:E1; [|discriminate].
  apply run_directions_grows in E1. cbn [g_objectives] in E1. destruct (g_changed g1).
  - apply IH in E. lia.
  - injection E as <-. exact E1.
Qed.
Lemma solve_steps s fuel clock tol res s' : 2 <= num_keys s -> solve_system_with_sweeps fuel clock tol s = Some (Ok (res, s')) ->
  objective_at_step res <> [].
Proof.
  intros Hk E. unfold solve_system_with_sweeps in E.
  destruct (run_rounds fuel clock tol (mkProgress s None false [] [] [] [])) as [[g|]|] eqn:Er; try discriminate. injection E as <- _. cbn [objective_at_step].
  destruct fuel as [|f]; [discriminate|]. cbn [run_rounds] in Er.
  destruct (run_directions clock tol [FORWARD; REVERSE] _) as [g1|] eqn:E1; [|discriminate]. cbn [run_directions] in E1.
  apply bind_ok_inv in E1 as [g0 [E0 E1]]. apply run_sweep_grows in E0 as [E0 _]. cbn [g_sys g_objectives sweep_variables length] in E0. rewrite seq_length in E0.
  assert (G : 1 <= length (g_objectives g1)).
  { destruct (clock (length (g_sweeps g0))); [injection E1 as <-; cbn; lia|]. 
    apply (run_directions_grows clock tol [REVERSE]) in E1. cbn in E1. lia. }
  assert (G' : length (g_objectives g1) <= length (g_objectives g)).
  { destruct (g_changed g1); [eapply run_rounds_grows; exact Er|injection Er as <-; auto]. }
  intros C. rewrite C in G'. cbn in G'. lia.
Qed.

(** ** Assignments and choices. *)
Lemma choice_once {M} (tree : list (lnode M)) ds : numbered 0 tree -> region_choice tree ds -> NoDup (map fst ds).
Proof.
  intros Hn Hc. pose proof (choice_increasing tree ds Hn Hc) as S.
  assert (N : NoDup (map (fun d : decision => fst (fst d)) ds)).
  { assert (G : forall l, StronglySorted lt l -> NoDup l).
    { induction 1 as [|x l H IH F]; constructor; auto. intros C. rewrite Forall_forall in F. specialize (F x C). lia. }
    apply G. exact S. }
  exact (distinct_keys _ N).
Qed.
Lemma same_respects (asg ds : list decision) : NoDup (map fst ds) -> incl (map fst ds) (map fst asg) -> same_decisions asg ds -> respects asg ds.
Proof.
  intros N Hi Hs k v Hin. specialize (Hs k). unfold decided in Hs. rewrite (assoc_once ds k v N Hin) in Hs.
  destruct (assoc k asg) as [v'|] eqn:E; [congruence|]. apply assoc_None_iff in E. destruct E. apply Hi. apply in_map_iff. exists (k, v). auto.
Qed.
Lemma lengths_agree {A B} (P : A -> B -> Prop) l l' : Forall2 P l l' -> length l = length l'.
Proof. induction 1; cbn; congruence. Qed.
Lemma least_unique rel asg k k' : least_cost rel asg k -> least_cost rel asg k' -> k = k'.
Proof. intros [[ds [H1 H2]] M1] [[ds' [H1' H2']] M2]. apply Qcle_antisym; eauto. Qed.
Lemma least_unique_all {X} (rels : X -> Qc -> list decision -> Prop) asg xs ks ks' :
  Forall2 (fun x k => least_cost (rels x) asg k) xs ks -> Forall2 (fun x k => least_cost (rels x) asg k) xs ks' -> ks = ks'.
Proof.
  intros F. revert ks'. induction F as [|x k xs ks H F IH]; intros ks' F'; inversion F'; subst; auto. f_equal; auto.
  eapply least_unique; eauto.
Qed.

(** ** Any wrapper whose DAGs fit together. *)
Section Generic.
  Context {M S1 I1 : Type} {d1 : EqDec S1}.
  Context (w : wrapper M (S1 + cstate) (I1 + cinfo)) (parse : text -> result (list (node M))).
  Context (context : text) (samples : list text) (index : Z) (sample : text).
  Context (trees : text -> list (node M)) (Hparse : forall s, In s samples -> parse (context ++ s) = Ok (trees s)).
  Context (Hsample : py_index samples index = Ok sample).
  Context (proto : list (node M)) (ci : option text) (Hproto : w_prototype w (trees sample) (length context) = (pack proto, ci)).
  Context (construct : storage M -> storage M -> result (dag S1 decision I1)).
  Context (Hbuild : forall p ts, w_build w p ts = build_system (construct p) (construct_constraint_dag p) ts None).
  Context (rels : text -> Qc -> list decision -> Prop).
  Let tgt (s : text) : storage M := w_target w (trees s) (length context).
  Let K := questions (labelled proto).
  Let choice := region_choice (labelled proto).
  Context (Ht : forall s, In s samples -> exists d, construct (pack proto) (tgt s) = Ok d /\ allows (rels s) K d).
  Context (couple : forall s ds, In s samples -> choice ds -> exists k, rels s k ds).
  Let factors := repeat (1 / Q2Qc (inject_Z (Z.of_nat (length samples))))%Qc (length samples).
  Let build := build_system (fun s => construct (pack proto) (tgt s)) (construct_constraint_dag (pack proto)) samples (Some factors).

  Lemma index_In {A} (l : list A) i x : py_index l i = Ok x -> In x l.
  Proof.
    unfold py_index. generalize (if (i <? 0)%Z then (i + Z.of_nat (length l))%Z else i). intros j. cbv zeta.
    destruct (j <? 0)%Z; [discriminate|]. destruct (nth_error l (Z.to_nat j)) eqn:E; [|discriminate].
    cbn. intros H. injection H as <-. eapply nth_error_In; eauto.
  Qed.
  Lemma index_map {A B} (f : A -> B) l i x : py_index l i = Ok x -> py_index (map f l) i = Ok (f x).
  Proof.
    unfold py_index. rewrite map_length. generalize (if (i <? 0)%Z then (i + Z.of_nat (length l))%Z else i). intros j. cbv zeta.
    destruct (j <? 0)%Z; [discriminate|]. rewrite nth_error_map. destruct (nth_error l (Z.to_nat j)); [|discriminate].
    cbn. intros H. injection H as <-. reflexivity.
  Qed.
  Lemma samples_some : samples <> [].
  Proof. intros C. apply index_In in Hsample. rewrite C in Hsample. destruct Hsample. Qed.
  Lemma factors_positive f : In f factors -> (0 < f)%Qc.
  Proof.
    intros Hf. apply repeat_spec in Hf. subst f. pose proof samples_some as Hn.
    assert (G : (0 < Q2Qc (inject_Z (Z.of_nat (length samples))))%Qc) by (apply count_positive; destruct samples; [congruence|cbn; lia]).
    revert G. generalize (Q2Qc (inject_Z (Z.of_nat (length samples)))). intros n Hp.
    unfold Qcdiv. rewrite Qcmult_1_l. destruct (Qclt_le_dec 0 (/ n)%Qc) as [H|H]; auto. exfalso.
    assert (E : (n * / n = 1)%Qc) by (apply Qcmult_inv_r; intros C; subst n; discriminate).
    assert (L : (/ n * n <= 0 * n)%Qc) by (apply Qcmult_le_compat_r; [exact H|now apply Qclt_le_weak]).
    rewrite Qcmult_comm, E, Qcmult_0_l in L. apply Qcle_not_lt in L. apply L. reflexivity.
  Qed.
  Lemma factors_some : factors <> [].
  Proof. unfold factors. pose proof samples_some as Hn. destruct samples; [congruence|discriminate]. Qed.

  Lemma prepared sy : build = Ok sy -> prepare w parse context samples index = Ok (pack proto, ci, map tgt samples, sy).
  Proof.
    intros E. unfold prepare. rewrite (index_map _ _ _ _ Hsample). cbn [bind]. rewrite (Hparse sample (index_In _ _ _ Hsample)). cbn [bind].
    rewrite Hproto, mapM_through.
    assert (Em : mapM (fun s => do ns <- parse (context ++ s); Ok (w_target w ns (length context))) samples = Ok (map tgt samples)).
    { clear -Hparse. revert Hparse. generalize samples as l. induction l as [|s l IH]; intros H; auto. cbn [mapM map]. rewrite (H s) by (simpl; auto). cbn [bind].
      rewrite IH by (intros; apply H; simpl; auto). reflexivity. }
    rewrite Em. cbn [bind]. rewrite Hbuild, build_default by apply samples_some. fold factors. fold build. rewrite E. reflexivity.
  Qed.
  Lemma choices_cover : exists ds, choice ds /\ map fst ds = K.
  Proof. apply choice_full. Qed.

  Lemma build_facts : exists sy, build = Ok sy /\ sys_values sy = all_values /\ (forall k, In k (sys_keys sy) <-> In k K) /\ NoDup (sys_keys sy) /\
    num_keys (data sy) = length K.
  Proof.
    destruct (constraint_allows proto) as [dc [Ec Ac]].
    destruct (built _ _ samples factors rels choice K dc Ec Ac Ht choices_cover couple) as [sy [E [V [Ek [N Hn]]]]].
    exists sy. splits; auto. rewrite Hn. apply Nat.le_antisymm; apply NoDup_incl_length; auto; try apply questions_distinct; intros k; apply Ek.
  Qed.

  Theorem combine_returns clock : exists fuel r, forall more, combine_samples (fuel + more) clock w parse context samples index = Some (Ok r).
  Proof.
    destruct build_facts as [sy [E [V [Ek [N Hn]]]]]. destruct (constraint_allows proto) as [dc [Ec Ac]].
    unfold combine_samples. destruct (le_lt_dec (length K) 1) as [Hk|Hk].
    - destruct (solve_trivial (data sy) 0 clock default_tolerance) as [res0 [_ _]]; [lia|].
      exists 1. 
      assert (G : forall more, exists res, solve_system_with_sweeps (1 + more) clock default_tolerance (data sy) = Some (Ok (res, data sy)) /\ objective_at_step res = [])
        by (intros more; apply solve_trivial; lia).
      assert (Same : exists res, forall more, solve_system_with_sweeps (1 + more) clock default_tolerance (data sy) = Some (Ok (res, data sy)) /\ objective_at_step res = []).
      { destruct (G 0) as [res [G1 G2]]. exists res. intros more. split; auto. rewrite <- G1. clear -Hk Hn.
        unfold solve_system_with_sweeps. cbn [Nat.add run_rounds]. 
        assert (V1 : forall dir, sweep_variables dir (num_keys (data sy)) = []).
        { intros dir. destruct (num_keys (data sy)) as [|[|n]]; [destruct dir; reflexivity|destruct dir; reflexivity|lia]. }
        cbn [run_directions g_sys g_last g_objectives g_variables g_sweeps g_steps]. rewrite V1.
        cbn [run_sweep bind end_sweep g_sys g_last g_changed g_objectives g_variables g_sweeps g_steps app length].
        destruct (clock 0); [reflexivity|]. rewrite V1.
        cbn [run_sweep bind end_sweep g_sys g_last g_changed g_objectives g_variables g_sweeps g_steps app length].
        destruct (clock 1); reflexivity. }
      destruct Same as [res Same]. eexists. intros more. rewrite (prepared sy E). destruct (Same more) as [S1' S2']. rewrite S1'.
      unfold finish. rewrite S2'. reflexivity.
    - assert (HK : K <> []) by (intros C; rewrite C in Hk; cbn in Hk; lia).
      destruct (built_terminates _ _ samples factors rels choice K dc Ec Ac Ht choices_cover couple factors_positive factors_some sy clock default_tolerance HK E eq_refl)
        as [fuel [res [s' Hrun]]].
      exists fuel. rewrite (prepared sy E).
      assert (F : exists r, finish (pack proto) ci (map tgt samples) (mkSystem s' (sys_keys sy) (sys_values sy) (conversion_data sy)) res = Ok r).
      { pose proof (Hrun 0) as H0. unfold finish. destruct (rev (objective_at_step res)) as [|b l]; [eauto|].
        destruct (built_run _ _ samples factors rels choice K dc Ec Ac Ht choices_cover couple factors_positive factors_some sy _ clock default_tolerance res s' HK E H0)
          as [R _]. destruct (R FORWARD) as [x [q [asg [ks [ds [G1 [G2 [G3 [G4 [G5 [G6 G7]]]]]]]]]]].
        cbn [data sys_values]. rewrite G1. cbn [bind fst snd].
        replace (map (vector_index (length (sys_values sy))) (map Some x)) with x by (rewrite map_map; cbn; now rewrite map_id).
        replace (assignments_from_assignment_vector (mkSystem s' (sys_keys sy) (sys_values sy) (conversion_data sy)) x) with (Ok asg) by (symmetry; exact G2).
        cbn [bind]. unfold solution_info.
        assert (Na : NoDup (map fst asg)) by (rewrite G3; exact N).
        assert (Ka : forall k, In k (map fst asg) <-> In k K) by (intros k; rewrite G3; apply Ek).
        assert (Rs : respects asg ds).
        { apply same_respects; auto; [eapply choice_once; [apply labelled_numbered|exact G4]|].
          intros k Hin. apply Ka. exact (al_keys _ _ _ Ac 0%Qc ds (conj eq_refl G4) k Hin). }
        destruct (C47_text M proto ds asg G4 Rs) as [parts [rest [Ep _]]]. rewrite Ep.
        unfold compute_sample_system_info. cbn [data tables conversion_data].
        pose proof (built_costs _ _ samples factors rels choice K dc Ec Ac Ht choices_cover couple factors_positive factors_some sy _ clock default_tolerance res s' asg HK E H0 Na Ka
          (ex_intro _ ds (conj G4 G5))) as BC.
        assert (Em : exists cs, mapM (fun dc0 : pdag * conversion => do r <- constrained_best_path (fst dc0) (snd dc0) asg; Ok (path_cost (fst r)))
                        (combine (map m_dag (removelast (tables s'))) (removelast (conversion_data sy))) = Ok cs).
        { clear -BC. induction BC as [|t dc0 ts dcs [d [p [y [k [B1 [B2 [B3 _]]]]]]] BC IH]; [exists []; reflexivity|].
          destruct IH as [cs IH]. cbn [mapM]. rewrite B3. cbn [bind]. rewrite IH. eexists. reflexivity. }
        destruct Em as [cs Em]. rewrite Em. cbn [bind]. eauto. }
      destruct F as [r F]. exists r. intros more. rewrite Hrun. now rewrite F.
  Qed.

  Theorem combine_spec fuel clock r : combine_samples fuel clock w parse context samples index = Some (Ok r) ->
    r_context_info r = ci /\ r_prototype r = pack proto /\ r_targets r = map tgt samples /\
    ((length K <= 1 /\ assignment_map r = None /\ r_solution_info r = None /\ solution_utility r = NaN /\ utility_dual_bound r = NaN) \/
     (2 <= length K /\ exists asg ds sol ks u,
        assignment_map r = Some asg /\ r_solution_info r = Some sol /\
        NoDup (map fst asg) /\ (forall k, In k (map fst asg) <-> In k K) /\ choice ds /\ same_decisions asg ds /\ respects asg ds /\
        extract_sequence_with_regions (pack proto) asg [] = (extracted_parts sol, None) /\
        Forall2 (fun s k => least_cost (rels s) asg k) samples ks /\ solution_utility r = Fin (- average ks)%Qc /\
        s_sample sol = mkSample (map Fin ks) (sort_costs (map Fin ks)) (mean (sort_costs (map Fin ks))) (var_ddof1 (sort_costs (map Fin ks))) None /\
        utility_dual_bound r = Fin u /\
        forall ds' ks', choice ds' -> Forall2 (fun s k => exists ds'', rels s k ds'' /\ same_decisions ds' ds'') samples ks' -> (- average ks' <= u)%Qc)).
  Proof.
    destruct build_facts as [sy [E [V [Ek [N Hn]]]]]. destruct (constraint_allows proto) as [dc [Ec Ac]].
    unfold combine_samples. rewrite (prepared sy E). destruct (solve_system_with_sweeps fuel clock default_tolerance (data sy)) as [[[res s']|]|] eqn:H0; try discriminate.
    intros Hr. injection Hr as Hr. unfold finish in Hr. destruct (le_lt_dec (length K) 1) as [Hk|Hk].
    - destruct fuel as [|f]; [discriminate|]. destruct (solve_trivial (data sy) f clock default_tolerance) as [res0 [R1 R2]]; [lia|].
      assert (res0 = res /\ s' = data sy) as [-> ->] by (split; congruence).
      rewrite R2 in Hr. cbn [rev] in Hr. injection Hr as <-. cbn. splits; auto. left. splits; auto.
    - assert (HK : K <> []) by (intros C; rewrite C in Hk; cbn in Hk; lia).
      destruct (rev (objective_at_step res)) as [|b l] eqn:Eb.
      { exfalso. eapply (solve_steps (data sy)); [|exact H0|]; [lia|]. rewrite <- (rev_involutive (objective_at_step res)), Eb. reflexivity. }
      destruct (built_run _ _ samples factors rels choice K dc Ec Ac Ht choices_cover couple factors_positive factors_some sy _ clock default_tolerance res s' HK E H0)
          as [R Bd]. destruct (R FORWARD) as [x [q [asg [ks [ds [G1 [G2 [G3 [G4 [G5 [G6 G7]]]]]]]]]]].
      cbn [data sys_values] in Hr. rewrite G1 in Hr. cbn [bind fst snd] in Hr.
      replace (map (vector_index (length (sys_values sy))) (map Some x)) with x in Hr by (rewrite map_map; cbn; now rewrite map_id).
      replace (assignments_from_assignment_vector (mkSystem s' (sys_keys sy) (sys_values sy) (conversion_data sy)) x) with (Ok asg) in Hr by (symmetry; exact G2).
      cbn [bind] in Hr. unfold solution_info in Hr.
      assert (Na : NoDup (map fst asg)) by (rewrite G3; exact N).
      assert (Ka : forall k, In k (map fst asg) <-> In k K) by (intros k; rewrite G3; apply Ek).
      assert (Rs : respects asg ds).
      { apply same_respects; auto; [eapply choice_once; [apply labelled_numbered|exact G4]|].
        intros k Hin. apply Ka. exact (al_keys _ _ _ Ac 0%Qc ds (conj eq_refl G4) k Hin). }
      destruct (C47_text M proto ds asg G4 Rs) as [parts [rest [Ep _]]]. rewrite Ep in Hr.
      unfold compute_sample_system_info in Hr. cbn [data tables conversion_data] in Hr.
      pose proof (built_costs _ _ samples factors rels choice K dc Ec Ac Ht choices_cover couple factors_positive factors_some sy _ clock default_tolerance res s' asg HK E H0 Na Ka
        (ex_intro _ ds (conj G4 G5))) as BC.
      unfold factors in G6, G7, Bd, BC. rewrite combine_repeat_fst in G6, Bd, BC. rewrite combine_repeat_snd in G7, Bd.
      assert (Em : exists cs, mapM (fun dc0 : pdag * conversion => do r <- constrained_best_path (fst dc0) (snd dc0) asg; Ok (path_cost (fst r)))
                      (combine (map m_dag (removelast (tables s'))) (removelast (conversion_data sy))) = Ok (map Fin cs) /\
                    Forall2 (fun s k => least_cost (rels s) asg k) samples cs).
      { clear -BC. induction BC as [|t dc0 ts dcs [d [p [y [k [B1 [B2 [B3 [B4 B5]]]]]]]] BC IH]; [exists []; split; [reflexivity|constructor]|].
        destruct IH as [cs [IH F]]. exists (k :: cs). split; [|constructor; auto]. cbn [mapM]. rewrite B3. cbn [bind fst]. rewrite IH. cbn [bind map].
        do 2 f_equal. transitivity (path_cost p); [|exact B4]. unfold path_cost. now rewrite map_map. }
      destruct Em as [cs [Em Fc]]. assert (cs = ks) by (eapply least_unique_all; eauto). subst cs.
      rewrite Em in Hr. cbn [bind] in Hr. injection Hr as <-. cbn. splits; auto. right. split; [lia|].
      assert (Lk : length ks = length samples) by (symmetry; eapply lengths_agree; exact G6).
      assert (Hs : samples <> []) by apply samples_some.
      assert (Wa : forall ks', length ks' = length samples ->
                weighted (repeat (1 / Q2Qc (inject_Z (Z.of_nat (length samples))))%Qc (length samples)) ks' = average ks').
      { intros ks' El. rewrite <- El. apply weighted_average. intros C. subst ks'. destruct samples; [congruence|discriminate]. }
      assert (Bf : exists u, b = Fin u).
      { assert (Hb : In b (objective_at_step res)) by (apply in_rev; rewrite Eb; simpl; auto).
        assert (C : cle b (Fin (weighted (repeat (1 / Q2Qc (inject_Z (Z.of_nat (length samples))))%Qc (length samples)) ks))).
        { apply (Bd b ds ks Hb G4). eapply Forall2_impl; [|exact G6]. intros t k [[d0 [L1 L2]] _]. exists d0. split; auto.
          intros key. rewrite <- G5. apply L2. }
        destruct b; cbn in C; try tauto; eauto. }
      destruct Bf as [u ->].
      exists asg, ds, (mkSolution parts (mkSample (map Fin ks) (sort_costs (map Fin ks)) (mean (sort_costs (map Fin ks))) (var_ddof1 (sort_costs (map Fin ks))) None)), ks, (- u)%Qc.
      splits; auto.
      + cbn. do 2 f_equal. rewrite G7. apply Wa. exact Lk.
      + intros ds' ks' Hc' F'. assert (Hb : In (Fin u) (objective_at_step res)) by (apply in_rev; rewrite Eb; simpl; auto).
        pose proof (Bd _ ds' ks' Hb Hc' F') as C. cbn in C. rewrite Wa in C by (symmetry; eapply lengths_agree; exact F').
        revert C. generalize (average ks'). clear. intros a C. qc_lra.
  Qed.
End Generic.
