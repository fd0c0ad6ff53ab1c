(** Solving for the region baselines. *)

From Coq Require Import List Bool Arith Lia ZArith QArith Qcanon Sorting.Sorted.
From Verif Require Import Base SeqNodes PackedSeq PackedSeqProofs Numbered Graph GatedDag Convert Decisions TokenProb RegionDecisions PrefixBaselines PrefixProofs
  ConstraintSpec ConstraintDag EditDag EditSpec EditTheorems SelectionSpec SystemSpec BuildSystem DualSolver BuildProofs BuildKeys Combine CombineProofs CombineTheorems
  RegionBaselines RegionBaselineProofs.
Import ListNotations.
Close Scope Qc_scope. Close Scope Q_scope. Close Scope Z_scope. Open Scope nat_scope.

Definition wanted (places : list nat) : list decision := map (fun k => ((k, NodeInRegion), DTrue)) places.
Lemma region_constraints_are places : NoDup places -> region_constraints places = wanted places.
Proof.
  intros N. unfold region_constraints. assert (G : forall l d, NoDup (map fst d ++ map (fun k => (k, NodeInRegion)) l) ->
    fold_left (fun d k => put (k, NodeInRegion) DTrue d) l d = d ++ wanted l).
  { induction l as [|k l IH]; intros d Nd; cbn [fold_left wanted map]; [now rewrite app_nil_r|].
    cbn [map] in Nd. rewrite put_new by (apply NoDup_remove_2 in Nd; intros C; apply Nd, in_or_app; now left).
    rewrite IH; [now rewrite <- app_assoc|]. rewrite map_app. cbn [map fst]. now rewrite <- app_assoc. }
  apply G. cbn. clear G. induction N as [|k l H N IH]; cbn; constructor; auto. intros C. apply in_map_iff in C as [j [E Hj]]. injection E as <-. contradiction.
Qed.
Lemma unmet_left_out ds places : unmet ds (wanted places) = left_out ds places.
Proof.
  unfold unmet, left_out. induction places as [|k l IH]; [reflexivity|]. cbn [wanted map filter fst snd].
  destruct (negb _); cbn [length]; fold (wanted l); now rewrite IH.
Qed.

Section Solve.
  Context {M : Type} {md : EqDec M} (P : parameters) (ns ts : list (node M)) (Ht : Forall text_only (labelled ts)).
  Notation K := (questions (labelled ns)).
  Notation worth := (edit P (labelled ns) (labelled ts)).
  Notation choice := (region_choice (labelled ns)).

  Lemma token_asked k : a_token_at (flat_map nodes (labelled ns)) k -> In (k, NodeInRegion) K.
  Proof.
    intros [i [t [m [H <-]]]]. revert H. generalize (labelled ns) as l.
    assert (G : forall x : lnode M, In (LToken i t m) (nodes x) -> In (pre i, NodeInRegion) (asked x)).
    { induction x as [j s|j s q|j|j|j|j cs q IH] using lnode_ind'; cbn [nodes asked]; intros [H|H]; try discriminate; try contradiction.
      - injection H as -> -> ->. now left.
      - right. apply in_flat_map in H as [c [Hc H]]. apply in_flat_map. exists c. split; auto. rewrite Forall_forall in IH. auto. }
    intros l H. apply in_flat_map in H as [x [Hx H]]. apply in_flat_map. eauto.
  Qed.

  Definition one : list Qc := repeat (1 / Q2Qc (inject_Z (Z.of_nat 1)))%Qc 1.
  Lemma one_is : one = [1%Qc].
  Proof. unfold one. cbn [repeat]. f_equal. Qed.
  Let construct := fun u : unit => construct_edit_dag P (pack ns) (pack ts).
  Lemma baseline_built : baseline_system P (pack ns) (pack ts) = build_system construct (construct_constraint_dag (pack ns)) [tt] (Some one).
  Proof. exact (build_default (construct_edit_dag P (pack ns)) (construct_constraint_dag (pack ns)) (fun _ : unit => pack ts) [tt] ltac:(discriminate)). Qed.
  Lemma weighted_one k : weighted (map snd (combine [tt] one)) [k] = k.
  Proof. rewrite one_is. unfold weighted. cbn. ring. Qed.

  Theorem baseline_solved places : K <> [] -> NoDup places -> (forall k, In k places -> a_token_at (flat_map nodes (labelled ns)) k) ->
    exists sy, baseline_system P (pack ns) (pack ts) = Ok sy /\
    (forall clock, exists fuel r, forall more, solve_baseline (fuel + more) clock sy places = Some (Ok r)) /\
    forall fuel clock res asg c, solve_baseline fuel clock sy places = Some (Ok (res, asg, c)) ->
      NoDup (map fst asg) /\ (forall k, In k (map fst asg) <-> In k K) /\
      exists ds k, choice ds /\ same_decisions asg ds /\ least_cost worth asg k /\
        c = Fin (k + baseline_penalty * of_nat (left_out asg places))%Qc /\
        forall b ds' k', In b (objective_at_step res) -> choice ds' -> (exists ds'', worth k' ds'' /\ same_decisions ds' ds'') ->
          cle b (Fin (k' + baseline_penalty * of_nat (left_out ds' places))%Qc).
  Proof.
    intros HK N Hp. destruct (constraint_allows ns) as [dc [Ec Ac]]. destruct (edit_allows P ns ts Ht) as [d [Ed Ad]].
    assert (H1 : forall t : unit, In t [tt] -> exists d, construct t = Ok d /\ allows worth K d) by (intros t _; exists d; auto).
    assert (H2 : forall (t : unit) ds, In t [tt] -> choice ds -> exists k, worth k ds) by (intros t ds _ Hc; now apply choice_edit).
    assert (H3 : forall f, In f one -> (0 < f)%Qc) by (rewrite one_is; intros f [<-|[]]; reflexivity).
    assert (H4 : one <> []) by discriminate.
    destruct (built construct _ [tt] one (fun _ => worth) choice K dc Ec Ac H1 (choice_full ns) H2) as [sy [Es [V [Ek [Nk _]]]]].
    exists sy. rewrite baseline_built. split; auto.
    destruct (built_constrained construct _ [tt] one (fun _ => worth) choice K dc Ec Ac H1 (choice_full ns) H2 H3 H4 sy (wanted places) baseline_penalty HK Es) as [sy1 [C1 [C2 [C3 C4]]]].
    { intros kv Hkv. unfold wanted in Hkv. apply in_map_iff in Hkv as [k [<- Hk]]. cbn. now apply token_asked, Hp. }
    unfold solve_baseline. rewrite (region_constraints_are places N), C1.
    assert (X : forall fuel clock res s', solve_system_with_sweeps fuel clock default_tolerance (data sy1) = Some (Ok (res, s')) ->
      exists asg k ds, (do g <- greedy_extract s' FORWARD;
              do asg <- assignments_from_assignment_vector sy1 (map (vector_index (length (sys_values sy1))) (fst g));
              Ok (res, asg, snd g)) = Ok (res, asg, Fin (k + baseline_penalty * of_nat (left_out asg places))%Qc) /\
        map fst asg = sys_keys sy /\ choice ds /\ same_decisions asg ds /\ least_cost worth asg k /\
        forall b ds' k', In b (objective_at_step res) -> choice ds' -> (exists ds'', worth k' ds'' /\ same_decisions ds' ds'') ->
          cle b (Fin (k' + baseline_penalty * of_nat (left_out ds' places))%Qc)).
    { intros fuel clock res s' E. destruct (C4 fuel clock default_tolerance res s' E) as [G1 G2].
      destruct (G1 FORWARD) as [x [asg [ks [ds [A1 [A2 [A3 [A4 [A5 A6]]]]]]]]].
      change (map fst (combine [tt] one)) with [tt] in A6. inversion A6 as [|? k ? ks' A7 A8 Eq1 Eq2]; subst. inversion A8; subst.
      exists asg, k, ds. splits; auto.
      - rewrite A1. cbn [bind fst snd]. replace (map (vector_index (length (sys_values sy1))) (map Some x)) with x by (rewrite map_map; cbn; now rewrite map_id).
        rewrite A2. cbn [bind]. rewrite weighted_one, unmet_left_out. reflexivity.
      - intros b ds' k' Hb Hc Hw. specialize (G2 b ds' [k'] Hb Hc). change (map fst (combine [tt] one)) with [tt] in G2. rewrite weighted_one, unmet_left_out in G2. apply G2.
        constructor; [exact Hw|constructor]. }
    split.
    - intros clock. destruct (C3 clock default_tolerance eq_refl) as [fuel [res [s' Hrun]]].
      destruct (X _ _ _ _ (Hrun 0)) as [asg [k [ds [Eq _]]]]. exists fuel. eexists. intros more. rewrite Hrun, Eq. reflexivity.
    - intros fuel clock res asg c E. destruct (solve_system_with_sweeps fuel clock default_tolerance (data sy1)) as [[[res' s']|]|] eqn:Er; try discriminate.
      destruct (X _ _ _ _ Er) as [asg' [k [ds [Eq [A3 [A4 [A5 [A6 A7]]]]]]]]. rewrite Eq in E. injection E as -> -> <-.
      splits; [rewrite A3; exact Nk|intros key; rewrite A3; apply Ek|]. exists ds, k. splits; auto.
  Qed.
End Solve.

(** ** All baselines of a prototype. *)
Lemma sorted_nodup l : StronglySorted lt l -> NoDup l.
Proof. induction 1 as [|k l S1 IH F]; constructor; auto. intros C. rewrite Forall_forall in F. apply F in C. lia. Qed.
Lemma put_result_in b v d b' v' : In (b', v') (put_result b v d) -> (b' = b /\ v' = v) \/ In (b', v') d.
Proof.
  induction d as [|[k w] d IH]; cbn [put_result].
  - intros [H|[]]. injection H as <- <-. auto.
  - destruct (eqb b k) eqn:E.
    + apply eqb_eq in E. subst k. intros [H|H]; [injection H as <- <-; auto|right; now right].
    + intros [H|H]; [right; now left|]. destruct (IH H) as [?|?]; auto. right. now right.
Qed.
Lemma put_result_keys b v d k : In k (map fst (put_result b v d)) <-> k = b \/ In k (map fst d).
Proof.
  induction d as [|[k' w] d IH]; cbn [put_result map fst In]; [intuition|].
  destruct (eqb b k') eqn:E; cbn [map fst In]; [apply eqb_eq in E; subst k'; intuition|]. rewrite IH. intuition.
Qed.
Lemma put_result_nodup b v d : NoDup (map fst d) -> NoDup (map fst (put_result b v d)).
Proof.
  induction d as [|[k' w] d IH]; cbn [put_result map fst]; intros N; [repeat constructor; auto|].
  inversion N as [|? ? N1 N2]; subst. destruct (eqb b k') eqn:E; cbn [map fst]; constructor; auto.
  rewrite put_result_keys. intros [->|C]; [rewrite eqb_refl in E; discriminate|contradiction].
Qed.

Section All.
  Context {M : Type} {md : EqDec M} (P : parameters) (ns ts : list (node M)) (Ht : Forall text_only (labelled ts)).
  Context (HK : questions (labelled ns) <> []).
  Context (low : Qc -> Qc -> bool) (thresholds fractions : list Qc) (cutoffs : list (Z * Z)) (toks : list (text * Qc)) (aligned : list (nat * Qc)).
  Context (Ha : align_token_log_probs toks (pack ns) false = Ok aligned).
  Notation todo0 := (baselines thresholds fractions cutoffs).
  Notation rule := (singled_out low (labelled ns) aligned).

  Definition levels (b : baseline) : Prop := match b with Cutoff a c => (1 <= a)%Z /\ (1 <= c)%Z | _ => True end.
  Lemma levels_all b : (forall c, In c cutoffs -> (1 <= fst c)%Z /\ (1 <= snd c)%Z) -> In b todo0 -> levels b.
  Proof.
    intros Hc Hb. unfold baselines in Hb. apply in_app_iff in Hb as [Hb|Hb]; [|apply in_app_iff in Hb as [Hb|Hb]].
    - apply in_flat_map in Hb as [t [_ [<-|[<-|[]]]]]; exact I.
    - apply in_map_iff in Hb as [f [<- _]]. exact I.
    - apply in_map_iff in Hb as [c [<- Hi]]. now apply Hc.
  Qed.
  Lemma places_listed b : levels b -> exists places, baseline_places low (pack ns) aligned b = Ok places /\ lists_places (rule b) places.
  Proof.
    destruct b as [t|t|f|a c]; cbn [levels baseline_places singled_out]; intros L.
    - eapply probability_rule; eauto.
    - eapply probability_rule; eauto.
    - apply fraction_rule.
    - destruct L. now apply depth_rule.
  Qed.
  Lemma places_fail b : ~ levels b -> baseline_places low (pack ns) aligned b = Err ValueError.
  Proof. destruct b as [t|t|f|a c]; cbn [levels baseline_places]; intros L; try (exfalso; apply L; exact I). apply cutoffs_rejected. lia. Qed.
  Lemma rule_token b k : rule b k -> a_token_at (flat_map nodes (labelled ns)) k.
  Proof.
    assert (T : forall k, token_at (flat_map nodes (labelled ns)) k -> a_token_at (flat_map nodes (labelled ns)) k)
      by (intros j [i [t [m [H1 [H2 _]]]]]; exists i, t, m; auto).
    destruct b as [t|t|f|a c]; cbn [singled_out]; intros H.
    - destruct H as [H _]. auto.
    - destruct H as [H _]. auto.
    - destruct H as [H _]. auto.
    - destruct H as [i0 [t0 [m0 [d0 [i [t [m [d [_ [_ [H [E _]]]]]]]]]]]]. exists i, t, m. split; auto. clear - H.
      remember (LToken i t m) as x. revert i t m Heqx.
      induction H as [l x Hx|l j cs q x d Hi H IH]; intros i t m ->.
      + apply in_flat_map. exists (LToken i t m). split; auto. now left.
      + apply in_flat_map. exists (LGroup j cs q). split; auto. cbn [nodes]. right. eapply IH; eauto.
  Qed.

  Lemma levels_dec b : levels b \/ ~ levels b.
  Proof. destruct b as [t|t|f|a c]; cbn [levels]; auto; lia. Qed.
  Lemma places_good b places : baseline_places low (pack ns) aligned b = Ok places ->
    levels b /\ lists_places (rule b) places /\ NoDup places /\ forall k, In k places -> a_token_at (flat_map nodes (labelled ns)) k.
  Proof.
    intros E. destruct (levels_dec b) as [L|L]; [|rewrite (places_fail b L) in E; discriminate].
    destruct (places_listed b L) as [l [E' Hl]]. rewrite E in E'. injection E' as <-. splits; auto; [apply sorted_nodup, Hl|].
    intros k Hk. apply Hl in Hk. eapply rule_token; eauto.
  Qed.

  Section Run.
    Context {St In' : Type} (sy : @system St dkey dvalue In') (clocks : nat -> nat -> bool).
    Context (Hterm : forall places clock, NoDup places -> (forall k, In k places -> a_token_at (flat_map nodes (labelled ns)) k) ->
      exists fuel r, forall more, solve_baseline (fuel + more) clock sy places = Some (Ok r)).
    Lemma run_returns todo : forall n results, exists fuel r, (forall more, run_baselines (fuel + more) clocks low (pack ns) aligned sy n todo results = Some r) /\
      ((forall b, In b todo -> levels b) -> exists x, r = Ok x) /\ ((exists b, In b todo /\ ~ levels b) -> r = Err ValueError).
    Proof.
      induction todo as [|b todo IH]; intros n results; cbn [run_baselines].
      - exists 0, (Ok results). splits; eauto. intros [b [[] _]].
      - destruct (levels_dec b) as [L|L].
        + destruct (places_listed b L) as [places [E _]]. rewrite E. destruct (places_good b places E) as [_ [_ [N Ha']]].
          destruct (Hterm places (clocks n) N Ha') as [f1 [r1 H1]].
          destruct (IH (n + 1) (put_result b (snd (fst r1)) results)) as [f2 [r [H2 [H3 H4]]]].
          exists (f1 + f2), r. splits.
          * intros more. unfold assignment_from_low_confidence_nodes. replace (f1 + f2 + more) with (f1 + (f2 + more)) by lia. rewrite H1. cbn [option_map bind].
            replace (f1 + (f2 + more)) with (f2 + (f1 + more)) by lia. apply H2.
          * intros Hl. apply H3. intros b' Hb. apply Hl. now right.
          * intros [b' [[<-|Hb] L']]; [contradiction|]. apply H4. eauto.
        + rewrite (places_fail b L). exists 0, (Err ValueError). splits; auto. intros Hl. exfalso. apply L, Hl. now left.
    Qed.
    Lemma run_inv fuel todo : forall n results results', run_baselines fuel clocks low (pack ns) aligned sy n todo results = Some (Ok results') ->
      (forall b, In b (map fst results') <-> In b (map fst results) \/ In b todo) /\ (NoDup (map fst results) -> NoDup (map fst results')) /\
      forall b asg, In (b, asg) results' -> In (b, asg) results \/
        exists places clock res c, baseline_places low (pack ns) aligned b = Ok places /\ solve_baseline fuel clock sy places = Some (Ok (res, asg, c)).
    Proof.
      induction todo as [|b todo IH]; intros n results results'; cbn [run_baselines].
      - intros H. injection H as <-. splits; auto. intros b. cbn. intuition.
      - destruct (baseline_places low (pack ns) aligned b) as [places|] eqn:E; [|discriminate].
        unfold assignment_from_low_confidence_nodes. destruct (solve_baseline fuel (clocks n) sy places) as [[[[res asg] c]|]|] eqn:Es; try discriminate.
        cbn [option_map bind fst snd]. intros H. destruct (IH _ _ _ H) as [I1 [I2 I3]]. splits.
        + intros b'. rewrite I1, put_result_keys. cbn [In]. intuition.
        + intros N. apply I2. now apply put_result_nodup.
        + intros b' asg' Hi. destruct (I3 _ _ Hi) as [Hi'|?]; auto. apply put_result_in in Hi' as [[-> ->]|?]; auto. right. exists places, (clocks n), res, c. auto.
    Qed.
  End Run.

  Theorem all_baselines : 
    (forall clocks, exists fuel r, (forall more, build_baseline_assignments P (fuel + more) clocks low thresholds fractions cutoffs (pack ns) (pack ts) toks = Some r) /\
      ((forall c, In c cutoffs -> (1 <= fst c /\ 1 <= snd c)%Z) -> exists x, r = Ok x) /\
      ((exists c, In c cutoffs /\ (fst c < 1 \/ snd c < 1)%Z) -> r = Err ValueError)) /\
    forall fuel clocks results, build_baseline_assignments P fuel clocks low thresholds fractions cutoffs (pack ns) (pack ts) toks = Some (Ok results) ->
      NoDup (map fst results) /\ (forall b, In b (map fst results) <-> In b todo0) /\
      forall b asg, In (b, asg) results -> exists places, lists_places (rule b) places /\ NoDup places /\
        (forall k, In k places -> a_token_at (flat_map nodes (labelled ns)) k) /\
        exists sy clock res c, baseline_system P (pack ns) (pack ts) = Ok sy /\ solve_baseline fuel clock sy places = Some (Ok (res, asg, c)).
  Proof.
    destruct (baseline_solved P ns ts Ht [] HK ltac:(constructor) ltac:(intros k [])) as [sy [Es _]].
    assert (Hterm : forall places clock, NoDup places -> (forall k, In k places -> a_token_at (flat_map nodes (labelled ns)) k) ->
      exists fuel r, forall more, solve_baseline (fuel + more) clock sy places = Some (Ok r)).
    { intros places clock N Hp. destruct (baseline_solved P ns ts Ht places HK N Hp) as [sy' [Es' [T _]]].
      assert (sy' = sy) by congruence. subst sy'. apply T. }
    unfold build_baseline_assignments. rewrite Ha, Es. split.
    - intros clocks. destruct (run_returns sy clocks Hterm todo0 0 []) as [fuel [r [R1 [R2 R3]]]]. exists fuel, r. splits; auto.
      + intros Hc. apply R2. intros b. now apply levels_all.
      + intros [c [Hi Hc]]. apply R3. exists (Cutoff (fst c) (snd c)). split; [|cbn; lia]. unfold baselines. apply in_or_app. right. apply in_or_app. right.
        apply in_map_iff. eauto.
    - intros fuel clocks results H. destruct (run_inv sy clocks fuel todo0 0 [] results H) as [I1 [I2 I3]]. splits; [apply I2; constructor|intros b; rewrite I1; cbn; intuition|].
      intros b asg Hi. destruct (I3 b asg Hi) as [[]|[places [clock [res [c [E1 E2]]]]]]. destruct (places_good b places E1) as [_ [Hl [N Hp]]].
      exists places. splits; auto. exists sy, clock, res, c. auto.
  Qed.
End All.
