(** When greedy extraction cannot get stuck.

    A subproblem dominates a system when it has every variable and each of its
    paths of finite cost can be completed to a solution of finite cost.  Then
    [greedy_extract] returns a finite cost, in either direction. *)

From Coq Require Import List Bool Arith Lia ZArith QArith Qcanon.
From Verif Require Import Base Graph PackedDag PackedDagProofs PackedTables Convert
  DualSolver DualSpec DualLists DualPaths DualOps DualInvariant DualSweeps DualUpdates DualGreedy.
Import ListNotations.
Close Scope Qc_scope. Close Scope Q_scope. Open Scope nat_scope.

Record dominating (s : sysdata) (j0 : nat) : Prop := {
  dm_lt : j0 < num_dags s;
  dm_all : forall v, v < num_keys s -> local s v j0 <> None;
  dm_some : exists x ps q, solution s x ps /\ solution_cost s x ps = Fin q;
  dm_extend : forall p q, packed_complete (dag_of s j0) p -> path_cost p = Fin q ->
    exists x ps q', solution s x ps /\ solution_cost s x ps = Fin q' /\
      forall v k, v < num_keys s -> local s v j0 = Some k -> In (k, nth v x 0) (path_assignments p)
}.

Section Feasible.
  Context (s0 : sysdata) (O0 : sys_ok s0) (NC : nearly_conserved s0) (j0 : nat) (D0 : dominating s0 j0).

  (** Some solution of finite cost has the values pinned so far. *)
  Definition feasible (xs : list (option nat)) : Prop :=
    exists x ps q, solution s0 x ps /\ solution_cost s0 x ps = Fin q /\
      forall u c, u < num_keys s0 -> nth u xs None = Some c -> nth u x 0 = c.

  Lemma finite_penalties x ps q j u : solution s0 x ps -> solution_cost s0 x ps = Fin q -> j < num_dags s0 ->
    u < num_keys s0 -> exists y, pen_at s0 j u (nth u x 0) = Fin y.
  Proof.
    intros HS Hq Hj Hu. pose proof (solution_values s0 O0 x ps u HS Hu) as Hv.
    destruct (NC u (nth u x 0) Hu Hv) as [C|[_ [_ C]]].
    - unfold conserved in C. unfold solution_cost in Hq. apply cadd_fin_inv in Hq as [_ [e [_ Ee]]].
      destruct (over_Fin _ _ _ u Ee Hu) as [y Ey]. cbn beta in Ey. rewrite Ey in C.
      unfold pen_sum in C. apply (over_Fin _ _ _ j C Hj).
    - rewrite (C x ps HS eq_refl) in Hq. discriminate.
  Qed.
  Lemma finite_paths x ps q j : solution s0 x ps -> solution_cost s0 x ps = Fin q -> j < num_dags s0 ->
    exists y, path_cost (nth j ps []) = Fin y.
  Proof.
    intros HS Hq Hj. unfold solution_cost in Hq. apply cadd_fin_inv in Hq as [e [_ [Ee _]]].
    destruct HS as [_ [Lp _]]. eapply csum_Fin_In; [exact Ee|]. apply in_map_iff.
    exists (nth j ps []). split; auto. apply nth_In. lia.
  Qed.

  Lemma over_fin_intro n (f : nat -> cost) : (forall j, j < n -> exists y, f j = Fin y) -> exists y, over n f = Fin y.
  Proof.
    unfold over. intros H. assert (G : forall l, (forall j, In j l -> j < n) -> exists y, csum (map f l) = Fin y).
    { induction l as [|j l IH]; intros Hl; [exists 0%Qc; reflexivity|]. cbn [map]. rewrite csum_cons.
      destruct (H j) as [y ->]; [apply Hl; simpl; auto|]. destruct IH as [z ->]; [intros; apply Hl; simpl; auto|].
      eexists. reflexivity. }
    apply G. intros j Hj. apply in_seq in Hj. lia.
  Qed.

  Lemma feasible_marginal s xs v x ps q (M : nat -> cost) : pinned s0 s xs -> v < num_keys s0 ->
    solution s0 x ps -> solution_cost s0 x ps = Fin q ->
    (forall u c, u < num_keys s0 -> nth u xs None = Some c -> nth u x 0 = c) ->
    (forall j, j < num_dags s0 -> marginal_bound s v j (nth v x 0) (M j)) ->
    exists y, over (num_dags s0) M = Fin y.
  Proof.
    intros P Hv HS Hq Hx HM. pose proof (pn_ok _ _ _ P) as O. pose proof (pinned_local s0 s xs) as Hloc.
    apply over_fin_intro. intros j Hj. specialize (HM j Hj). unfold marginal_bound in HM. rewrite (Hloc v j P) in HM.
    assert (Hj' : j < num_dags s) by (rewrite (pn_n _ _ _ P); auto).
    pose proof HS as [_ [_ Hc]]. destruct (Hc j Hj) as [Hp Ha].
    assert (Hch : chooses s x j (nth j ps [])).
    { split; [now rewrite (pn_dag _ _ _ P j Hj)|]. intros u k Hu El. rewrite (pn_keys _ _ _ P) in Hu.
      rewrite (Hloc u j P) in El. auto. }
    assert (Hpc : exists z, penalized_cost (pens (table s j)) (nth j ps []) = Fin z).
    { rewrite (chosen_penalized s O x j _ Hj' Hch). destruct (finite_paths x ps q j HS Hq Hj) as [a ->].
      destruct (over_fin_intro (num_keys s) (fun u => pen_at s j u (nth u x 0))) as [b ->]; [|eexists; reflexivity].
      intros u Hu. rewrite (pn_keys _ _ _ P) in Hu. pose proof (solution_values s0 O0 x ps u HS Hu) as Hvu.
      rewrite (pn_pens _ _ _ P) by auto. destruct (nth u xs None) as [c|] eqn:Ec.
      - rewrite (Hx u c Hu Ec), Nat.eqb_refl, <- (Hx u c Hu Ec). eapply finite_penalties; eauto.
      - eapply finite_penalties; eauto. }
    destruct Hpc as [z Ez].
    assert (Hle : M j <> NaN /\ cle (M j) (Fin z)).
    { rewrite (pn_dag _ _ _ P j Hj) in HM. destruct (local s0 v j) as [k|] eqn:El; destruct HM as [HN [Hle _]]; split; auto.
      - rewrite <- Ez. apply Hle. exists (nth j ps []). splits; auto.
      - rewrite <- Ez. apply Hle. exists (nth j ps []). split; auto. }
    destruct Hle as [HN Hle]. destruct (M j) as [y| |]; [eauto|contradiction Hle|congruence].
  Qed.

  (** A finite marginal leaves a solution with that value. *)
  Lemma marginal_feasible s xs v a (M : nat -> cost) y : pinned s0 s xs -> v < num_keys s0 -> a < num_values s0 ->
    nth v xs None = None ->
    (forall j, j < num_dags s0 -> marginal_bound s v j a (M j)) -> over (num_dags s0) M = Fin y ->
    feasible (updnth v (Some a) xs).
  Proof.
    intros P Hv Ha Hn HM Hy. pose proof (pn_ok _ _ _ P) as O. pose proof (pinned_local s0 s xs) as Hloc.
    pose proof (dm_lt _ _ D0) as Hj. destruct (over_Fin _ _ _ j0 Hy Hj) as [m Em]. cbn beta in Em.
    specialize (HM j0 Hj). unfold marginal_bound in HM. rewrite (Hloc v j0 P) in HM.
    destruct (local s0 v j0) as [k|] eqn:El; [|now apply (dm_all _ _ D0) in El].
    assert (Hj' : j0 < num_dags s) by (rewrite (pn_n _ _ _ P); auto).
    destruct (table_facts s O j0 Hj') as [L [_ [_ [V _]]]].
    rewrite (pn_dag _ _ _ P j0 Hj) in *.
    destruct HM as [_ [_ [[p [Hp [Hi Ep]]]|HI]]]; [|congruence]. rewrite Em in Ep.
    assert (Ep' : penalized_cost (pens (table s j0)) p = Fin m) by congruence.
    destruct (penalized_Fin _ _ _ _ _ Ep' Hi) as [[c0 Ec0] _].
    destruct (dm_extend _ _ D0 p c0 Hp Ec0) as [x [ps [q' [HS [Hq Hx]]]]].
    exists x, ps, q'. splits; auto. intros u c Hu Eu.
    destruct (local s0 u j0) as [ku|] eqn:Elu; [|now apply (dm_all _ _ D0) in Elu].
    specialize (Hx u ku Hu Elu). destruct (Nat.eq_dec v u) as [<-|Hne].
    - rewrite nth_updnth_same in Eu by (rewrite (pn_len _ _ _ P); auto). injection Eu as <-.
      assert (ku = k) by congruence. subst ku. eapply (complete_functional _ p k); eauto.
    - rewrite nth_updnth_other in Eu by auto.
      destruct (penalized_Fin _ _ _ _ _ Ep' Hx) as [_ [z Ez]].
      assert (Hb : nth u x 0 < num_values s0) by (eapply solution_values; eauto).
      assert (Epen : pen_at s j0 u (nth u x 0) = Fin z) by (unfold pen_at; now rewrite (Hloc u j0 P), Elu).
      rewrite (pn_pens _ _ _ P), Eu, Elu in Epen by auto.
      destruct (Nat.eqb_spec (nth u x 0) c); [auto|discriminate].
  Qed.

  Lemma greedy_loop_finite : forall vs s xs last, pinned s0 s xs -> NoDup vs -> vs <> [] -> feasible xs ->
    (forall v, In v vs -> v < num_keys s0 /\ nth v xs None = None) ->
    exists r q, greedy_loop s vs xs last = Ok (r, Fin q).
  Proof.
    induction vs as [|v vs IH]; intros s xs lst P ND Hne HF Hin; [congruence|]. clear Hne.
    pose proof (pn_ok _ _ _ P) as O. inversion ND as [|? ? ND1 ND2]; subst.
    destruct (Hin v) as [Hv Hnv]; [simpl; auto|].
    assert (Hv' : v < num_keys s) by now rewrite (pn_keys _ _ _ P).
    cbn [greedy_loop].
    destruct (system_min_marginals_spec s v O Hv') as [mm [s1 [M [E [U [Lm [HM Hmm]]]]]]].
    rewrite E. cbn [bind fst snd].
    assert (Nm : no_nans mm).
    { unfold no_nans. rewrite Forall_forall. intros c Hc. apply In_nth with (d := NaN) in Hc as [a [Ha <-]].
      fold (get mm a). rewrite Hmm by lia. apply over_notnan. intros j Hj.
      specialize (HM j a Hj ltac:(lia)). unfold marginal_bound in HM. destruct (local s v j); now destruct HM. }
    destruct (np_argmin_spec mm) as [a [Ea [La [Na Hmin]]]]; auto.
    { rewrite Lm. apply (so_values s O). }
    rewrite Ea. cbn [bind].
    rewrite (pn_n _ _ _ P) in *.
    assert (Ha0 : a < num_values s0) by (rewrite <- (pn_values _ _ _ P); lia).
    assert (Hfin : exists y, get mm a = Fin y).
    { destruct HF as [x [ps [q [HS [Hq Hx]]]]]. pose proof (solution_values s0 O0 x ps v HS Hv) as Hxv.
      assert (Hxv' : nth v x 0 < num_values s) by now rewrite (pn_values _ _ _ P).
      destruct (feasible_marginal s xs v x ps q (fun j => M j (nth v x 0)) P Hv HS Hq Hx) as [y Ey].
      { intros j Hj. apply HM; auto. }
      specialize (Hmin (nth v x 0)). rewrite (Hmm (nth v x 0)), Ey in Hmin by auto.
      rewrite Lm in Hmin. specialize (Hmin Hxv').
      destruct (get mm a) as [z| |]; [eauto|contradiction Hmin|congruence]. }
    destruct Hfin as [y Ey].
    assert (P1 : pinned s0 s1 xs) by (eapply pinned_same; eauto).
    destruct (commit_choice_spec s1 v a) as [s2 [E2 C2]].
    { apply (pn_ok _ _ _ P1). }
    { now rewrite (pn_keys _ _ _ P1). }
    { now rewrite (pn_values _ _ _ P1). }
    rewrite E2. cbn [bind].
    assert (P2 : pinned s0 s2 (updnth v (Some a) xs)) by (eapply pinned_commit; eauto).
    assert (HF2 : feasible (updnth v (Some a) xs)).
    { eapply (marginal_feasible s xs v a (fun j => M j a)); eauto.
      - intros j Hj. apply HM; auto. rewrite (pn_values _ _ _ P); auto.
      - rewrite <- Hmm; [exact Ey|rewrite (pn_values _ _ _ P); auto]. }
    destruct vs as [|w vs].
    - cbn [greedy_loop]. rewrite Ey. eauto.
    - apply IH; auto; [discriminate|]. intros u Hu. destruct (Hin u) as [Hu1 Hu2]; [simpl in *; auto|]. split; auto.
      rewrite nth_updnth_other; auto. intros ->. now apply ND1.
  Qed.

  Theorem greedy_finite dir : 0 < num_keys s0 -> exists x q ps, greedy_extract s0 dir = Ok (map Some x, Fin q) /\
    solution s0 x ps /\ solution_cost s0 x ps = Fin q /\
    forall ps', solution s0 x ps' -> cle (Fin q) (solution_cost s0 x ps').
  Proof.
    intros Hk. destruct (greedy_extract_spec s0 dir O0 NC Hk) as [x [c [E [_ [_ [_ H]]]]]].
    assert (Hin : forall v, In v (iteration_order dir (num_keys s0)) <-> v < num_keys s0).
    { intros v. destruct dir; cbn [iteration_order]; rewrite <- ?in_rev, in_seq; lia. }
    assert (Hnone : forall u, nth u (repeat (@None nat) (num_keys s0)) None = None).
    { intros u. destruct (Nat.lt_ge_cases u (num_keys s0)).
      - now apply nth_repeat.
      - apply nth_overflow. now rewrite repeat_length. }
    destruct (greedy_loop_finite (iteration_order dir (num_keys s0)) (clone_system_data s0) (repeat None (num_keys s0)) NaN)
      as [r [q Er]].
    - apply pinned_start; auto. now apply clone_same.
    - destruct dir; cbn [iteration_order]; [|apply NoDup_rev]; apply seq_NoDup.
    - intros C. specialize (Hin 0). rewrite C in Hin. now apply Hin in Hk.
    - destruct (dm_some _ _ D0) as [x0 [ps0 [q0 [HS Hq]]]]. exists x0, ps0, q0. splits; auto.
      intros u c' _ C. rewrite Hnone in C. discriminate.
    - intros v Hv. split; [now apply Hin|apply Hnone].
    - unfold greedy_extract in *. rewrite Er in E. injection E as E1 E2. subst.
      destruct (H q eq_refl) as [ps [HS [Hc Hm]]]. exists x, q, ps. splits; auto.
  Qed.
End Feasible.

(** Averaging updates keep domination. *)
Lemma dominating_repriced s s' j0 : repriced s s' -> dominating s j0 -> dominating s' j0.
Proof.
  intros R D.
  assert (S1 : forall x ps, solution s' x ps <-> solution s x ps) by (intros; now apply repriced_solution).
  assert (S2 : forall x ps, solution_cost s' x ps = solution_cost s x ps) by (intros; now apply repriced_cost).
  pose proof R as [f U]. destruct U as [U1 U2 U3 U4 U5 U6 U7 U8 U9].
  destruct D as [D1 D2 D3 D4].
  assert (EL : forall v j, local s' v j = local s v j) by (intros; unfold local; congruence).
  constructor.
  - congruence.
  - intros v Hv. rewrite EL. apply D2. congruence.
  - destruct D3 as [x [ps [q [A B]]]]. exists x, ps, q. rewrite S1, S2. auto.
  - intros p q Hp Hq. rewrite U6 in Hp by auto. destruct (D4 p q Hp Hq) as [x [ps [q' [A [B C]]]]].
    exists x, ps, q'. rewrite S1, S2. splits; auto. intros v k Hv. rewrite EL. apply C. congruence.
Qed.
