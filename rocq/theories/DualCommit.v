(** [partially_commit] only rules out solutions that are worse than the current
    bound by more than the gap. *)

From Coq Require Import List Bool Arith Lia ZArith QArith Qcanon.
From Verif Require Import Base Graph PackedDag PackedDagProofs PackedTables PackedScale Convert
  DualSolver DualSpec DualLists DualPaths DualOps DualInvariant DualUpdates DualGreedy.
Import ListNotations.
Close Scope Qc_scope. Close Scope Q_scope. Open Scope nat_scope.

Lemma cltb_iff a b : cltb a b = true <-> a <> NaN /\ b <> NaN /\ ~ cle b a.
Proof.
  split.
  - intros E. assert (Ha : a <> NaN) by (destruct a; cbn in E; congruence).
    assert (Hb : b <> NaN) by (destruct a, b; cbn in E; congruence).
    splits; auto. now apply cltb_spec.
  - intros [Ha [Hb Hc]]. now apply cltb_spec.
Qed.
Lemma cltb_mono a a' b b' : a <> NaN -> cle a a' -> cle b' b -> b <> NaN -> cltb a' b' = true -> cltb a b = true.
Proof.
  intros Na H1 H2 Nb E. apply cltb_iff in E as [E1 [E2 E3]]. apply cltb_iff. splits; auto.
  intros C. apply E3. eapply cle_trans; eauto. eapply cle_trans; eauto.
Qed.

(** The penalized costs of a solution's paths bound its cost from below. *)
Lemma solution_bound s x ps f : sys_ok s -> nearly_conserved s -> solution s x ps ->
  (forall j, j < num_dags s -> f j <> NaN /\ cle (f j) (penalized_cost (pens (table s j)) (nth j ps []))) ->
  cle (over (num_dags s) f) (solution_cost s x ps).
Proof.
  intros O NC HS Hf. pose proof HS as [Hx [Hp Hc]].
  assert (Dec : (forall v, v < num_keys s -> conserved s v (nth v x 0)) \/ solution_cost s x ps = Inf).
  { assert (G : forall n, n <= num_keys s ->
       (forall v, v < n -> conserved s v (nth v x 0)) \/ solution_cost s x ps = Inf).
    { induction n as [|n IH]; intros Hn; [left; lia|].
      destruct IH as [IH|IH]; [lia| |auto].
      destruct (NC n (nth n x 0)) as [C|[_ [_ C]]]; [lia|eapply solution_values; eauto; lia| |].
      - left. intros v Hv. destruct (Nat.eq_dec v n) as [->|]; auto. apply IH; lia.
      - right. now apply C. }
    apply G; lia. }
  destruct Dec as [D|D].
  - replace (solution_cost s x ps) with
      (over (num_dags s) (fun j => penalized_cost (pens (table s j)) (nth j ps []))).
    + apply over_le. intros j Hj. now apply Hf.
    + rewrite (solution_penalized s O x ps HS). unfold solution_cost. f_equal.
      apply over_ext. intros v Hv. now apply D.
  - rewrite D. apply cle_Inf. apply over_notnan. intros j Hj. now apply Hf.
Qed.

(** An aggregated min marginal bounds the cost of every solution making that choice. *)
Lemma marginal_below s v a M x ps : sys_ok s -> nearly_conserved s -> v < num_keys s -> solution s x ps ->
  nth v x 0 = a -> (forall j, j < num_dags s -> marginal_bound s v j a (M j)) ->
  cle (over (num_dags s) M) (solution_cost s x ps).
Proof.
  intros O NC Hv HS Ea HM. apply solution_bound; auto. intros j Hj.
  destruct HS as [_ [_ Hc]]. destruct (Hc j Hj) as [Hp Ha].
  specialize (HM j Hj). unfold marginal_bound in HM. destruct (local s v j) as [k|] eqn:El.
  - destruct HM as [N [Hle _]]. split; auto. apply Hle. exists (nth j ps []). splits; auto.
    rewrite <- Ea. now apply Ha.
  - destruct HM as [N [Hle _]]. split; auto. apply Hle. exists (nth j ps []). auto.
Qed.
(** ... and is bounded by the dual objective. *)
Lemma marginal_above s v a M c : dual_objective s c ->
  (forall j, j < num_dags s -> marginal_bound s v j a (M j)) -> cle c (over (num_dags s) M).
Proof.
  intros [L [HL ->]] HM. apply over_le. intros j Hj. specialize (HM j Hj). specialize (HL j Hj).
  unfold marginal_bound in HM. destruct HL as [NL [Hle _]]. destruct (local s v j) as [k|].
  - destruct HM as [N [_ [[p [Hp [_ E]]]|E]]].
    + apply Hle. exists p. auto.
    + rewrite E. now apply cle_Inf.
  - destruct HM as [N [_ [[p [Hp E]]|E]]].
    + apply Hle. exists p. auto.
    + rewrite E. now apply cle_Inf.
Qed.

(** ** Accumulated prohibitions. *)
Record forbids (s0 s : sysdata) (F : nat -> nat -> bool) : Prop := {
  fb_ok : sys_ok s;
  fb_keys : num_keys s = num_keys s0;
  fb_values : num_values s = num_values s0;
  fb_n : num_dags s = num_dags s0;
  fb_imap : imap s = imap s0;
  fb_weights : weights s = weights s0;
  fb_dag : forall j, j < num_dags s0 -> dag_of s j = dag_of s0 j;
  fb_pens : forall j u a, j < num_dags s0 -> u < num_keys s0 -> a < num_values s0 ->
    pen_at s j u a = if F u a then match local s0 u j with Some _ => Inf | None => Fin 0%Qc end
                     else pen_at s0 j u a;
  fb_extra : forall u a, u < num_keys s0 -> a < num_values s0 ->
    extra_at s u a = if F u a then Inf else extra_at s0 u a
}.
Lemma forbids_local s0 s F u j : forbids s0 s F -> local s u j = local s0 u j.
Proof. intros P. unfold local. now rewrite (fb_imap _ _ _ P). Qed.
Lemma forbids_start s s' : sys_ok s -> same s s' -> forbids s s' (fun _ _ => false).
Proof.
  intros O U. destruct U as [U1 U2 U3 U4 U5 U6 U7 U8 U9]. constructor; auto.
  - intros j u a Hj Hu Ha. apply same_pen_at; [constructor; auto|auto].
  - intros u a Hu Ha. unfold extra_at. now rewrite U8.
Qed.
Lemma forbids_same s0 s s' F : forbids s0 s F -> same s s' -> forbids s0 s' F.
Proof.
  intros P U. destruct P as [P1 P2 P3 P4 P5 P6 P7 P8 P9], U as [U1 U2 U3 U4 U5 U6 U7 U8 U9].
  constructor; auto; try congruence.
  - intros j Hj. rewrite U6 by lia. auto.
  - intros j u a Hj Hu Ha. rewrite <- P8 by auto.
    apply same_pen_at; [constructor; auto|lia].
  - intros u a Hu Ha. rewrite <- P9 by auto. unfold extra_at. now rewrite U8.
Qed.
Lemma forbids_more s0 s s' F v bad : forbids s0 s F -> v < num_keys s0 -> forbidden s s' v bad ->
  forbids s0 s' (fun u a => F u a || ((u =? v) && bad a)).
Proof.
  intros P Hv [[rows [row U]] [HP HE]]. pose proof (forbids_local s0 s F v) as Hloc.
  assert (P' : forbids s0 s F) by auto.
  destruct P as [P1 P2 P3 P4 P5 P6 P7 P8 P9], U as [U1 U2 U3 U4 U5 U6 U7 U8 U9].
  constructor; auto; try congruence.
  - intros j Hj. rewrite U6 by lia. auto.
  - intros j u a Hj Hu Ha. rewrite HP by lia. rewrite (Hloc j P').
    destruct (Nat.eqb_spec u v) as [->|Hne]; cbn [andb].
    + destruct (bad a); [now rewrite orb_true_r|]. rewrite orb_false_r. now apply P8.
    + rewrite orb_false_r. now apply P8.
  - intros u a Hu Ha. rewrite HE by lia. destruct ((u =? v) && bad a).
    + now rewrite orb_true_r.
    + rewrite orb_false_r. now apply P9.
Qed.
Lemma forbids_solution s0 s F x ps : forbids s0 s F -> (solution s x ps <-> solution s0 x ps).
Proof.
  intros P. unfold solution, chooses. rewrite (fb_keys _ _ _ P), (fb_n _ _ _ P).
  split; intros [H1 [H2 H3]]; splits; auto; intros j Hj; specialize (H3 j Hj);
    rewrite (fb_dag _ _ _ P j Hj) in *; destruct H3 as [H3 H4]; split; auto;
    intros v k Hv El; apply H4; auto; rewrite (forbids_local _ _ _ v j P) in *; auto.
Qed.
(** Only the solutions using a forbidden value change cost. *)
Lemma forbids_cost s0 s F x ps : sys_ok s0 -> forbids s0 s F -> solution s0 x ps ->
  ((forall v, v < num_keys s0 -> F v (nth v x 0) = false) -> solution_cost s x ps = solution_cost s0 x ps) /\
  (forall v, v < num_keys s0 -> F v (nth v x 0) = true -> solution_cost s x ps = Inf).
Proof.
  intros O P HS. split.
  - intros HF. unfold solution_cost. rewrite (fb_keys _ _ _ P). f_equal. apply over_ext. intros v Hv.
    rewrite (fb_extra _ _ _ P); auto; [|eapply solution_values; eauto]. now rewrite HF.
  - intros v Hv HF. apply (solution_inf s (fb_ok _ _ _ P)); [now apply (forbids_solution s0 s F)|].
    right. exists v. rewrite (fb_keys _ _ _ P). split; auto.
    rewrite (fb_extra _ _ _ P); auto; [|eapply solution_values; eauto]. now rewrite HF.
Qed.

(** Every subproblem has a path of finite penalized cost. *)
Definition feasible (s : sysdata) : Prop :=
  forall j, j < num_dags s -> exists p q,
    packed_complete (dag_of s j) p /\ penalized_cost (pens (table s j)) p = Fin q.
Lemma feasible_dual s : sys_ok s -> (feasible s <-> exists c, dual_objective s (Fin c)).
Proof.
  intros O. split.
  - intros HF. destruct (dual_exists s O) as [c D]. pose proof D as [L [HL Ec]].
    assert (HLf : forall j, j < num_dags s -> L j <> Inf).
    { intros j Hj E. destruct (HF j Hj) as [p [q [Hp Eq]]]. destruct (HL j Hj) as [_ [Hle _]].
      assert (H : cle (L j) (Fin q)) by (apply Hle; exists p; auto). rewrite E in H. exact H. }
    destruct c as [c| |]; [eauto| |].
    + symmetry in Ec. apply over_inf_iff in Ec as [j [Hj E]]; [destruct (HLf j Hj E)|].
      intros j Hj. now destruct (HL j Hj).
    + exfalso. symmetry in Ec. revert Ec. apply over_notnan. intros j Hj. now destruct (HL j Hj).
  - intros [c [L [HL E]]] j Hj. destruct (over_Fin _ _ _ j (eq_sym E) Hj) as [q Eq]. cbn beta in Eq.
    destruct (HL j Hj) as [_ [_ [[p [Hp Ep]]|Ei]]]; [|congruence].
    exists p, q. split; auto. congruence.
Qed.

(** Forbidding values other than one with a finite aggregated min marginal
    leaves every subproblem feasible. *)
Lemma forbidden_feasible s s' v bad a M q : sys_ok s -> v < num_keys s -> a < num_values s ->
  forbidden s s' v bad -> bad a = false ->
  (forall j, j < num_dags s -> marginal_bound s v j a (M j)) -> over (num_dags s) M = Fin q ->
  feasible s'.
Proof.
  intros O Hv Ha Fb Hb HM HS. pose proof Fb as [[rows [row U]] [HP _]].
  pose proof (u_ok _ _ _ _ U) as O'. intros j Hj. rewrite (u_n _ _ _ _ U) in Hj.
  destruct (over_Fin _ _ _ j HS Hj) as [m Em]. specialize (HM j Hj). unfold marginal_bound in HM.
  destruct (table_facts s O j Hj) as [L [HPk [_ [V _]]]].
  assert (Hp : exists p, packed_complete (dag_of s j) p /\ penalized_cost (pens (table s j)) p = Fin m /\
     forall k, local s v j = Some k -> In (k, a) (path_assignments p)).
  { destruct (local s v j) as [k|].
    - destruct HM as [_ [_ [[p [Hp [Hi Ep]]]|E]]]; [|congruence].
      exists p. splits; auto; [congruence|]. intros k' E. now injection E as <-.
    - destruct HM as [_ [_ [[p [Hp Ep]]|E]]]; [|congruence].
      exists p. splits; auto; [congruence|]. discriminate. }
  destruct Hp as [p [Hp [Ep Hi]]]. exists p, m. rewrite (u_dag _ _ _ _ U j Hj). split; auto.
  rewrite <- Ep. unfold penalized_cost. f_equal. f_equal. apply map_ext_in. intros [k b] Hin. cbn [fst snd].
  destruct (complete_bounds _ _ _ _ L Hp Hin) as [Hk Hbb].
  destruct (local_surj s O j k Hj Hk) as [u [Hu El]].
  assert (Hb' : b < num_values s) by lia.
  pose proof (HP j u b Hj Hu Hb') as E. unfold pen_at in E.
  rewrite (updated_local s s' _ _ u j U), El in E. rewrite E.
  destruct (Nat.eqb_spec u v) as [->|]; cbn [andb]; auto.
  assert (Eab : b = a) by (eapply (complete_functional (dag_of s j)); eauto).
  rewrite Eab, Hb. reflexivity.
Qed.

(** ** The second loop. *)
Lemma cadd_bound b g : b <> NaN -> g = NaN \/ cle (Fin 0%Qc) g -> cadd b g = NaN \/ cle b (cadd b g).
Proof.
  intros Nb [->|Hg]; [left; now destruct b|]. right.
  replace b with (cadd b (Fin 0%Qc)) at 1 by apply cadd_0_r. apply cadd_le; auto. now apply cle_refl.
Qed.

Lemma marginals_ok s v mm M : sys_ok s -> length mm = num_values s ->
  (forall j a, j < num_dags s -> a < num_values s -> marginal_bound s v j a (M j a)) ->
  (forall a, a < num_values s -> get mm a = over (num_dags s) (fun j => M j a)) ->
  no_nans mm /\ exists best a, np_min mm = Ok best /\ best <> NaN /\
    (forall b, b < num_values s -> cle best (get mm b)) /\ a < num_values s /\ get mm a = best.
Proof.
  intros O Lm HM Hmm.
  assert (Nm : no_nans mm).
  { unfold no_nans. rewrite Forall_forall. intros c Hc. apply In_nth with (d := NaN) in Hc as [a [Ha <-]].
    fold (get mm a). rewrite Hmm by lia. apply over_notnan. intros j Hj.
    specialize (HM j a Hj ltac:(lia)). unfold marginal_bound in HM. destruct (local s v j); now destruct HM. }
  split; auto. pose proof (so_values s O) as Hnv.
  destruct (np_min_values mm) as [best [E [Nb [Hle [a [Ha Ea]]]]]].
  - intros ->. simpl in Lm. lia.
  - intros i Hi. unfold no_nans in Nm. rewrite Forall_forall in Nm. apply Nm, nth_In. lia.
  - exists best, a. rewrite Lm in *. splits; auto.
Qed.

Lemma get_map_mask (f : cost -> bool) mm a : a < length mm -> nth a (map f mm) false = f (get mm a).
Proof.
  intros Ha. rewrite nth_indep with (d' := f NaN) by (rewrite map_length; lia). apply map_nth.
Qed.
Lemma fresh_none (mask : list bool) mm :
  length mask = length mm ->
  length (filter (fun p : bool * cost => fst p && is_finite (snd p)) (combine mask mm)) = 0 ->
  forall a, a < length mm -> nth a mask false = true -> is_finite (get mm a) = false.
Proof.
  intros Hl H0 a Ha Hm. destruct (is_finite (get mm a)) eqn:Ef; auto. exfalso.
  assert (Hin : In (true, get mm a) (combine mask mm)).
  { rewrite <- Hm. unfold get. rewrite <- combine_nth by auto. apply nth_In. rewrite combine_length. lia. }
  assert (Hin2 : In (true, get mm a) (filter (fun p : bool * cost => fst p && is_finite (snd p)) (combine mask mm))).
  { apply filter_In. split; auto. }
  destruct (filter _ _); [destruct Hin2|simpl in H0; lia].
Qed.
Lemma fresh_some (mask : list bool) mm :
  length mask = length mm ->
  0 < length (filter (fun p : bool * cost => fst p && is_finite (snd p)) (combine mask mm)) ->
  exists a, a < length mm /\ nth a mask false = true /\ is_finite (get mm a) = true.
Proof.
  intros Hl H0. destruct (filter _ _) as [|x l] eqn:E; [simpl in H0; lia|].
  assert (Hin : In x (filter (fun p : bool * cost => fst p && is_finite (snd p)) (combine mask mm)))
    by (rewrite E; simpl; auto).
  apply filter_In in Hin as [Hin Hx]. apply andb_true_iff in Hx as [H1 H2].
  apply In_nth with (d := (false, NaN)) in Hin as [a [Ha Ex]]. rewrite combine_length in Ha.
  rewrite combine_nth in Ex by auto. subst x. exists a. splits; auto; lia.
Qed.

(** A value with a finite aggregated min marginal is not forbidden, and its
    extra unary cost is finite. *)
Lemma finite_marginal s v a M q : sys_ok s -> nearly_conserved s -> v < num_keys s -> a < num_values s ->
  (forall j, j < num_dags s -> marginal_bound s v j a (M j)) -> over (num_dags s) M = Fin q ->
  (exists e, extra_at s v a = Fin e) /\
  forall j, j < num_dags s -> local s v j <> None -> exists e, pen_at s j v a = Fin e.
Proof.
  intros O NC Hv Ha HM HS.
  assert (HP : forall j, j < num_dags s -> local s v j <> None -> exists e, pen_at s j v a = Fin e).
  { intros j Hj El. destruct (over_Fin _ _ _ j HS Hj) as [m Em]. specialize (HM j Hj). unfold marginal_bound in HM.
    destruct (local s v j) as [k|] eqn:Ek; [|congruence].
    destruct HM as [_ [_ [[p [Hp [Hi Ep]]]|E]]]; [|congruence].
    rewrite Em in Ep. destruct (penalized_Fin _ _ _ _ _ Ep Hi) as [_ [e Ee]]. exists e.
    unfold pen_at. now rewrite Ek. }
  split; auto. destruct (so_participant s O v Hv) as [j0 [Hj0 El0]].
  destruct (NC v a Hv Ha) as [C|[C _]].
  - unfold conserved in C. rewrite <- C. unfold pen_sum.
    assert (G : forall n, n <= num_dags s -> exists e, over n (fun j => pen_at s j v a) = Fin e).
    { induction n as [|n IH]; intros Hn; [exists 0%Qc; reflexivity|]. rewrite over_S.
      destruct IH as [e ->]; [lia|]. destruct (local s v n) as [k|] eqn:El.
      - destruct (HP n) as [e' ->]; [lia|congruence|]. eexists; reflexivity.
      - unfold pen_at. rewrite El. eexists; reflexivity. }
    apply G. lia.
  - specialize (C j0 Hj0 El0). destruct (HP j0 Hj0 El0) as [e Ee]. congruence.
Qed.

Lemma commit_loop_spec s0 gap : sys_ok s0 -> nearly_conserved s0 -> gap = NaN \/ cle (Fin 0%Qc) gap ->
  forall vs s F bound count,
  forbids s0 s F -> nearly_conserved s -> bound <> NaN -> (forall v, In v vs -> v < num_keys s0) ->
  exists n s' F', commit_loop s vs bound gap count = Ok (n, s') /\
    forbids s0 s' F' /\ nearly_conserved s' /\
    (forall u a, F u a = true -> F' u a = true) /\
    (forall v, v < num_keys s0 -> (exists a, a < num_values s0 /\ F v a = false) ->
       exists a, a < num_values s0 /\ F' v a = false) /\
    (forall x ps, solution s0 x ps -> (forall v, v < num_keys s0 -> F v (nth v x 0) = false) ->
       (forall v, v < num_keys s0 -> F' v (nth v x 0) = false) \/
       cltb (cadd bound gap) (solution_cost s0 x ps) = true) /\
    (feasible s -> feasible s') /\
    count <= n /\
    (n = count -> forall x ps, solution s0 x ps -> solution_cost s' x ps = solution_cost s x ps) /\
    (count < n -> exists v a e, v < num_keys s0 /\ a < num_values s0 /\ F v a = false /\ F' v a = true /\
       extra_at s0 v a = Fin e).
Proof.
  intros O0 NC0 Hgap. induction vs as [|v vs IH]; intros s F bound count P NC Nb Hvs; cbn [commit_loop].
  - exists count, s, F. splits; auto; lia.
  - assert (Hv : v < num_keys s0) by (apply Hvs; simpl; auto).
    pose proof (fb_ok _ _ _ P) as O. assert (Hv' : v < num_keys s) by now rewrite (fb_keys _ _ _ P).
    destruct (system_min_marginals_spec s v O Hv') as [mm [s1 [M [E [U [Lm [HM Hmm]]]]]]].
    destruct (marginals_ok s v mm M O Lm HM Hmm) as [Nm [best [ab [Ebest [Nbest [Hbest [Hab Eab]]]]]]].
    rewrite E. cbn [bind fst snd]. rewrite Ebest. cbn [bind].
    set (bound' := if cltb bound best then best else bound).
    set (mask := map (fun c => cltb (cadd bound' gap) c) mm).
    assert (Nb' : bound' <> NaN) by (unfold bound'; destruct (cltb bound best); auto).
    assert (Hbb : cle bound bound').
    { unfold bound'. destruct (cltb bound best) eqn:Ec; [now apply cltb_le|now apply cle_refl]. }
    assert (Hbest' : cle best bound').
    { unfold bound'. destruct (cltb bound best) eqn:Ec; [now apply cle_refl|now apply cltb_false]. }
    assert (Hmask : forall a, a < num_values s -> nth a mask false = cltb (cadd bound' gap) (get mm a)).
    { intros a Ha. unfold mask. apply get_map_mask. lia. }
    assert (Lmask : length mask = num_values s) by (unfold mask; now rewrite map_length).
    assert (Hmab : nth ab mask false = false).
    { rewrite Hmask by auto. destruct (cltb (cadd bound' gap) (get mm ab)) eqn:Ec; auto. exfalso.
      apply cltb_iff in Ec as [E1 [_ E3]]. apply E3. rewrite Eab.
      destruct (cadd_bound bound' gap Nb' Hgap) as [C|C]; [congruence|]. eapply cle_trans; eauto. }
    assert (P1 : forbids s0 s1 F) by (eapply forbids_same; eauto).
    assert (NC1 : nearly_conserved s1) by (eapply same_nearly; eauto).
    pose proof (fb_ok _ _ _ P1) as O1.
    destruct (forbid_values_spec s1 v mask O1) as [s2 [E2 Fb]].
    { now rewrite (fb_keys _ _ _ P1). }
    { rewrite Lmask, (fb_values _ _ _ P1), (fb_values _ _ _ P). reflexivity. }
    rewrite E2. cbn [bind].
    set (F2 := fun u a => F u a || ((u =? v) && nth a mask false)).
    assert (P2 : forbids s0 s2 F2) by (eapply forbids_more; eauto).
    assert (NC2 : nearly_conserved s2).
    { eapply (forbidden_nearly s1 s2); eauto. now rewrite (fb_keys _ _ _ P1). }
    set (fresh := length (filter (fun p : bool * cost => fst p && is_finite (snd p)) (combine mask mm))).
    destruct (IH s2 F2 bound' (count + fresh) P2 NC2 Nb') as
      [n [s' [F' [E' [P' [NC' [I1 [I2 [I3 [I4 [I5 [I6 I7]]]]]]]]]]]]; [intros; apply Hvs; simpl; auto|].
    assert (Hsame1 : forall x ps, solution_cost s1 x ps = solution_cost s x ps).
    { intros x ps. unfold solution_cost. rewrite (u_keys _ _ _ _ U). f_equal. apply over_ext. intros.
      unfold extra_at. now rewrite (u_extra _ _ _ _ U). }
    (* solutions using a value masked here are expensive *)
    assert (Hlost : forall x ps, solution s0 x ps -> nth (nth v x 0) mask false = true ->
        cltb (cadd bound' gap) (get mm (nth v x 0)) = true /\ cle (get mm (nth v x 0)) (solution_cost s x ps)).
    { intros x ps HS Hm. assert (HS' : solution s x ps) by now apply (forbids_solution s0 s F).
      assert (Hxv : nth v x 0 < num_values s) by (eapply solution_values; eauto).
      rewrite Hmask in Hm by auto. split; auto. rewrite Hmm by auto.
      apply (marginal_below s v (nth v x 0)); auto. }
    exists n, s', F'. splits; auto.
    + intros u a Hu. apply I1. unfold F2. now rewrite Hu.
    + intros u Hu [a [Ha Hfa]]. apply I2; auto. destruct (Nat.eq_dec u v) as [->|Hne].
      * destruct best as [qb| |] eqn:Eb; [| |congruence].
        -- exists ab. split; [rewrite <- (fb_values _ _ _ P); auto|]. unfold F2.
           rewrite Nat.eqb_refl, Hmab. cbn. rewrite orb_false_r.
           destruct (F v ab) eqn:Ef; auto. exfalso.
           destruct (finite_marginal s v ab (fun j => M j ab) qb O NC Hv' Hab) as [[e Ee] _].
           ++ intros j Hj. now apply HM.
           ++ rewrite <- Hmm by auto. exact Eab.
           ++ rewrite (fb_extra _ _ _ P), Ef in Ee; [discriminate|auto|].
              rewrite <- (fb_values _ _ _ P). exact Hab.
        -- (* nothing is forbidden *)
           exists a. split; auto. unfold F2. rewrite Hfa, Nat.eqb_refl. cbn.
           rewrite Hmask by (rewrite (fb_values _ _ _ P); auto).
           assert (EI : bound' = Inf) by (destruct bound'; cbn in Hbest'; tauto).
           rewrite EI. destruct gap, (get mm a); reflexivity.
      * exists a. split; auto. unfold F2. apply Nat.eqb_neq in Hne. now rewrite Hfa, Hne.
    + intros x ps HS HF.
      assert (Hc0 : solution_cost s x ps = solution_cost s0 x ps) by now apply (forbids_cost s0 s F x ps O0 P HS).
      assert (Nc0 : solution_cost s0 x ps <> NaN).
      { intros C. destruct (dual_exists s0 O0) as [d D].
        pose proof (weak_duality s0 x ps d O0 NC0 HS D) as W. rewrite C in W. destruct d; exact W. }
      assert (Nbg : forall c, cltb (cadd bound' gap) c = true -> cle (cadd bound gap) (cadd bound' gap)).
      { intros c Ec. apply cltb_iff in Ec as [E1 _]. apply cadd_le; auto.
        destruct gap as [g| |]; cbn; auto; [apply Qcle_refl|]. destruct bound'; cbn in E1; congruence. }
      assert (Nbb : forall c, cltb (cadd bound' gap) c = true -> cadd bound gap <> NaN).
      { intros c Ec. specialize (Nbg c Ec). intros C. rewrite C in Nbg. exact Nbg. }
      destruct (nth (nth v x 0) mask false) eqn:Em.
      * right. destruct (Hlost x ps HS Em) as [H1 H2]. rewrite Hc0 in H2.
        eapply cltb_mono; eauto.
      * destruct (I3 x ps HS) as [G|G].
        -- intros u Hu. unfold F2. rewrite (HF u Hu). cbn [orb].
           destruct (Nat.eqb_spec u v) as [->|]; auto.
        -- left; exact G.
        -- right. eapply cltb_mono; eauto. now apply cle_refl.
    + intros Hfs. apply I4. destruct best as [qb| |] eqn:Eb; [| |congruence].
      * eapply (forbidden_feasible s1 s2 v _ ab (fun j => M j ab) qb); eauto.
        -- now rewrite (fb_keys _ _ _ P1).
        -- rewrite (fb_values _ _ _ P1), <- (fb_values _ _ _ P). auto.
        -- intros j Hj. rewrite (u_n _ _ _ _ U) in Hj. specialize (HM j ab Hj Hab).
           unfold marginal_bound in *. rewrite (updated_local s s1 _ _ v j U), (u_dag _ _ _ _ U j Hj), (u_pens _ _ _ _ U j Hj).
           exact HM.
        -- rewrite (u_n _ _ _ _ U), <- Hmm by auto. exact Eab.
      * (* best infinite: contradiction with feasibility is not needed, nothing changes *)
        assert (EI : bound' = Inf) by (destruct bound'; cbn in Hbest'; tauto).
        assert (Hnone : forall a, a < num_values s -> nth a mask false = false).
        { intros a Ha. rewrite Hmask, EI by auto. destruct gap, (get mm a); reflexivity. }
        destruct Fb as [[rows [row U2]] [HP2 _]]. intros j Hj.
        rewrite (u_n _ _ _ _ U2), (u_n _ _ _ _ U) in Hj.
        destruct (Hfs j Hj) as [p [q [Hp Eq]]]. exists p, q.
        rewrite (u_dag _ _ _ _ U2 j) by (rewrite (u_n _ _ _ _ U); auto).
        rewrite (u_dag _ _ _ _ U j Hj). split; auto. rewrite <- Eq. unfold penalized_cost. f_equal. f_equal.
        apply map_ext_in. intros [k b] Hin. cbn [fst snd].
        destruct (table_facts s O j Hj) as [L [_ [_ [V _]]]].
        destruct (complete_bounds _ _ _ _ L Hp Hin) as [Hk Hbb'].
        destruct (local_surj s O j k Hj Hk) as [u [Hu El]].
        assert (Hb' : b < num_values s) by lia.
        assert (E1 : pen_at s2 j u b = pen_at s1 j u b).
        { rewrite HP2; rewrite ?(u_n _ _ _ _ U), ?(u_keys _ _ _ _ U), ?(u_values _ _ _ _ U); auto.
          rewrite Hnone by auto. now rewrite andb_false_r. }
        rewrite (same_pen_at s s1 j u b U Hj) in E1. unfold pen_at in E1.
        rewrite (updated_local s1 s2 _ _ u j U2), (updated_local s s1 _ _ u j U), El in E1. exact E1.
    + lia.
    + intros En x ps HS. rewrite I6 by (auto; lia).
      assert (Hf0 : fresh = 0) by lia.
      assert (HS1 : solution s1 x ps) by now apply (forbids_solution s0 s1 F).
      assert (Hv1 : v < num_keys s1) by now rewrite (fb_keys _ _ _ P1).
      destruct (forbidden_cost s1 s2 v _ x ps O1 Hv1 Fb HS1) as [_ Hc2].
      rewrite Hc2, Hsame1. destruct (nth (nth v x 0) mask false) eqn:Em; auto.
      destruct (Hlost x ps HS Em) as [_ H2].
      assert (HS' : solution s x ps) by now apply (forbids_solution s0 s F).
      assert (Hxv : nth v x 0 < num_values s) by (eapply solution_values; eauto).
      assert (Hfin : is_finite (get mm (nth v x 0)) = false).
      { eapply (fresh_none mask mm); eauto; lia. }
      assert (Nx : get mm (nth v x 0) <> NaN).
      { unfold no_nans in Nm. rewrite Forall_forall in Nm. apply Nm, nth_In. lia. }
      destruct (get mm (nth v x 0)) as [y| |]; [discriminate| |congruence].
      destruct (solution_cost s x ps); cbn in H2; tauto.
    + intros Hlt. destruct (Nat.eq_dec n (count + fresh)) as [Hnf|Hnf].
      * assert (Hfr : 0 < fresh) by lia.
        destruct (fresh_some mask mm) as [a [Ha [Hma Hfa]]]; [lia|exact Hfr|].
        assert (Ha' : a < num_values s) by lia.
        destruct (get mm a) as [qa| |] eqn:Ega; try discriminate.
        destruct (finite_marginal s v a (fun j => M j a) qa O NC Hv' Ha') as [[e Ee] _].
        -- intros j Hj. now apply HM.
        -- rewrite <- Hmm by auto. exact Ega.
        -- assert (Ha0 : a < num_values s0) by (rewrite <- (fb_values _ _ _ P); auto).
           rewrite (fb_extra _ _ _ P) in Ee by auto. destruct (F v a) eqn:Ef; [discriminate|].
           exists v, a, e. splits; auto. apply I1. unfold F2. rewrite Nat.eqb_refl, Hma. cbn. apply orb_true_r.
      * destruct I7 as [u [a [e [H1 [H2 [H3 [H4 H5]]]]]]]; [lia|].
        exists u, a, e. splits; auto. unfold F2 in H3. now apply orb_false_iff in H3 as [H3 _].
Qed.

(** ** The first loop. *)
Definition marginal_row (s : sysdata) (v : nat) (mm : list cost) : Prop :=
  length mm = num_values s /\ exists M,
    (forall j a, j < num_dags s -> a < num_values s -> marginal_bound s v j a (M j a)) /\
    (forall a, a < num_values s -> get mm a = over (num_dags s) (fun j => M j a)).
Lemma marginal_row_same s s' v mm : same s s' -> marginal_row s' v mm -> marginal_row s v mm.
Proof.
  intros U [H1 [M [H2 H3]]]. rewrite (u_values _ _ _ _ U), (u_n _ _ _ _ U) in *. split; auto. exists M. split; auto.
  intros j a Hj Ha. specialize (H2 j a Hj Ha). unfold marginal_bound in *.
  rewrite (updated_local s s' _ _ v j U), (u_dag _ _ _ _ U j Hj), (u_pens _ _ _ _ U j Hj) in H2. exact H2.
Qed.
Lemma Forall2_impl' {A B} (P Q : A -> B -> Prop) l1 l2 :
  (forall a b, P a b -> Q a b) -> Forall2 P l1 l2 -> Forall2 Q l1 l2.
Proof. intros H F. induction F; constructor; auto. Qed.
Lemma all_marginals_spec vs : forall s, sys_ok s -> (forall v, In v vs -> v < num_keys s) ->
  exists mms s', all_marginals s vs = Ok (mms, s') /\ same s s' /\ Forall2 (marginal_row s) vs mms.
Proof.
  induction vs as [|v vs IH]; intros s O Hvs; cbn [all_marginals].
  - exists [], s. splits; auto. now apply same_refl.
  - assert (Hv : v < num_keys s) by (apply Hvs; simpl; auto).
    destruct (system_min_marginals_spec s v O Hv) as [mm [s1 [M [E [U [Lm [HM Hmm]]]]]]].
    rewrite E. cbn [bind fst snd].
    destruct (IH s1 (u_ok _ _ _ _ U)) as [mms [s2 [E2 [U2 F2]]]].
    { intros w Hw. rewrite (u_keys _ _ _ _ U). apply Hvs; simpl; auto. }
    rewrite E2. cbn [bind fst snd]. exists (mm :: mms), s2. splits; auto.
    + eapply same_trans; eauto.
    + constructor.
      * split; auto. exists M. auto.
      * eapply Forall2_impl'; [|exact F2]. intros. eapply marginal_row_same; eauto.
Qed.

(** The largest of the per-variable minima lies between the dual objective and
    the cost of every solution. *)
Lemma cmax_fold cs : forall c, c <> NaN -> Forall (fun d => d <> NaN) cs ->
  fold_left cmax cs c <> NaN /\ cle c (fold_left cmax cs c) /\
  (forall d, In d cs -> cle d (fold_left cmax cs c)) /\ In (fold_left cmax cs c) (c :: cs).
Proof.
  induction cs as [|d cs IH]; intros c Nc H; cbn [fold_left].
  - split; [auto|]. split; [now apply cle_refl|]. split; [intros d []|now left].
  - inversion H as [|? ? Nd Ncs]; subst.
    assert (Nm : cmax c d <> NaN) by (unfold cmax; destruct (cltb c d); auto).
    destruct (IH (cmax c d) Nm Ncs) as [I1 [I2 [I3 I4]]]. splits; auto.
    + eapply cle_trans; [|exact I2]. unfold cmax. destruct (cltb c d) eqn:E; [now apply cltb_le|now apply cle_refl].
    + intros e [<-|He]; [|now apply I3]. eapply cle_trans; [|exact I2].
      unfold cmax. destruct (cltb c d) eqn:E; [now apply cle_refl|now apply cltb_false].
    + destruct I4 as [I4|I4]; [|simpl; auto]. rewrite <- I4. unfold cmax. destruct (cltb c d); simpl; auto.
Qed.

Definition row_min (s : sysdata) (v : nat) (best : cost) : Prop :=
  best <> NaN /\ (forall c, dual_objective s c -> cle c best) /\
  (forall x ps, solution s x ps -> cle best (solution_cost s x ps)).
Lemma row_min_ok s v mm best : sys_ok s -> nearly_conserved s -> v < num_keys s -> marginal_row s v mm ->
  np_min mm = Ok best -> row_min s v best.
Proof.
  intros O NC Hv [Lm [M [HM Hmm]]] E.
  destruct (marginals_ok s v mm M O Lm HM Hmm) as [_ [b [a [Eb [Nb [Hle [Ha Ea]]]]]]].
  assert (Ebb : best = b) by congruence. subst best. unfold row_min. split; [auto|split].
  - intros c D. rewrite <- Ea, Hmm by auto. apply (marginal_above s v a); auto.
  - intros x ps HS. assert (Hx : nth v x 0 < num_values s) by (eapply solution_values; eauto).
    eapply cle_trans; [apply (Hle (nth v x 0) Hx)|]. rewrite Hmm by auto.
    apply (marginal_below s v (nth v x 0)); auto.
Qed.
Lemma mins_ok s vs mms : sys_ok s -> nearly_conserved s -> (forall v, In v vs -> v < num_keys s) ->
  Forall2 (marginal_row s) vs mms ->
  exists mins, mapM np_min mms = Ok mins /\ length mins = length vs /\
    Forall (fun b => b <> NaN /\ (forall c, dual_objective s c -> cle c b) /\
                     (forall x ps, solution s x ps -> cle b (solution_cost s x ps))) mins.
Proof.
  intros O NC Hvs F. induction F as [|v mm vs mms Hr F IH]; cbn [mapM].
  - exists []. auto.
  - destruct IH as [mins [E [L H]]]; [intros; apply Hvs; simpl; auto|].
    pose proof Hr as [Lm [M [HM Hmm]]].
    destruct (marginals_ok s v mm M O Lm HM Hmm) as [_ [b [_ [Eb _]]]].
    rewrite Eb. cbn [bind]. rewrite E. cbn [bind]. exists (b :: mins). cbn [length]. splits; auto.
    constructor; auto. apply (row_min_ok s v mm b); auto. apply Hvs; simpl; auto.
Qed.

Lemma order_bounds dir n v : In v (iteration_order dir n) -> v < n.
Proof. destruct dir; cbn [iteration_order]; rewrite <- ?in_rev, in_seq; lia. Qed.
Lemma order_length dir n : length (iteration_order dir n) = n.
Proof. destruct dir; cbn [iteration_order]; rewrite ?rev_length; apply seq_length. Qed.

(** What [partially_commit] may do to a system: some values get an infinite
    unary cost, everything else stays. *)
Record commitment (s s' : sysdata) (bound gap : cost) (F : nat -> nat -> bool) : Prop := {
  cm_forbids : forbids s s' F;
  cm_nearly : nearly_conserved s';
  cm_left : forall v, v < num_keys s -> exists a, a < num_values s /\ F v a = false;
  cm_lost : forall x ps, solution s x ps ->
    (forall v, v < num_keys s -> F v (nth v x 0) = false) \/
    cltb (cadd bound gap) (solution_cost s x ps) = true;
  cm_feasible : feasible s -> feasible s'
}.

Lemma partially_commit_spec s dir threshold strictness epsilon :
  sys_ok s -> nearly_conserved s -> 0 < num_keys s -> (0 <= strictness)%Qc ->
  exists status s' bound gap F,
    partially_commit s dir threshold strictness epsilon = Ok (status, s') /\
    (bound <> NaN /\ (forall c, dual_objective s c -> cle c bound) /\
       (forall x ps, solution s x ps -> cle bound (solution_cost s x ps))) /\
    (gap = NaN \/ cle (Fin 0%Qc) gap) /\
    commitment s s' bound gap F /\
    (status = NEEDS_GREEDY_EXTRACT -> same s s') /\
    (status = STUCK -> forall x ps, solution s x ps -> solution_cost s' x ps = solution_cost s x ps) /\
    (status = MADE_PARTIAL_ASSIGNMENT -> exists v a e, v < num_keys s /\ a < num_values s /\
       F v a = true /\ extra_at s v a = Fin e /\ extra_at s' v a = Inf) /\
    (forall t q, threshold = Some (Fin t) -> bound = Fin q -> status <> NEEDS_GREEDY_EXTRACT ->
       (q + epsilon < t)%Qc /\ gap = Fin ((if qc_ltb 0 (t - q) then t - q else 0) * strictness)%Qc).
Proof.
  intros O NC Hk Hstr. unfold partially_commit.
  set (order := iteration_order dir (num_keys s)).
  assert (Hord : forall v, In v order -> v < num_keys s) by (intros v; apply order_bounds).
  destruct (all_marginals_spec order s O Hord) as [mms [s1 [E [U F]]]]. rewrite E. cbn [bind fst snd].
  destruct (mins_ok s order mms O NC Hord F) as [mins [Em [Lm Hm]]]. rewrite Em. cbn [bind].
  unfold order in Lm. rewrite order_length in Lm.
  destruct mins as [|c cs]; [simpl in Lm; lia|]. cbn [bind].
  set (bound := fold_left cmax cs c).
  assert (Hb : bound <> NaN /\ (forall d, dual_objective s d -> cle d bound) /\
       (forall x ps, solution s x ps -> cle bound (solution_cost s x ps))).
  { assert (HN : Forall (fun d => d <> NaN) cs).
    { inversion Hm as [|? ? _ H]; subst. revert H. apply Forall_impl. tauto. }
    assert (Nc : c <> NaN) by (inversion Hm; tauto).
    destruct (cmax_fold cs c Nc HN) as [_ [_ [_ Hin]]].
    rewrite Forall_forall in Hm. exact (Hm _ Hin). }
  assert (P1 : forbids s s1 (fun _ _ => false)) by now apply forbids_start.
  assert (NC1 : nearly_conserved s1) by (eapply same_nearly; eauto).
  assert (Hfs1 : feasible s -> feasible s1).
  { intros Hfs j Hj. rewrite (u_n _ _ _ _ U) in Hj. rewrite (u_dag _ _ _ _ U j Hj), (u_pens _ _ _ _ U j Hj). auto. }
  pose proof (so_values s O) as Hnv.
  assert (C1 : forall g, commitment s s1 bound g (fun _ _ => false)).
  { intros g. constructor; auto. intros v Hv. exists 0. auto. }
  destruct threshold as [t|].
  2: { exists NEEDS_GREEDY_EXTRACT, s1, bound, (Fin 0%Qc), (fun _ _ => false).
       splits; auto; try congruence; try tauto. right. cbn. apply Qcle_refl. }
  destruct (cleb t (cadd bound (Fin epsilon))) eqn:Et.
  - exists NEEDS_GREEDY_EXTRACT, s1, bound, (Fin 0%Qc), (fun _ _ => false).
    splits; auto; try congruence; try tauto. right. cbn. apply Qcle_refl.
  - set (target := match csub t bound with
                   | Fin g => if qc_ltb 0%Qc g then Fin g else Fin 0%Qc
                   | Inf => Inf | NaN => Fin 0%Qc end).
    set (gap := cscale strictness target).
    assert (Ht : cle (Fin 0%Qc) target).
    { unfold target. destruct (csub t bound) as [g| |]; cbn; auto; [|apply Qcle_refl].
      destruct (qc_ltb 0 g) eqn:Eg; cbn; [|apply Qcle_refl].
      unfold qc_ltb in Eg. destruct (Qclt_le_dec 0 g) as [H|H]; [|discriminate]. now apply Qclt_le_weak. }
    assert (Hg : gap = NaN \/ cle (Fin 0%Qc) gap).
    { unfold gap. destruct target as [g| |]; cbn [cscale]; [right| |cbn in Ht; tauto].
      - cbn in Ht |- *. pose proof (Qcmult_le_compat_r 0 strictness g Hstr Ht) as Hx.
        rewrite Qcmult_0_l, Qcmult_comm in Hx. exact Hx.
      - destruct (Qclt_le_dec 0 strictness); [right; exact I|now left]. }
    destruct (commit_loop_spec s gap O NC Hg order s1 (fun _ _ => false) bound 0 P1 NC1) as
      [n [s' [F' [E' [P' [NC' [I1 [I2 [I3 [I4 [I5 [I6 I7]]]]]]]]]]]]; [tauto|exact Hord|].
    rewrite E'. cbn [bind fst snd].
    exists (if n =? 0 then STUCK else MADE_PARTIAL_ASSIGNMENT), s', bound, gap, F'. splits; auto; try tauto.
    + constructor; auto. intros v Hv. apply I2; auto. exists 0. auto.
    + destruct (n =? 0); discriminate.
    + destruct (Nat.eqb_spec n 0) as [->|]; [|discriminate]. intros _ x ps HS. rewrite I6 by auto.
      unfold solution_cost. rewrite (u_keys _ _ _ _ U). f_equal. apply over_ext. intros.
      unfold extra_at. now rewrite (u_extra _ _ _ _ U).
    + destruct (Nat.eqb_spec n 0) as [->|]; [discriminate|]. intros _.
      destruct I7 as [v [a [e [H1 [H2 [_ [H4 H5]]]]]]]; [lia|]. exists v, a, e. splits; auto.
      rewrite (fb_extra _ _ _ P') by auto. now rewrite H4.
    + intros t' q Et' Eb _. injection Et' as ->. unfold gap, target. rewrite Eb in Et |- *.
      cbn [csub cscale]. split.
      * unfold cleb in Et. cbn in Et. apply negb_false_iff in Et. unfold qc_ltb in Et.
        destruct (Qclt_le_dec (q + epsilon) t'); [auto|discriminate].
      * destruct (qc_ltb 0 (t' - q)); reflexivity.
Qed.
