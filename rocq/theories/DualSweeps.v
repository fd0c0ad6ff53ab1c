(** The sweep solver: every step is an averaging step, so objectives ascend,
    stay below every solution's cost, and the solver stops. *)

From Coq Require Import List Bool Arith Lia ZArith QArith Qcanon Qround.
From Verif Require Import Base Graph PackedDag PackedDagProofs PackedTables PackedScale Convert
  DualSolver DualSpec DualLists DualPaths DualOps DualInvariant.
Import ListNotations.
Close Scope Qc_scope. Close Scope Q_scope. Open Scope nat_scope.

(** A run of averaging steps over the variables [vs], with the objective
    reported after each. *)
Inductive averaging : sysdata -> list nat -> list cost -> sysdata -> Prop :=
| av_done s : averaging s [] [] s
| av_step s v c s1 vs cs s' :
    min_marginal_average s v = Ok (c, s1) -> averaging s1 vs cs s' -> averaging s (v :: vs) (c :: cs) s'.

Lemma averaging_snoc s vs cs s1 v c s' : averaging s vs cs s1 ->
  min_marginal_average s1 v = Ok (c, s') -> averaging s (vs ++ [v]) (cs ++ [c]) s'.
Proof.
  induction 1 as [s|s w d s1 vs cs s2 E Hr IH]; intros Hv; simpl.
  - econstructor; eauto. constructor.
  - econstructor; eauto.
Qed.
Lemma averaging_length s vs cs s' : averaging s vs cs s' -> length cs = length vs.
Proof. induction 1; simpl; auto. Qed.

(** Systems that differ in penalties only. *)
Definition repriced (s s' : sysdata) : Prop := exists f, updated s s' f (extra s).
Lemma repriced_cost s s' x ps : repriced s s' -> solution_cost s' x ps = solution_cost s x ps.
Proof.
  intros [f U]. unfold solution_cost. rewrite (u_keys _ _ _ _ U). f_equal. apply over_ext. intros.
  unfold extra_at. now rewrite (u_extra _ _ _ _ U).
Qed.
Lemma repriced_solution s s' x ps : repriced s s' -> (solution s' x ps <-> solution s x ps).
Proof. intros [f U]. now apply (updated_solution s s' f (extra s)). Qed.
Lemma repriced_trans s s1 s2 : repriced s s1 -> repriced s1 s2 -> repriced s s2.
Proof.
  intros [f U] [g V]. exists g. destruct U, V. constructor; try congruence.
  - intros j Hj. rewrite u_dag0 by lia. apply u_dag. lia.
  - intros j Hj. apply u_pens0. lia.
Qed.
Lemma repriced_refl s : sys_ok s -> repriced s s.
Proof. intros O. exists (fun j => pens (table s j)). constructor; auto. Qed.

(** The last objective, or the initial dual bound. *)
Definition ascending (b : cost) (cs : list cost) : Prop :=
  forall i c, nth_error cs i = Some c ->
    c <> NaN /\ cle b c /\ forall i' c', i <= i' -> nth_error cs i' = Some c' -> cle c c'.
Lemma ascending_snoc b cs c : c <> NaN -> ascending b cs -> cle (last cs b) c -> b <> NaN -> ascending b (cs ++ [c]).
Proof.
  intros Nc A Hl Nb i x Hi.
  assert (Hlast : forall k y, nth_error cs k = Some y -> cle y (last cs b)).
  { intros k y Hk. destruct (A k y Hk) as [_ [_ H]].
    destruct cs as [|z cs0] using rev_ind; [destruct k; discriminate|]. clear IHcs0.
    apply (H (length cs0)).
    - assert (k < length (cs0 ++ [z])) by (apply nth_error_Some; congruence). rewrite app_length in *. simpl in *. lia.
    - rewrite last_last, nth_error_app2, Nat.sub_diag; auto. }
  assert (Hb : cle b (last cs b)).
  { destruct cs as [|z cs0] using rev_ind; [now apply cle_refl|]. clear IHcs0. rewrite last_last.
    apply (A (length cs0) z). rewrite nth_error_app2, Nat.sub_diag; auto. }
  destruct (Nat.lt_ge_cases i (length cs)) as [Hlt|Hge].
  - rewrite nth_error_app1 in Hi by lia. destruct (A i x Hi) as [H1 [H2 H3]]. splits; auto.
    intros i' c' Hii Hc'. destruct (Nat.lt_ge_cases i' (length cs)) as [Hlt'|Hge'].
    + rewrite nth_error_app1 in Hc' by lia. eauto.
    + rewrite nth_error_app2 in Hc' by lia. destruct (i' - length cs) as [|[|k]]; cbn in Hc'; try discriminate.
      injection Hc' as <-. eapply cle_trans; eauto.
  - rewrite nth_error_app2 in Hi by lia. destruct (i - length cs) as [|[|k]] eqn:Ei; cbn in Hi; try discriminate.
    injection Hi as <-. splits; auto.
    + eapply cle_trans; eauto.
    + intros i' c' Hii Hc'. rewrite nth_error_app2 in Hc' by lia.
      destruct (i' - length cs) as [|[|k]] eqn:Ei'; cbn in Hc'; try discriminate.
      injection Hc' as <-. now apply cle_refl.
Qed.

Lemma dual_notnan s c : dual_objective s c -> c <> NaN.
Proof. intros [L [HL ->]]. apply over_notnan. intros j Hj. now destruct (HL j Hj). Qed.

Lemma averaging_facts s vs cs s' b : sys_ok s -> nearly_conserved s -> dual_objective s b ->
  averaging s vs cs s' ->
  sys_ok s' /\ nearly_conserved s' /\ repriced s s' /\ ascending b cs /\ dual_objective s' (last cs b).
Proof.
  intros O NC D A. revert b D. induction A as [s|s v c s1 vs cs s' E Hr IH]; intros b D.
  - splits; auto; [now apply repriced_refl|]. intros i c Hi. destruct i; discriminate.
  - assert (Hv : v < num_keys s).
    { unfold min_marginal_average in E. apply bind_ok_inv in E as [ps [E _]]. unfold participants in E.
      apply bind_ok_inv in E as [row [E _]]. destruct (nth_error (imap s) v) eqn:En; [|discriminate].
      rewrite <- (so_imap s O). apply nth_error_Some. congruence. }
    destruct (average_step s v O NC Hv) as [c0 [s0 [E0 [O1 [NC1 [D1 [Up [f U]]]]]]]].
    rewrite E in E0. injection E0 as <- <-.
    destruct (IH O1 NC1 c D1) as [I1 [I2 [I3 [I4 I5]]]]. splits; auto.
    + eapply repriced_trans; eauto. now exists f.
    + pose proof (dual_notnan _ _ D1) as Nc. pose proof (Up b D) as Hbc.
      intros [|i] x Hi; cbn [nth_error] in Hi.
      * injection Hi as <-. splits; auto. intros [|i'] c' _ Hc'; cbn [nth_error] in Hc'.
        -- injection Hc' as <-. now apply cle_refl.
        -- now apply (I4 i' c').
      * destruct (I4 i x Hi) as [H1 [H2 H3]]. splits; auto.
        -- eapply cle_trans; eauto.
        -- intros [|i'] c' Hii Hc'; [lia|]. apply (H3 i'); auto. lia.
    + replace (last (c :: cs) b) with (last cs c); auto.
      destruct cs as [|d cs]; auto. cbn [last]. clear. revert d. induction cs as [|e cs IH]; intros d; auto.
      cbn [last] in *. apply IH.
Qed.

(** ** The loops. *)
Definition good (s0 : sysdata) (g : progress) : Prop :=
  averaging s0 (g_variables g) (g_objectives g) (g_sys g) /\
  g_last g = match rev (g_objectives g) with [] => None | c :: _ => Some c end.

(** A step that improves the objective by more than the tolerance; the first
    step improves on -inf. *)
Definition improves (tol : Qc) (last : option cost) (cs : list cost) (i : nat) : Prop :=
  match nth_error cs i with
  | None => False
  | Some c => did_improve (match i with 0 => last | S k => nth_error cs k end) c tol = true
  end.

Lemma run_sweep_spec s0 tol vs g : sys_ok s0 -> nearly_conserved s0 ->
  (forall v, In v vs -> v < num_keys s0) -> good s0 g ->
  exists g' cs, run_sweep tol vs g = Ok g' /\ good s0 g' /\
    averaging (g_sys g) vs cs (g_sys g') /\
    g_objectives g' = g_objectives g ++ cs /\ g_variables g' = g_variables g ++ vs /\
    g_sweeps g' = g_sweeps g /\ g_steps g' = g_steps g /\
    (g_changed g' = true <-> g_changed g = true \/ exists i, improves tol (g_last g) cs i).
Proof.
  intros O NC. revert g. induction vs as [|v vs IH]; intros g Hvs G; cbn [run_sweep].
  - exists g, []. splits; auto.
    + constructor.
    + now rewrite app_nil_r.
    + now rewrite app_nil_r.
    + split; auto. intros [H|[i Hi]]; auto. unfold improves in Hi. destruct i; contradiction.
  - pose proof G as [A Hl]. destruct (dual_exists s0 O) as [b D].
    destruct (averaging_facts s0 _ _ _ b O NC D A) as [O1 [NC1 [[f U] _]]].
    assert (Hv : v < num_keys (g_sys g)) by (rewrite (u_keys _ _ _ _ U); apply Hvs; simpl; auto).
    destruct (average_step (g_sys g) v O1 NC1 Hv) as [c [s1 [E _]]]. rewrite E. cbn [bind fst snd].
    match goal with |- context [run_sweep tol vs ?x] => set (g1 := x) end.
    assert (G1 : good s0 g1).
    { split; cbn.
      - eapply averaging_snoc; eauto.
      - rewrite rev_app_distr. reflexivity. }
    destruct (IH g1) as [g' [cs [E' [G' [A' [H1 [H2 [H3 [H4 H5]]]]]]]]]; auto; [intros; apply Hvs; simpl; auto|].
    exists g', (c :: cs). splits; auto.
    + econstructor; eauto.
    + rewrite H1. cbn. rewrite <- app_assoc. reflexivity.
    + rewrite H2. cbn. rewrite <- app_assoc. reflexivity.
    + rewrite H5. subst g1. cbn [g_changed g_last]. split.
      * intros [H|[i Hi]].
        -- destruct (did_improve (g_last g) c tol) eqn:Ed; auto. right. exists 0. exact Ed.
        -- right. exists (S i). unfold improves in *. cbn [nth_error]. destruct i; exact Hi.
      * intros [H|[i Hi]].
        -- left. now destruct (did_improve (g_last g) c tol).
        -- unfold improves in Hi. destruct i as [|i]; cbn [nth_error] in Hi.
           ++ left. now rewrite Hi.
           ++ right. exists i. unfold improves. destruct i; exact Hi.
Qed.

(** The variables of the sweeps of one round. *)
Definition sweep_list (dirs : list direction) (n : nat) : list nat :=
  flat_map (fun d => sweep_variables d n) dirs.
Lemma sweep_bound d n v : In v (sweep_variables d n) -> v < n.
Proof.
  destruct d; cbn; rewrite <- ?in_rev; intros H; apply in_seq in H; lia.
Qed.

Lemma improves_app tol last cs1 cs2 :
  (exists i, improves tol last (cs1 ++ cs2) i) <->
  (exists i, improves tol last cs1 i) \/
  (exists i, improves tol (match rev cs1 with [] => last | c :: _ => Some c end) cs2 i).
Proof.
  assert (Last : forall k x, S k = length cs1 -> nth_error cs1 k = Some x -> exists r, rev cs1 = x :: r).
  { intros k x Hk Hx. destruct cs1 as [|y cs1] using rev_ind; [discriminate|]. clear IHcs1.
    rewrite rev_app_distr. cbn. exists (rev cs1). f_equal.
    rewrite app_length in Hk. cbn in Hk. replace k with (length cs1) in Hx by lia.
    rewrite nth_error_app2, Nat.sub_diag in Hx by lia. now injection Hx. }
  split.
  - intros [i Hi]. unfold improves in Hi. destruct (Nat.lt_ge_cases i (length cs1)) as [Hlt|Hge].
    + left. exists i. unfold improves. rewrite nth_error_app1 in Hi by lia.
      destruct i; auto. rewrite nth_error_app1 in Hi by lia. exact Hi.
    + right. exists (i - length cs1). unfold improves. rewrite nth_error_app2 in Hi by lia.
      destruct (i - length cs1) as [|k] eqn:Ek.
      * destruct i as [|i].
        -- destruct cs1; [exact Hi|simpl in Hge; lia].
        -- assert (Hs : S i = length cs1) by lia. rewrite nth_error_app1 in Hi by lia.
           destruct (nth_error cs1 i) as [x|] eqn:Ex; [|apply nth_error_None in Ex; lia].
           destruct (Last i x Hs Ex) as [r ->]. exact Hi.
      * destruct i as [|i]; [lia|]. rewrite nth_error_app2 in Hi by lia.
        replace (i - length cs1) with k in Hi by lia. exact Hi.
  - intros [[i Hi]|[i Hi]]; unfold improves in Hi.
    + exists i. unfold improves. destruct (nth_error cs1 i) as [x|] eqn:Ex; [|contradiction].
      assert (i < length cs1) by (apply nth_error_Some; congruence).
      rewrite nth_error_app1, Ex by lia. destruct i; auto. rewrite nth_error_app1 by lia. exact Hi.
    + exists (length cs1 + i). unfold improves. rewrite nth_error_app2 by lia.
      replace (length cs1 + i - length cs1) with i by lia.
      destruct i as [|i].
      * rewrite Nat.add_0_r. destruct (length cs1) as [|k] eqn:Ek.
        -- destruct cs1; [exact Hi|discriminate].
        -- rewrite nth_error_app1 by lia.
           destruct (nth_error cs1 k) as [x|] eqn:Ex; [|apply nth_error_None in Ex; lia].
           destruct (Last k x (eq_sym eq_refl) Ex) as [r Er]. rewrite Er in Hi. exact Hi.
      * replace (length cs1 + S i) with (S (length cs1 + i)) by lia. rewrite nth_error_app2 by lia.
        replace (length cs1 + i - length cs1) with i by lia. exact Hi.
Qed.

(** The sweeps that one round performs, given the clock. *)
Fixpoint performed (clock : nat -> bool) (done : nat) (dirs : list direction) : list direction :=
  match dirs with
  | [] => []
  | d :: ds => d :: (if clock done then [] else performed clock (S done) ds)
  end.

Lemma good_last_app s0 g g' cs : good s0 g -> good s0 g' -> g_objectives g' = g_objectives g ++ cs ->
  g_last g' = match rev cs with [] => g_last g | c :: _ => Some c end.
Proof.
  intros [_ L] [_ L'] E. rewrite L', E, rev_app_distr. destruct (rev cs); cbn; auto.
Qed.

Lemma run_directions_spec s0 clock tol dirs g : sys_ok s0 -> nearly_conserved s0 -> good s0 g ->
  exists g' cs, run_directions clock tol dirs g = Ok g' /\ good s0 g' /\
    averaging (g_sys g) (sweep_list (performed clock (length (g_sweeps g)) dirs) (num_keys s0)) cs (g_sys g') /\
    g_objectives g' = g_objectives g ++ cs /\
    g_variables g' = g_variables g ++ sweep_list (performed clock (length (g_sweeps g)) dirs) (num_keys s0) /\
    length (g_sweeps g') = length (g_sweeps g) + length (performed clock (length (g_sweeps g)) dirs) /\
    (g_changed g' = true <-> g_changed g = true \/ exists i, improves tol (g_last g) cs i).
Proof.
  intros O NC. revert g. induction dirs as [|dir dirs IH]; intros g G; cbn [run_directions performed].
  - exists g, []. cbn. splits; auto.
    + constructor.
    + now rewrite app_nil_r.
    + now rewrite app_nil_r.
    + split; auto. intros [H|[i Hi]]; auto. unfold improves in Hi. destruct i; contradiction.
  - destruct (dual_exists s0 O) as [b D].
    destruct (averaging_facts s0 _ _ _ b O NC D (proj1 G)) as [_ [_ [[f U] _]]].
    rewrite (u_keys _ _ _ _ U).
    destruct (run_sweep_spec s0 tol (sweep_variables dir (num_keys s0)) g O NC) as
      [g1 [cs [E1 [G1 [A1 [H1 [H2 [H3 [H4 H5]]]]]]]]]; auto; [intros v; apply sweep_bound|].
    rewrite E1. cbn [bind]. rewrite H3.
    assert (G2 : good s0 (end_sweep g1)) by exact G1.
    destruct (clock (length (g_sweeps g))) eqn:Ec.
    + exists (end_sweep g1), cs. cbn [sweep_list flat_map]. rewrite app_nil_r. splits; auto.
      cbn [end_sweep g_sweeps]. rewrite app_length, H3. reflexivity.
    + destruct (IH (end_sweep g1) G2) as [g' [cs' [E' [G' [A' [H1' [H2' [H3' H4']]]]]]]].
      assert (El : length (g_sweeps (end_sweep g1)) = S (length (g_sweeps g))).
      { cbn [end_sweep g_sweeps]. rewrite app_length, H3. cbn. lia. }
      rewrite El in *. exists g', (cs ++ cs'). splits; auto.
      * cbn [sweep_list flat_map].
        assert (Happ : forall s vs cs s1 vs' cs' s2, averaging s vs cs s1 -> averaging s1 vs' cs' s2 ->
                         averaging s (vs ++ vs') (cs ++ cs') s2).
        { intros s vs cs0 s1 vs' cs0' s2 Ha Hb. induction Ha; simpl; auto. econstructor; eauto. }
        eapply Happ; eauto.
      * rewrite H1'. cbn [end_sweep g_objectives]. now rewrite H1, app_assoc.
      * rewrite H2'. cbn [end_sweep g_variables sweep_list flat_map]. now rewrite H2, app_assoc.
      * rewrite H3'. cbn [length]. lia.
      * rewrite H4', improves_app. cbn [end_sweep g_changed g_last].
        rewrite (good_last_app s0 g g1 cs G G1 H1), H5. tauto.
Qed.

(** ** What a finished run has done.  A round is one traversal of the loop over
    the two directions; all rounds but the last contain an improving step. *)
Inductive rounds (clock : nat -> bool) (tol : Qc) (n : nat) : nat -> option cost -> list nat -> list cost -> Prop :=
| rounds_last k last cs vs :
    vs = sweep_list (performed clock k [FORWARD; REVERSE]) n -> length cs = length vs ->
    (forall i, ~ improves tol last cs i) ->
    rounds clock tol n k last vs cs
| rounds_more k last vs cs vs' cs' :
    vs = sweep_list (performed clock k [FORWARD; REVERSE]) n -> length cs = length vs ->
    (exists i, improves tol last cs i) ->
    rounds clock tol n (k + length (performed clock k [FORWARD; REVERSE]))
      (match rev cs with [] => last | c :: _ => Some c end) vs' cs' ->
    rounds clock tol n k last (vs ++ vs') (cs ++ cs').

Definition reset (g : progress) : progress :=
  mkProgress (g_sys g) (g_last g) false (g_objectives g) (g_variables g) (g_sweeps g) (g_steps g).

Lemma run_rounds_spec s0 clock tol fuel g r : sys_ok s0 -> nearly_conserved s0 -> good s0 g ->
  run_rounds fuel clock tol g = Some r ->
  exists g' vs cs, r = Ok g' /\ good s0 g' /\
    g_objectives g' = g_objectives g ++ cs /\ g_variables g' = g_variables g ++ vs /\
    rounds clock tol (num_keys s0) (length (g_sweeps g)) (g_last g) vs cs.
Proof.
  intros O NC. revert g. induction fuel as [|fuel IH]; intros g G E; [discriminate|].
  cbn [run_rounds] in E. fold (reset g) in E.
  assert (Gr : good s0 (reset g)) by exact G.
  destruct (run_directions_spec s0 clock tol [FORWARD; REVERSE] (reset g) O NC Gr) as
    [g1 [cs [E1 [G1 [A1 [H1 [H2 [H3 H4]]]]]]]].
  cbn [reset g_sys g_objectives g_variables g_sweeps g_last g_changed] in *.
  rewrite E1 in E. pose proof (averaging_length _ _ _ _ A1) as Hl.
  destruct (g_changed g1) eqn:Ec.
  - destruct (IH g1 G1 E) as [g' [vs' [cs' [-> [G' [H1' [H2' H3']]]]]]].
    exists g', (sweep_list (performed clock (length (g_sweeps g)) [FORWARD; REVERSE]) (num_keys s0) ++ vs'), (cs ++ cs').
    splits; auto.
    + now rewrite H1', H1, app_assoc.
    + now rewrite H2', H2, app_assoc.
    + apply rounds_more; auto.
      * destruct H4 as [H4 _]. destruct (H4 eq_refl); auto. discriminate.
      * rewrite H3 in H3'. rewrite (good_last_app s0 g g1 cs G G1 H1) in H3'. exact H3'.
  - injection E as <-. exists g1, (sweep_list (performed clock (length (g_sweeps g)) [FORWARD; REVERSE]) (num_keys s0)), cs.
    splits; auto. apply rounds_last; auto.
    intros i Hi. destruct H4 as [_ H4]. assert (false = true) by (apply H4; eauto). discriminate.
Qed.

Lemma solve_spec s clock tol fuel r : sys_ok s -> nearly_conserved s ->
  solve_system_with_sweeps fuel clock tol s = Some r ->
  exists res s', r = Ok (res, s') /\ reached_plateau res = true /\
    averaging s (variable_at_step res) (objective_at_step res) s' /\
    rounds clock tol (num_keys s) 0 None (variable_at_step res) (objective_at_step res).
Proof.
  intros O NC E. unfold solve_system_with_sweeps in E.
  destruct (run_rounds fuel clock tol (mkProgress s None false [] [] [] [])) as [r0|] eqn:Er; [|discriminate].
  assert (G0 : good s (mkProgress s None false [] [] [] [])) by (split; [constructor|reflexivity]).
  destruct (run_rounds_spec s clock tol fuel _ r0 O NC G0 Er) as
    [g' [vs [cs [-> [G [H1 [H2 H3]]]]]]].
  cbn in H1, H2, H3. injection E as <-. eexists _, _. splits; [reflexivity|reflexivity| |].
  - apply G.
  - cbn. now rewrite H1, H2.
Qed.

(** More fuel does not change the answer. *)
Lemma run_rounds_fuel clock tol fuel g r k : run_rounds fuel clock tol g = Some r ->
  run_rounds (fuel + k) clock tol g = Some r.
Proof.
  revert g. induction fuel as [|fuel IH]; intros g E; [discriminate|].
  cbn [run_rounds Nat.add] in *. destruct (run_directions _ _ _ _) as [g1|]; auto.
  destruct (g_changed g1); auto.
Qed.

(** ** Termination. *)
Lemma improving_round s tol b cs vs s' i d : sys_ok s -> nearly_conserved s -> dual_objective s (Fin b) ->
  averaging s vs cs s' -> improves tol (Some (Fin b)) cs i -> dual_objective s' (Fin d) ->
  (b + tol < d)%Qc.
Proof.
  intros O NC D A Hi D'. destruct (averaging_facts s vs cs s' (Fin b) O NC D A) as [_ [_ [_ [Asc Dl]]]].
  pose proof (dual_unique _ _ _ D' Dl) as El.
  unfold improves in Hi. destruct (nth_error cs i) as [c|] eqn:Ec; [|contradiction].
  destruct (Asc i c Ec) as [Nc [Hbc Hup]].
  assert (Hcd : cle c (Fin d)).
  { rewrite El. destruct cs as [|z cs0] using rev_ind; [destruct i; discriminate|]. clear IHcs0.
    rewrite last_last. apply (Hup (length cs0)).
    - assert (i < length (cs0 ++ [z])) by (apply nth_error_Some; congruence). rewrite app_length in *. simpl in *. lia.
    - rewrite nth_error_app2, Nat.sub_diag; auto. }
  destruct c as [c| |]; [|contradiction Hcd|congruence].
  assert (Hprev : exists p, (match i with 0 => Some (Fin b) | S k => nth_error cs k end) = Some (Fin p) /\ (b <= p)%Qc).
  { destruct i as [|k]; [exists b; split; auto; apply Qcle_refl|].
    destruct (nth_error cs k) as [p|] eqn:Ek.
    - destruct (Asc k p Ek) as [Np [Hbp Hpu]]. pose proof (Hpu (S k) (Fin c) (Nat.le_succ_diag_r k) Ec) as Hpc.
      destruct p as [p| |]; [|contradiction Hpc|congruence]. exists p. auto.
    - apply nth_error_None in Ek. assert (S k < length cs) by (apply nth_error_Some; congruence). lia. }
  destruct Hprev as [p [Ep Hbp]]. rewrite Ep in Hi. cbn in Hi. cbn in Hcd.
  unfold qc_ltb in Hi. destruct (Qclt_le_dec tol (c - p)%Qc) as [Hlt|]; [|discriminate]. qc_lra.
Qed.


Lemma dual_below s0 g x ps B : sys_ok s0 -> nearly_conserved s0 -> good s0 g -> solution s0 x ps ->
  solution_cost s0 x ps = Fin B ->
  exists d, dual_objective (g_sys g) (Fin d) /\ (d <= B)%Qc.
Proof.
  intros O NC G HS EB. destruct (dual_exists s0 O) as [b0 D0].
  destruct (averaging_facts s0 _ _ _ b0 O NC D0 (proj1 G)) as [O1 [NC1 [R [_ D1]]]].
  assert (HS1 : solution (g_sys g) x ps) by now apply (repriced_solution s0).
  pose proof (weak_duality _ x ps _ O1 NC1 HS1 D1) as W.
  rewrite (repriced_cost s0 _ x ps R), EB in W. pose proof (dual_notnan _ _ D1) as Nn.
  destruct (last (g_objectives g) b0) as [d| |] eqn:Ed; [|contradiction W|congruence].
  exists d. auto.
Qed.

(** One round either ends the search or raises the objective by more than the tolerance. *)
Lemma round_step s0 clock tol g b : sys_ok s0 -> nearly_conserved s0 -> good s0 g ->
  dual_objective (g_sys g) (Fin b) -> (g_last g = None \/ g_last g = Some (Fin b)) ->
  (exists x ps B, solution s0 x ps /\ solution_cost s0 x ps = Fin B) ->
  exists g1, run_directions clock tol [FORWARD; REVERSE] (reset g) = Ok g1 /\ good s0 g1 /\
    (g_changed g1 = true ->
     exists d, dual_objective (g_sys g1) (Fin d) /\ g_last g1 = Some (Fin d) /\
       (b <= d)%Qc /\ (g_last g <> None -> (b + tol < d)%Qc)).
Proof.
  intros O NC G D Hl [x [ps [B [HS EB]]]].
  assert (Gr : good s0 (reset g)) by exact G.
  destruct (run_directions_spec s0 clock tol [FORWARD; REVERSE] (reset g) O NC Gr) as
    [g1 [cs [E1 [G1 [A1 [H1 [H2 [H3 H4]]]]]]]].
  cbn [reset g_sys g_objectives g_variables g_sweeps g_last g_changed] in *.
  exists g1. splits; auto. intros Hc. destruct H4 as [H4 _].
  destruct (H4 Hc) as [H4'|[i Hi]]; [discriminate|].
  destruct (dual_exists s0 O) as [b0 D0].
  destruct (averaging_facts s0 _ _ _ b0 O NC D0 (proj1 G)) as [O1 [NC1 _]].
  destruct (dual_below s0 g1 x ps B O NC G1 HS EB) as [d [Dd _]].
  destruct (averaging_facts _ _ _ _ _ O1 NC1 D A1) as [_ [_ [_ [Asc D2]]]].
  pose proof (dual_unique _ _ _ Dd D2) as Ed.
  destruct cs as [|z cs0] using rev_ind; [unfold improves in Hi; destruct i; contradiction|]. clear IHcs0.
  rewrite last_last in Ed. subst z.
  exists d. splits; auto.
  - rewrite (good_last_app s0 g g1 _ G G1 H1), rev_app_distr. reflexivity.
  - destruct (Asc (length cs0) (Fin d)) as [_ [Hbd _]]; auto.
    rewrite nth_error_app2, Nat.sub_diag; auto.
  - intros Hn. destruct Hl as [Hl|Hl]; [congruence|]. rewrite Hl in Hi.
    eapply improving_round; eauto.
Qed.

Lemma run_rounds_terminates s0 clock tol x ps B (N : nat) : sys_ok s0 -> nearly_conserved s0 ->
  (0 < tol)%Qc -> solution s0 x ps -> solution_cost s0 x ps = Fin B ->
  forall g b, good s0 g -> dual_objective (g_sys g) (Fin b) -> g_last g = Some (Fin b) ->
  (B - b <= Q2Qc (inject_Z (Z.of_nat N)) * tol)%Qc ->
  exists r, run_rounds (S N) clock tol g = Some r.
Proof.
  intros O NC Ht HS EB. induction N as [|N IH]; intros g b G D Eb Hn.
  all: destruct (round_step s0 clock tol g b O NC G D (or_intror Eb)) as [g1 [E1 [G1 Hc]]]; [eauto|].
  all: destruct (dual_below s0 g1 x ps B O NC G1 HS EB) as [d' [Dd' Hd']].
  all: cbn [run_rounds]; fold (reset g); rewrite E1; destruct (g_changed g1) eqn:Ec; [|eauto].
  all: destruct (Hc eq_refl) as [d [Dd [Ed [Hbd Hlt]]]]; specialize (Hlt ltac:(congruence)).
  all: pose proof (dual_unique _ _ _ Dd Dd') as Edd; injection Edd as <-.
  - exfalso. assert (E0 : Q2Qc (inject_Z (Z.of_nat 0)) = 0%Qc) by (apply Qc_is_canon; reflexivity).
    rewrite E0, Qcmult_0_l in Hn. qc_lra.
  - apply (IH g1 d G1 Dd Ed).
    assert (ES : Q2Qc (inject_Z (Z.of_nat (S N))) = (1 + Q2Qc (inject_Z (Z.of_nat N)))%Qc).
    { apply Qc_is_canon. cbn [this Qcplus Q2Qc]. rewrite !Qred_correct.
      rewrite Nat2Z.inj_succ. unfold Z.succ. rewrite inject_Z_plus. cbn. ring. }
    rewrite ES in Hn. rewrite Qcmult_plus_distr_l, Qcmult_1_l in Hn. qc_lra.
Qed.

(** The solver stops within [N + 2] rounds, where [N] tolerances cover the gap
    between the initial dual objective and the cost of any solution. *)
Lemma solve_terminates s clock tol x ps B b (N : nat) : sys_ok s -> nearly_conserved s ->
  (0 < tol)%Qc -> solution s x ps -> solution_cost s x ps = Fin B -> dual_objective s (Fin b) ->
  (B - b <= Q2Qc (inject_Z (Z.of_nat N)) * tol)%Qc ->
  exists r, solve_system_with_sweeps (S (S N)) clock tol s = Some r.
Proof.
  intros O NC Ht HS EB D Hn. unfold solve_system_with_sweeps.
  set (g0 := mkProgress s None false [] [] [] []).
  assert (G0 : good s g0) by (split; [constructor|reflexivity]).
  assert (H : exists r, run_rounds (S (S N)) clock tol g0 = Some r).
  { destruct (round_step s clock tol g0 b O NC G0 D (or_introl eq_refl)) as [g1 [E1 [G1 Hc]]]; [eauto|].
    remember (S N) as M eqn:EM. cbn [run_rounds]. fold (reset g0). rewrite E1.
    destruct (g_changed g1) eqn:Ec; [|eauto]. subst M.
    destruct (Hc eq_refl) as [d [Dd [Ed [Hbd _]]]].
    eapply (run_rounds_terminates s clock tol x ps B N); eauto. qc_lra. }
  destruct H as [r ->]. destruct r; eauto.
Qed.

Lemma enough_tolerances (gap tol : Qc) : (0 < tol)%Qc -> exists N : nat,
  (gap <= Q2Qc (inject_Z (Z.of_nat N)) * tol)%Qc.
Proof.
  intros Ht. exists (Z.to_nat (Qceiling (gap / tol)%Qc)).
  assert (H : (gap / tol <= Q2Qc (inject_Z (Z.of_nat (Z.to_nat (Qceiling (gap / tol)%Qc)))))%Qc).
  { set (z := Z.of_nat (Z.to_nat (Qceiling (gap / tol)%Qc))). unfold Qcle.
    assert (Ez : (this (Q2Qc (inject_Z z)) == inject_Z z)%Q) by apply Qred_correct.
    rewrite Ez. subst z.
    eapply Qle_trans; [apply Qle_ceiling|]. rewrite <- Zle_Qle.
    destruct (Z.le_gt_cases 0 (Qceiling (gap / tol)%Qc)) as [H0|H0].
    - rewrite Z2Nat.id; auto. lia.
    - lia. }
  apply (Qcmult_le_compat_r _ _ tol) in H; [|now apply Qclt_le_weak].
  replace (gap / tol * tol)%Qc with gap in H; auto.
  field. intros E. rewrite E in Ht. now apply Qclt_not_eq in Ht.
Qed.
