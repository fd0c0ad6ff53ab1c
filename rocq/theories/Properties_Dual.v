(** C14-C20, C54: the dual decomposition solver.
    Specification vocabulary: [DualSpec.v] ([solution], [solution_cost],
    [dual_objective], [conserved], [nearly_conserved], [sys_ok]); [DualApi.v]
    ([packed_input], [agreeing], [total_cost], [gives], [known], [system_ok]);
    [DualRun.v] ([call], [history], [sensible], [round_trip], [plateau]). *)

From Coq Require Import List Bool Arith Lia ZArith QArith Qcanon.
From Verif Require Import Base Graph PackedDag PackedDagProofs PackedTables Convert ConvertLists DualSolver DualSpec
  DualLists DualPaths DualOps DualInvariant DualSweeps DualUpdates DualGreedy DualCommit DualApi DualRun.
Import ListNotations.
Close Scope Qc_scope. Close Scope Q_scope. Open Scope nat_scope.

(** The example: two DAGs over keys 5 and 7, missing value 0; the second one
    may leave 7 out. *)
Definition c (q : Q) : cost := Fin (Q2Qc q).
Definition exA : dag nat (nat * nat) nat := mkDag 0
  [ mkEdge 0 1 (c 0) (Some (5, 0)) 0; mkEdge 0 1 (c 2) (Some (5, 1)) 1;
    mkEdge 1 2 (c 0) (Some (7, 0)) 2; mkEdge 1 2 (c 1) (Some (7, 1)) 3 ] 2.
Definition exB : dag nat (nat * nat) nat := mkDag 0
  [ mkEdge 0 1 (c 3) (Some (5, 0)) 0; mkEdge 0 1 (c 0) (Some (5, 1)) 1;
    mkEdge 1 2 (c 5) None 2; mkEdge 1 2 (c 1) (Some (7, 1)) 3 ] 2.
Definition ex_inputs := [(exA, 0); (exB, 0)].
Definition ex_convert (i : dag nat (nat * nat) nat * nat) :=
  convert_dag_to_packed Nat.leb Nat.leb (fst i) (snd i) (Some [0; 1]).
Definition ex_converted := match mapM ex_convert ex_inputs with Ok l => l | Err _ => [] end.
Definition no_system : @system nat nat nat nat := mkSystem (mkSys [] [] [] [] 0 0) [] [] [].
Definition ex_system := match make_system Nat.leb ex_converted None with Ok s => s | Err _ => no_system end.

Lemma nat_order : total_order Nat.leb.
Proof. constructor; intros *; rewrite ?Nat.leb_le; lia. Qed.
Lemma ex_makes : make_system Nat.leb ex_converted None = Ok ex_system.
Proof. vm_compute. reflexivity. Qed.
Lemma ex_packed : Forall2 (packed_input Nat.leb Nat.leb (Some [0; 1])) ex_inputs ex_converted.
Proof.
  assert (E : mapM ex_convert ex_inputs = Ok ex_converted) by (vm_compute; reflexivity).
  apply mapM_ok_iff in E. unfold ex_inputs in *.
  assert (H : forall i : dag nat (nat * nat) nat * nat, List.In i ex_inputs ->
    topological (edges (fst i)) /\ (forall e, List.In e (edges (fst i)) -> ecost e <> NaN) /\
    exists k, assigns (fst i) k).
  { intros i Hi. unfold ex_inputs in Hi. destruct Hi as [<-|[<-|[]]]; cbn [fst snd]; splits.
    all: try (exists 5; eexists; exists 0; split; [left; reflexivity|reflexivity]).
    all: try (intros e Hin; repeat (destruct Hin as [<-|Hin]; [cbn; discriminate|]); destruct Hin).
    all: split; cbn; [repeat split; intros e' Hin; repeat (destruct Hin as [<-|Hin]; [cbn; discriminate|]); destruct Hin|].
    all: intros e Hin; repeat (destruct Hin as [<-|Hin]; [cbn; discriminate|]); destruct Hin. }
  fold ex_inputs in *. revert H. generalize ex_converted as l, ex_inputs as is, E. clear.
  intros l is E. induction E as [|i cc is l Hi E IH]; intros H; constructor.
  - destruct (H i) as [H1 [H2 H3]]; [simpl; auto|]. unfold packed_input. splits; auto.
  - apply IH. intros. apply H. simpl; auto.
Qed.
Lemma ex_ok : system_ok ex_system /\ nearly_conserved (data ex_system) /\ 2 <= num_keys (data ex_system).
Proof.
  assert (HO : Some [0; 1] <> Some []) by discriminate.
  splits.
  - exact (made_system_ok Nat.leb Nat.leb _ _ _ ex_packed HO nat_order None ex_system ex_makes I).
  - intros v a Hv Ha. left.
    exact (proj2 (make_system_ok Nat.leb Nat.leb _ _ _ ex_packed HO nat_order None ex_system ex_makes I) v a Hv Ha).
  - vm_compute. lia.
Qed.
(** Key 5 gets 0 and key 7 gets 1: cost 0 + 1 in the first DAG and 3 + 1 in the second. *)
Definition ex_A (k : nat) : option nat := match k with 5 => Some 0 | 7 => Some 1 | _ => None end.
Definition ex_paths : list (list (edge nat (nat * nat) nat)) :=
  [[mkEdge 0 1 (c 0) (Some (5, 0)) 0; mkEdge 1 2 (c 1) (Some (7, 1)) 3];
   [mkEdge 0 1 (c 3) (Some (5, 0)) 0; mkEdge 1 2 (c 1) (Some (7, 1)) 3]].
Ltac walk :=
  match goal with
  | |- is_path _ _ [] _ => apply path_nil
  | |- is_path ?es _ (?e :: _) _ => apply (path_cons es e); [simpl; tauto|cbn [dest]; walk]
  end.
Lemma ex_agreeing : agreeing ex_inputs ex_A ex_paths /\ total_cost ex_paths = c 5.
Proof.
  split; [|vm_compute; reflexivity].
  repeat constructor; cbn [fst snd].
  all: try (unfold complete_path; cbn; walk).
  all: intros k [e [v [Hin Ea]]]; cbn in Hin;
    repeat (destruct Hin as [<-|Hin]; [cbn in Ea; injection Ea as <- <- || discriminate Ea; reflexivity|]); destruct Hin.
Qed.
Lemma ex_solution : exists x ps, solution (data ex_system) x ps /\ solution_cost (data ex_system) x ps = c 5.
Proof.
  assert (HO : Some [0; 1] <> Some []) by discriminate.
  destruct ex_agreeing as [HA Hc].
  destruct (agreeing_solution Nat.leb Nat.leb _ _ _ ex_packed nat_order None ex_system ex_makes ex_A ex_paths _ HA Hc)
    as [x [ps [HS [E _]]]].
  exists x, ps. split; auto. unfold solution_cost. rewrite E.
  destruct (make_system_ok Nat.leb Nat.leb _ _ _ ex_packed HO nat_order None ex_system ex_makes I) as [O _].
  assert (E0 : over (num_keys (data ex_system)) (fun v => extra_at (data ex_system) v (nth v x 0)) = Fin 0%Qc).
  { unfold over. apply ConvertApi.csum_zero. intros y Hy. apply in_map_iff in Hy as [v [<- Hv]]. apply in_seq in Hv.
    apply (system_extra Nat.leb Nat.leb _ _ _ ex_packed nat_order None ex_system ex_makes); [lia|].
    eapply solution_values; eauto. lia. }
  rewrite E0. apply cadd_0_r.
Qed.

(** ** C14.  Weak duality: every objective reported by the solver is at most the
    cost of every consistent solution. *)
Theorem C14_objectives_are_lower_bounds :
  forall s fuel clock tol res s', sys_ok s -> nearly_conserved s ->
    solve_system_with_sweeps fuel clock tol s = Some (Ok (res, s')) ->
    forall x ps b, solution s x ps -> In b (objective_at_step res) ->
    b <> NaN /\ cle b (solution_cost s x ps).
Proof.
  intros s fuel clock tol res s' O NC E x ps b HS Hb.
  destruct (solve_spec s clock tol fuel _ O NC E) as [res' [s1 [E1 [_ [A _]]]]].
  assert (res' = res /\ s1 = s') as [-> ->] by (split; congruence).
  destruct (dual_exists s O) as [b0 D0]. apply In_nth_error in Hb as [i Hi].
  destruct (averaging_facts s _ _ s' b0 O NC D0 A) as [O1 [NC1 [R [Asc D1]]]].
  destruct (Asc i b Hi) as [Nb [_ Hup]]. split; auto.
  assert (HS1 : solution s' x ps) by now apply (repriced_solution s).
  pose proof (weak_duality s' x ps _ O1 NC1 HS1 D1) as W. rewrite (repriced_cost s s' x ps R) in W.
  eapply cle_trans; [|exact W].
  destruct (objective_at_step res) as [|z cs] using rev_ind; [destruct i; discriminate|]. clear IHcs.
  rewrite last_last. apply (Hup (length cs)).
  - assert (i < length (cs ++ [z])) by (apply nth_error_Some; congruence). rewrite app_length in *. simpl in *. lia.
  - rewrite nth_error_app2, Nat.sub_diag; auto.
Qed.
(** The same in terms of the DAGs a system was built from: every reported
    objective is at most the total cost of any choice of complete paths, one
    per DAG, that agree on every key. *)
Theorem C14_lower_bounds_for_agreeing_paths :
  forall (St Ky Vl In : Type) (sd : EqDec St) (kd : EqDec Ky) (vd : EqDec Vl) kle vle ordering
         (inputs : list (dag St (Ky * Vl) In * Vl)) converted proportions (sy : @system St Ky Vl In),
    total_order kle -> ordering <> Some [] ->
    Forall2 (packed_input kle vle ordering) inputs converted ->
    match proportions with
    | Some w => length w = length converted /\ forall x, List.In x w -> (0 < x)%Qc
    | None => True end ->
    make_system kle converted proportions = Ok sy ->
    forall fuel clock tol res s',
    solve_system_with_sweeps fuel clock tol (data sy) = Some (Ok (res, s')) ->
    forall A qs b, agreeing inputs A qs -> List.In b (objective_at_step res) -> cle b (total_cost qs).
Proof.
  intros St Ky Vl In sd kd vd kle vle ordering inputs converted proportions sy Tk HO HI HW HM fuel clock tol res s' E
    A qs b HA Hb.
  destruct (make_system_ok kle vle ordering inputs converted HI HO Tk proportions sy HM HW) as [O C].
  assert (NC : nearly_conserved (data sy)) by (intros v a Hv Ha; left; auto).
  assert (Nb : b <> NaN).
  { destruct (solve_spec (data sy) clock tol fuel _ O NC E) as [res' [s1 [E1 [_ [Av _]]]]].
    assert (res' = res /\ s1 = s') as [-> ->] by (split; congruence).
    destruct (dual_exists (data sy) O) as [b0 D0]. apply In_nth_error in Hb as [i Hi].
    destruct (averaging_facts (data sy) _ _ s' b0 O NC D0 Av) as [_ [_ [_ [Asc _]]]]. now destruct (Asc i b Hi). }
  destruct (total_cost qs) as [y| |] eqn:Ey.
  - destruct (agreeing_solution kle vle ordering inputs converted HI Tk proportions sy HM A qs y HA Ey)
      as [x [ps [HS [Ec _]]]].
    destruct (C14_objectives_are_lower_bounds (data sy) fuel clock tol res s' O NC E x ps b HS Hb) as [_ W].
    replace (solution_cost (data sy) x ps) with (Fin y) in W; auto.
    unfold solution_cost. rewrite Ec.
    assert (E0 : over (num_keys (data sy)) (fun v => extra_at (data sy) v (nth v x 0)) = Fin 0%Qc).
    { unfold over. apply ConvertApi.csum_zero. intros z Hz. apply in_map_iff in Hz as [v [<- Hv]]. apply in_seq in Hv.
      apply (system_extra kle vle ordering inputs converted HI Tk proportions sy HM); [lia|].
      eapply solution_values; eauto. lia. }
    rewrite E0. symmetry. apply cadd_0_r.
  - now apply cle_Inf.
  - exfalso. revert Ey. unfold total_cost, agreeing in *. clear -HA HI.
    assert (Hq : forall q, List.In q qs -> exists i, List.In i inputs /\ complete_path (fst i) q).
    { intros q Hq. apply In_nth_error in Hq as [j Ej].
      destruct (nth_error inputs j) as [i|] eqn:Ei.
      - exists i. split; [eapply nth_error_In; eauto|]. now apply (Forall2_nth _ _ _ HA j i q).
      - apply nth_error_None in Ei. pose proof (PackedTables.F2_length _ _ _ HA). apply nth_error_lt in Ej. lia. }
    assert (Hn : forall q, List.In q qs -> path_cost q <> NaN).
    { intros q Hqi. destruct (Hq q Hqi) as [i [Hi Hp]]. apply In_nth_error in Hi as [j Ei].
      destruct (nth_error converted j) as [cc|] eqn:Ec.
      - destruct (Forall2_nth _ _ _ HI j i cc Ei Ec) as [_ [NN _]]. unfold complete_path in Hp.
        clear -NN Hp. revert Hp. generalize (initial_state (fst i)) as s0, (final_state (fst i)) as t0.
        induction q as [|e q IH]; intros s0 t0 Hp; unfold path_cost; cbn [map csum fold_right]; [discriminate|].
        inversion Hp; subst. apply cadd_notnan; [now apply NN|]. eapply IH; eauto.
      - apply nth_error_None in Ec. pose proof (PackedTables.F2_length _ _ _ HI). apply nth_error_lt in Ei. lia. }
    clear -Hn. induction qs as [|q qs IH]; cbn [map csum fold_right]; [discriminate|].
    intros E. assert (Hc : cadd (path_cost q) (csum (map (fun q => path_cost q) qs)) <> NaN); [|now apply Hc].
    apply cadd_notnan; [apply Hn; simpl; auto|]. intros E'. apply IH; auto. intros; apply Hn; simpl; auto.
Qed.
Example C14_example :
  exists res s', solve_system_with_sweeps 5 (fun _ => false) (Q2Qc (1#10)) (data ex_system) = Some (Ok (res, s')) /\
    In (c 4) (objective_at_step res) /\ agreeing ex_inputs ex_A ex_paths /\ total_cost ex_paths = c 5.
Proof.
  destruct (solve_system_with_sweeps 5 (fun _ => false) (Q2Qc (1#10)) (data ex_system)) as [[[res s']|]|] eqn:E;
    [|exfalso; revert E; vm_compute; discriminate..].
  exists res, s'. splits; try apply ex_agreeing; auto.
  replace (objective_at_step res) with
    (match solve_system_with_sweeps 5 (fun _ => false) (Q2Qc (1#10)) (data ex_system) with
     | Some (Ok (r, _)) => objective_at_step r | _ => [] end) by now rewrite E.
  vm_compute. tauto.
Qed.
(** [sys_ok] asks every DAG to have a variable, and this is needed: a DAG
    without any makes the very first update fail. *)
Definition exE : dag nat (nat * nat) nat := mkDag 0 [mkEdge 0 1 (c 1) None 0] 1.
Theorem C14_no_variables_refuted :
  exists converted sy,
    mapM ex_convert [(exA, 0); (exE, 0)] = Ok converted /\
    make_system Nat.leb converted None = Ok sy /\
    solve_system_with_sweeps 3 (fun _ => false) (Q2Qc (1#10)) (data sy) = Some (Err AssertionError).
Proof.
  destruct (mapM ex_convert [(exA, 0); (exE, 0)]) as [converted|] eqn:E1; [|exfalso; revert E1; vm_compute; discriminate].
  destruct (make_system Nat.leb converted None) as [sy|] eqn:E2;
    [|exfalso; revert E2; vm_compute in E1; injection E1 as <-; vm_compute; discriminate].
  exists converted, sy. splits; auto. vm_compute in E1. injection E1 as <-. vm_compute in E2. injection E2 as <-.
  vm_compute. reflexivity.
Qed.

(** ** C15.  An update never lowers the dual objective, and the value it returns
    is the new one. *)
Theorem C15_update_never_lowers_dual :
  forall s v b, sys_ok s -> nearly_conserved s -> v < num_keys s -> dual_objective s b ->
    exists b' s', min_marginal_average s v = Ok (b', s') /\ dual_objective s' b' /\ cle b b'.
Proof.
  intros s v b O NC Hv D. destruct (average_step s v O NC Hv) as [b' [s' [E [_ [_ [D' [Hle _]]]]]]].
  exists b', s'. splits; auto.
Qed.
(** Hence the objectives a solver run reports never decrease, and the last one
    is the dual objective of the system it leaves behind. *)
Theorem C15_reported_objectives_ascend :
  forall s fuel clock tol res s', sys_ok s -> nearly_conserved s ->
    solve_system_with_sweeps fuel clock tol s = Some (Ok (res, s')) ->
    (forall i j a b, i <= j -> nth_error (objective_at_step res) i = Some a ->
       nth_error (objective_at_step res) j = Some b -> cle a b) /\
    (forall b0, dual_objective s b0 -> dual_objective s' (last (objective_at_step res) b0)).
Proof.
  intros s fuel clock tol res s' O NC E.
  destruct (solve_spec s clock tol fuel _ O NC E) as [res' [s1 [E1 [_ [A _]]]]].
  assert (res' = res /\ s1 = s') as [-> ->] by (split; congruence). split.
  - intros i j a b Hij Ha Hb. destruct (dual_exists s O) as [b0 D0].
    destruct (averaging_facts s _ _ s' b0 O NC D0 A) as [_ [_ [_ [Asc _]]]].
    destruct (Asc i a Ha) as [_ [_ Hup]]. eapply Hup; eauto.
  - intros b0 D0. now destruct (averaging_facts s _ _ s' b0 O NC D0 A) as [_ [_ [_ [_ D1]]]].
Qed.
(** The update is an equalisation: in the example the objective rises to 3 and then to 4. *)
Example C15_example :
  sys_ok (data ex_system) /\ nearly_conserved (data ex_system) /\ 0 < num_keys (data ex_system) /\
  (exists b, dual_objective (data ex_system) b) /\
  match min_marginal_average (data ex_system) 0 with
  | Ok (b', s1) => match min_marginal_average s1 1 with Ok (b2, _) => (b', b2) = (c 3, c 4) | _ => False end
  | _ => False end.
Proof.
  destruct ex_ok as [O [NC K]]. splits; auto.
  - apply O.
  - lia.
  - apply dual_exists. apply O.
  - vm_compute. reflexivity.
Qed.

(** ** C16.  Conservation.  After any sequence of calls on a freshly made system
    the penalties of every variable and value sum, over the DAGs, to its extra
    unary cost -- except for values that the DAGs rule out: there every DAG
    concerned charges infinity, and no solution of finite cost uses the value. *)
Theorem C16_penalties_conserved :
  forall (St Ky Vl In : Type) (sd : EqDec St) (kd : EqDec Ky) (vd : EqDec Vl)
         (sy sy' : @system St Ky Vl In) os,
    system_ok sy -> nearly_conserved (data sy) -> history sy os sy' ->
    forall v a, v < num_keys (data sy') -> a < num_values (data sy') ->
      pen_sum (data sy') v a = extra_at (data sy') v a \/
      ((forall j, j < num_dags (data sy') -> local (data sy') v j <> None -> pen_at (data sy') j v a = Inf) /\
       (forall x ps, solution (data sy') x ps -> nth v x 0 = a -> solution_cost (data sy') x ps = Inf)).
Proof.
  intros St Ky Vl In sd kd vd sy sy' os O NC Hh v a Hv Ha.
  destruct (history_keeps sy os sy' O NC Hh) as [_ [NC' _]].
  destruct (NC' v a Hv Ha) as [C|[C1 [_ C3]]]; [now left|right; auto].
Qed.
(** In particular it holds exactly wherever a finite solution passes. *)
Corollary C16_conserved_on_solutions :
  forall (St Ky Vl In : Type) (sd : EqDec St) (kd : EqDec Ky) (vd : EqDec Vl)
         (sy sy' : @system St Ky Vl In) os,
    system_ok sy -> nearly_conserved (data sy) -> history sy os sy' ->
    forall x ps q, solution (data sy') x ps -> solution_cost (data sy') x ps = Fin q ->
    forall v, v < num_keys (data sy') -> pen_sum (data sy') v (nth v x 0) = extra_at (data sy') v (nth v x 0).
Proof.
  intros St Ky Vl In sd kd vd sy sy' os O NC Hh x ps q HS Hq v Hv.
  destruct (history_keeps sy os sy' O NC Hh) as [O' _].
  assert (Ha : nth v x 0 < num_values (data sy')) by (eapply solution_values; eauto; apply O').
  destruct (C16_penalties_conserved _ _ _ _ _ _ _ sy sy' os O NC Hh v (nth v x 0) Hv Ha) as [C|[_ C]]; auto.
  rewrite (C x ps HS eq_refl) in Hq. discriminate.
Qed.
(** Freshly made systems qualify, with exact conservation. *)
Theorem C16_fresh_system :
  forall (St Ky Vl In : Type) (sd : EqDec St) (kd : EqDec Ky) (vd : EqDec Vl) kle vle ordering
         (inputs : list (dag St (Ky * Vl) In * Vl)) converted proportions (sy : @system St Ky Vl In),
    total_order kle -> ordering <> Some [] ->
    Forall2 (packed_input kle vle ordering) inputs converted ->
    match proportions with
    | Some w => length w = length converted /\ forall x, List.In x w -> (0 < x)%Qc
    | None => True end ->
    make_system kle converted proportions = Ok sy ->
    system_ok sy /\ nearly_conserved (data sy) /\
    forall v a, v < num_keys (data sy) -> a < num_values (data sy) ->
      pen_sum (data sy) v a = Fin 0%Qc /\ extra_at (data sy) v a = Fin 0%Qc.
Proof.
  intros St Ky Vl In sd kd vd kle vle ordering inputs converted proportions sy Tk HO HI HW HM.
  destruct (make_system_ok kle vle ordering inputs converted HI HO Tk proportions sy HM HW) as [O C].
  splits.
  - exact (made_system_ok kle vle ordering inputs converted HI HO Tk proportions sy HM HW).
  - intros v a Hv Ha. left. auto.
  - intros v a Hv Ha.
    assert (E : extra_at (data sy) v a = Fin 0%Qc)
      by now apply (system_extra kle vle ordering inputs converted HI Tk proportions sy HM).
    split; auto. rewrite <- E. now apply C.
Qed.
(** A history of all five operations on the example. *)
Definition ex_ops : list (operation nat nat) :=
  [Average 0; BreakSymmetry (fun _ => [c (1#100); c (2#100)]); Constrain [(7, 1)] (c 2);
   Sweep 6 (fun _ => false) (Q2Qc (1#10)); Commit FORWARD (Some (c 100)) 1 (Q2Qc (1#100))].
Definition ex_call (o : operation nat nat) (sy : @system nat nat nat nat) : @system nat nat nat nat :=
  match o with
  | Average v => match min_marginal_average (data sy) v with Ok (_, s) => with_data sy s | _ => no_system end
  | Sweep f k t => match solve_system_with_sweeps f k t (data sy) with Some (Ok (_, s)) => with_data sy s | _ => no_system end
  | BreakSymmetry n => match break_symmetry (data sy) n with Ok s => with_data sy s | _ => no_system end
  | Constrain cs p => match constrain_system sy cs p with Ok s => s | _ => no_system end
  | Commit d t st ep => match partially_commit (data sy) d t st ep with Ok (_, s) => with_data sy s | _ => no_system end
  end.
Definition ex_end := fold_left (fun sy o => ex_call o sy) ex_ops ex_system.
Definition ex_returns (o : operation nat nat) (sy : @system nat nat nat nat) : bool :=
  match o with
  | Average v => match min_marginal_average (data sy) v with Ok _ => true | _ => false end
  | Sweep f k t => match solve_system_with_sweeps f k t (data sy) with Some (Ok _) => true | _ => false end
  | BreakSymmetry n => match break_symmetry (data sy) n with Ok _ => true | _ => false end
  | Constrain cs p => match constrain_system sy cs p with Ok _ => true | _ => false end
  | Commit d t st ep => match partially_commit (data sy) d t st ep with Ok _ => true | _ => false end
  end.
Lemma ex_calls o sy : ex_returns o sy = true -> call sy o (ex_call o sy).
Proof.
  destruct o as [v|f k t|n|cs p|d t st ep]; cbn [ex_returns ex_call].
  - destruct (min_marginal_average (data sy) v) as [[b s]|] eqn:E; [|discriminate]. intros _. eapply call_average; eauto.
  - destruct (solve_system_with_sweeps f k t (data sy)) as [[[b s]|]|] eqn:E; try discriminate. intros _. eapply call_sweep; eauto.
  - destruct (break_symmetry (data sy) n) as [s|] eqn:E; [|discriminate]. intros _. eapply call_symmetry; eauto.
  - destruct (constrain_system sy cs p) as [s|] eqn:E; [|discriminate]. intros _. eapply call_constrain; eauto.
  - destruct (partially_commit (data sy) d t st ep) as [[b s]|] eqn:E; [|discriminate]. intros _. eapply call_commit; eauto.
Qed.
Example C16_example : system_ok ex_system /\ nearly_conserved (data ex_system) /\ history ex_system ex_ops ex_end.
Proof.
  destruct ex_ok as [O [NC _]]. splits; auto. unfold ex_end, ex_ops. cbn [fold_left].
  eapply history_cons; [exact I|apply ex_calls; vm_compute; reflexivity|].
  eapply history_cons; [|apply ex_calls; vm_compute; reflexivity|].
  { cbn [sensible]. intros v _. split; [vm_compute; reflexivity|]. repeat constructor; discriminate. }
  eapply history_cons; [cbn; discriminate|apply ex_calls; vm_compute; reflexivity|].
  eapply history_cons; [exact I|apply ex_calls; vm_compute; reflexivity|].
  eapply history_cons; [|apply ex_calls; vm_compute; reflexivity|apply history_nil].
  cbn [sensible]. split; [vm_compute; discriminate|vm_compute; lia].
Qed.
(** Without the exception it is false: after one update of a system whose first
    DAG never gives key 5 the value 1, the penalties of 5 := 1 sum to infinity
    although the extra unary cost is 0. *)
Definition exA0 : dag nat (nat * nat) nat := mkDag 0
  [ mkEdge 0 1 (c 0) (Some (5, 0)) 0; mkEdge 1 2 (c 0) (Some (7, 0)) 2 ] 2.
Theorem C16_strict_refuted :
  exists converted sy b s',
    mapM ex_convert [(exA0, 0); (exB, 0)] = Ok converted /\
    make_system Nat.leb converted None = Ok sy /\
    min_marginal_average (data sy) 0 = Ok (b, s') /\
    pen_sum (data sy) 0 1 = extra_at (data sy) 0 1 /\ extra_at s' 0 1 = Fin 0%Qc /\ pen_sum s' 0 1 = Inf.
Proof.
  destruct (mapM ex_convert [(exA0, 0); (exB, 0)]) as [converted|] eqn:E1; [|exfalso; revert E1; vm_compute; discriminate].
  destruct (make_system Nat.leb converted None) as [sy|] eqn:E2;
    [|exfalso; revert E2; vm_compute in E1; injection E1 as <-; vm_compute; discriminate].
  vm_compute in E1. injection E1 as <-. vm_compute in E2. injection E2 as <-.
  match goal with |- exists converted sy b s', Ok ?x = _ /\ _ => exists x end.
  eexists. do 2 eexists. splits; [reflexivity|vm_compute; reflexivity|vm_compute; reflexivity|vm_compute; reflexivity..].
Qed.

(** ** C17.  Greedy extraction returns a complete assignment, without touching
    the caller's system.  A finite reported cost is the cost of a solution with
    exactly that assignment, the cheapest one, and is at least the dual bound. *)
Theorem C17_greedy_cost_is_true :
  forall s dir, sys_ok s -> nearly_conserved s -> 0 < num_keys s ->
    exists x k, greedy_extract s dir = Ok (map Some x, k) /\ length x = num_keys s /\ k <> NaN /\
      forall q, k = Fin q ->
        (exists ps, solution s x ps /\ solution_cost s x ps = Fin q) /\
        (forall ps, solution s x ps -> cle (Fin q) (solution_cost s x ps)) /\
        (forall b, dual_objective s b -> cle b (Fin q)).
Proof.
  intros s dir O NC Hk. destruct (greedy_extract_spec s dir O NC Hk) as [x [k [E [L [N [_ H]]]]]].
  exists x, k. splits; auto. intros q Hq. destruct (H q Hq) as [ps [HS [Ec Hm]]]. splits; eauto.
  intros b D. rewrite <- Ec. now apply weak_duality.
Qed.
(** In terms of the original DAGs, after any history of calls. *)
Theorem C17_greedy_cost_of_agreeing_paths :
  forall (St Ky Vl In : Type) (sd : EqDec St) (kd : EqDec Ky) (vd : EqDec Vl) kle vle ordering
         (inputs : list (dag St (Ky * Vl) In * Vl)) converted proportions (sy sy' : @system St Ky Vl In) os dir x q,
    total_order kle -> ordering <> Some [] ->
    Forall2 (packed_input kle vle ordering) inputs converted ->
    match proportions with
    | Some w => length w = length converted /\ forall x, List.In x w -> (0 < x)%Qc
    | None => True end ->
    make_system kle converted proportions = Ok sy -> NoDup (sys_values sy) ->
    history sy os sy' -> greedy_extract (data sy') dir = Ok (map Some x, Fin q) ->
    let extras := over (num_keys (data sy')) (fun v => extra_at (data sy') v (nth v x 0)) in
    exists asg qs, assignments_from_assignment_vector sy' x = Ok asg /\ map fst asg = sys_keys sy' /\
      agreeing inputs (fun k => assoc k asg) qs /\ cadd (total_cost qs) extras = Fin q /\
      forall qs' y, agreeing inputs (fun k => assoc k asg) qs' -> total_cost qs' = Fin y ->
        cle (Fin q) (cadd (total_cost qs') extras).
Proof.
  intros St Ky Vl In sd kd vd kle vle ordering inputs converted proportions sy sy' os dir x q Tk HO HI HW HM Hnv Hh Eg extras.
  pose proof (made_system_ok kle vle ordering inputs converted HI HO Tk proportions sy HM HW) as OS.
  destruct (make_system_ok kle vle ordering inputs converted HI HO Tk proportions sy HM HW) as [O C].
  assert (NC : nearly_conserved (data sy)) by (intros v a Hv Ha; left; auto).
  destruct (system_shape kle vle ordering inputs converted HI Tk proportions sy HM) as [_ [_ [_ [_ HK]]]].
  destruct (history_keeps sy os sy' OS NC Hh) as [O' [NC' V]]. destruct V as [A [K [Vl' Cv]]].
  assert (HK' : 0 < num_keys (data sy')) by (destruct A as [-> _]; auto).
  destruct (greedy_extract_spec (data sy') dir (sk_ok _ O') NC' HK') as [x' [k [E [L [_ [Hr H]]]]]].
  assert (Ex : x' = x).
  { assert (Em : map Some x' = map Some x) by congruence. clear -Em. revert x Em.
    induction x' as [|a x' IH]; intros [|b x] Em; try discriminate; auto.
    cbn in Em. injection Em as -> Em. f_equal; auto. }
  subst x'. assert (k = Fin q) by congruence. subst k. destruct (H q eq_refl) as [ps [HS [Ec Hm]]].
  assert (HS0 : solution (data sy) x ps) by now apply (alike_solution _ _ _ _ A).
  destruct (solution_agreeing kle vle ordering inputs converted HI HO Tk proportions sy HM HW x ps HS0)
    as [asg [qs [Ea [Ef [Hag Ecost]]]]].
  assert (Eas : assignments_from_assignment_vector sy' x = Ok asg).
  { rewrite <- Ea. unfold assignments_from_assignment_vector. now rewrite K, Vl'. }
  exists asg, qs. splits; auto; [congruence| |].
  - unfold total_cost. rewrite Ecost. exact Ec.
  - intros qs' y Hag' Ey.
    destruct (agreeing_solution kle vle ordering inputs converted HI Tk proportions sy HM _ qs' y Hag' Ey)
      as [x' [ps' [HS' [Ecp Hg]]]].
    assert (Ex : x' = x).
    { pose proof HS' as [L' _]. destruct (system_shape kle vle ordering inputs converted HI Tk proportions sy HM) as [EK [EV _]].
      destruct (assignments_spec sy x) as [asg' [Ea' [_ Has]]].
      { apply OS. } { pose proof HS0 as [L0 _]. congruence. }
      { rewrite Forall_forall. intros a Ha. apply In_nth with (d := 0) in Ha as [v [Hv <-]]. rewrite <- EV.
        eapply solution_values; eauto. destruct HS0 as [-> _] in Hv. exact Hv. }
      assert (asg' = asg) by congruence. subst asg'.
      apply nth_ext with (d := 0) (d' := 0); [destruct HS0; congruence|]. intros i Hi.
      rewrite L', EK in Hi. destruct (nth_error (sys_keys sy) i) as [kk|] eqn:Ek; [|apply nth_error_None in Ek; lia].
      destruct (Hg kk) as [vv [G1 [j [G2 G3]]]]; [eapply nth_error_In; eauto|].
      apply Has in G1 as [j' [G4 G5]].
      assert (j = i /\ j' = i) as [-> ->].
      { split; (eapply (proj1 (NoDup_nth_error (sys_keys sy))); [apply OS|eapply nth_error_lt; eauto|congruence]). }
      eapply (proj1 (NoDup_nth_error (sys_values sy))); auto; [eapply nth_error_lt; eauto|congruence]. }
    subst x'. rewrite Ey.
    assert (HS1 : solution (data sy') x ps') by now apply (alike_solution _ _ _ _ A).
    pose proof (Hm ps' HS1) as W. unfold solution_cost in W. rewrite Ecp in W. exact W.
Qed.
Example C17_example :
  match greedy_extract (data ex_system) FORWARD with
  | Ok (x, Fin q) => x = [Some 1; Some 1] /\ cltb (c 4) (Fin q) = false /\ cltb (Fin q) (c 4) = false
  | _ => False end /\
  history ex_system [] ex_system /\ NoDup (sys_values ex_system).
Proof.
  splits; [vm_compute; auto|constructor|].
  replace (sys_values ex_system) with [0; 1] by (vm_compute; reflexivity).
  repeat constructor; cbn; intros C; repeat destruct C as [C|C]; try discriminate C; auto.
Qed.

(** ** C18.  Constraining adds the penalty to every solution once per constraint
    its assignment does not meet, and nothing else; an unknown key or value raises. *)
Theorem C18_constraints_charge_violations :
  forall (St Ky Vl In : Type) (sd : EqDec St) (kd : EqDec Ky) (vd : EqDec Vl)
         (sy : @system St Ky Vl In) constraints penalty,
    system_ok sy -> NoDup (sys_values sy) -> penalty <> NaN -> Forall (known sy) constraints ->
    exists sy', constrain_system sy constraints penalty = Ok sy' /\
      sys_keys sy' = sys_keys sy /\ sys_values sy' = sys_values sy /\
      (forall x ps, solution (data sy') x ps <-> solution (data sy) x ps) /\
      forall x ps, solution (data sy) x ps ->
        exists charges,
          Forall2 (fun kv charge => (gives sy x (fst kv) (snd kv) -> charge = Fin 0%Qc) /\
                                    (~ gives sy x (fst kv) (snd kv) -> charge = penalty)) constraints charges /\
          solution_cost (data sy') x ps = cadd (solution_cost (data sy) x ps) (csum charges).
Proof.
  intros St Ky Vl In sd kd vd sy cs penalty O Hn Hp Hk.
  destruct (constrain_system_spec cs penalty Hp sy O Hk) as [sy' [E [O' [A [K [V [_ [_ HC]]]]]]]].
  exists sy'. splits; auto.
  - intros x ps. now apply alike_solution.
  - intros x ps HS. exists (map (pays sy penalty x) cs). split; [|now apply HC].
    clear -Hk O Hn. induction Hk as [|[k v] cs [Hk1 Hk2] Hk IH]; constructor; auto.
    cbn [fst snd]. now apply pays_gives.
Qed.
Theorem C18_unknown_raises :
  forall (St Ky Vl In : Type) (sd : EqDec St) (kd : EqDec Ky) (vd : EqDec Vl)
         (sy : @system St Ky Vl In) constraints penalty k v,
    system_ok sy -> penalty <> NaN -> List.In (k, v) constraints ->
    ~ List.In k (sys_keys sy) \/ ~ List.In v (sys_values sy) ->
    constrain_system sy constraints penalty = Err KeyError.
Proof.
  intros St Ky Vl In sd kd vd sy cs penalty k v O Hp Hi Hk. apply constrain_system_unknown; auto.
  intros HF. rewrite Forall_forall in HF. destruct (HF _ Hi) as [H1 H2]. cbn in *. tauto.
Qed.
Example C18_example :
  system_ok ex_system /\ Forall (known ex_system) [(7, 0); (5, 1)] /\ ~ List.In 6 (sys_keys ex_system) /\
  (exists x ps, solution (data ex_system) x ps /\ gives ex_system x 7 1 /\ ~ gives ex_system x 7 0).
Proof.
  destruct ex_ok as [O _].
  assert (Ek : sys_keys ex_system = [5; 7]) by (vm_compute; reflexivity).
  assert (Evv : sys_values ex_system = [0; 1]) by (vm_compute; reflexivity).
  split; [exact O|]. splits.
  - constructor; [|constructor; [|constructor]]; unfold known; rewrite Ek, Evv; cbn; tauto.
  - vm_compute. intros C; repeat destruct C as [C|C]; try discriminate C; auto.
  - destruct ex_agreeing as [HA Hc].
    destruct (agreeing_solution Nat.leb Nat.leb _ _ _ ex_packed nat_order None ex_system ex_makes ex_A ex_paths _ HA Hc)
      as [x [ps [HS [_ Hg]]]].
    exists x, ps. splits; auto.
    + destruct (Hg 7) as [v [Ev Hv]]; [vm_compute; tauto|]. vm_compute in Ev. injection Ev as <-. auto.
    + intros G0. destruct (Hg 7) as [v [Ev Hv]]; [vm_compute; tauto|]. vm_compute in Ev. injection Ev as <-.
      pose proof (gives_fun ex_system x 7 0 1 (sk_NoDup _ O) G0 Hv). discriminate.
Qed.

(** ** C19.  Decoding a vector lists every key of the system, in order, with the
    value the vector indexes; constraining the system by that map leaves the
    vector as the only one of finite cost, at an unchanged cost. *)
Theorem C19_vectors_decode :
  forall (St Ky Vl In : Type) (sd : EqDec St) (kd : EqDec Ky) (vd : EqDec Vl) (sy : @system St Ky Vl In) x,
    system_ok sy -> length x = length (sys_keys sy) -> Forall (fun a => a < length (sys_values sy)) x ->
    exists asg, assignments_from_assignment_vector sy x = Ok asg /\ map fst asg = sys_keys sy /\
      forall k v, assoc k asg = Some v <-> gives sy x k v.
Proof.
  intros St Ky Vl In sd kd vd sy x O Hl Hx. apply assignments_spec; auto. apply O.
Qed.
Theorem C19_constraining_reproduces :
  forall (St Ky Vl In : Type) (sd : EqDec St) (kd : EqDec Ky) (vd : EqDec Vl) (sy sy' : @system St Ky Vl In) x asg,
    system_ok sy -> NoDup (sys_values sy) ->
    length x = length (sys_keys sy) -> Forall (fun a => a < length (sys_values sy)) x ->
    assignments_from_assignment_vector sy x = Ok asg -> constrain_system sy asg Inf = Ok sy' ->
    (forall ps, solution (data sy) x ps -> solution_cost (data sy') x ps = solution_cost (data sy) x ps) /\
    (forall x' ps q, solution (data sy') x' ps -> solution_cost (data sy') x' ps = Fin q -> x' = x).
Proof.
  intros St Ky Vl In sd kd vd sy sy' x asg O Hn Hl Hx Ea Ec. now apply (constrain_reproduces sy x asg sy').
Qed.
Example C19_example :
  assignments_from_assignment_vector ex_system [1; 0] = Ok [(5, 1); (7, 0)] /\
  match constrain_system ex_system [(5, 1); (7, 0)] Inf with Ok _ => True | Err _ => False end.
Proof. split; vm_compute; auto. Qed.

(** ** C20.  The sweep solver terminates: if some solution has finite cost [B],
    the initial dual objective is [b] and the tolerance is positive, [2 + N]
    rounds suffice as soon as [N] tolerances cover [B - b]. *)
Theorem C20_terminates :
  forall s clock tol x ps B, sys_ok s -> nearly_conserved s -> (0 < tol)%Qc ->
    solution s x ps -> solution_cost s x ps = Fin B ->
    exists b N, dual_objective s (Fin b) /\ (B - b <= Q2Qc (inject_Z (Z.of_nat N)) * tol)%Qc /\
    exists res s', forall more, solve_system_with_sweeps (2 + N + more) clock tol s = Some (Ok (res, s')).
Proof.
  intros s clock tol x ps B O NC Ht HS EB. destruct (dual_exists s O) as [d D].
  pose proof (weak_duality s x ps d O NC HS D) as W. rewrite EB in W. pose proof (dual_notnan _ _ D) as Nd.
  destruct d as [b| |]; [|contradiction W|congruence]. destruct (enough_tolerances (B - b)%Qc tol Ht) as [N HN].
  exists b, N. splits; auto.
  destruct (solve_terminates s clock tol x ps B b N O NC Ht HS EB D HN) as [r Hr].
  destruct (solve_spec s clock tol _ _ O NC Hr) as [res [s' [-> _]]]. exists res, s'. intros more.
  unfold solve_system_with_sweeps in *. destruct (run_rounds (S (S N)) clock tol _) as [g|] eqn:E; [|discriminate].
  change (2 + N + more) with (S (S N) + more). rewrite (run_rounds_fuel clock tol (S (S N)) _ g more E). exact Hr.
Qed.
(** While the clock has not run out, it alternates forward and backward sweeps
    over the variables and stops after the first round trip in which no single
    step improves the objective by more than the tolerance. *)
Theorem C20_round_trips_until_plateau :
  forall s fuel tol res s', sys_ok s -> nearly_conserved s ->
    solve_system_with_sweeps fuel (fun _ => false) tol s = Some (Ok (res, s')) ->
    reached_plateau res = true /\
    exists blocks, objective_at_step res = concat blocks /\
      variable_at_step res = concat (repeat (round_trip (num_keys s)) (length blocks)) /\
      Forall (fun b => length b = length (round_trip (num_keys s))) blocks /\
      plateau tol None blocks.
Proof.
  intros s fuel tol res s' O NC E.
  destruct (solve_spec s (fun _ => false) tol fuel _ O NC E) as [res' [s1 [E1 [Hp [_ Hr]]]]].
  assert (res' = res) by congruence. subst res'. split; auto.
  now apply rounds_plateau in Hr.
Qed.
(** The soft timeout does not stop the solver after the sweep that exceeds it
    (the docstring's promise): even when the clock has run out from the start,
    a system with two or more variables is swept at least twice. *)
Theorem C20_timeout_refuted :
  forall s fuel tol res s', sys_ok s -> nearly_conserved s -> 2 <= num_keys s ->
    solve_system_with_sweeps fuel (fun _ => true) tol s = Some (Ok (res, s')) ->
    2 * (num_keys s - 1) <= length (variable_at_step res).
Proof.
  intros s fuel tol res s' O NC Hk E.
  destruct (solve_spec s (fun _ => true) tol fuel _ O NC E) as [res' [s1 [E1 [_ [A Hr]]]]].
  assert (res' = res /\ s1 = s') as [-> ->] by (split; congruence).
  destruct (dual_exists s O) as [b0 D0].
  destruct (averaging_facts s _ _ s' b0 O NC D0 A) as [_ [_ [_ [Asc _]]]].
  refine (rounds_two _ _ _ _ _ _ Hk _ Hr). rewrite Forall_forall. intros x Hx. apply In_nth_error in Hx as [i Hi].
  now destruct (Asc i x Hi).
Qed.
Example C20_example :
  (exists x ps, solution (data ex_system) x ps /\ solution_cost (data ex_system) x ps = c 5) /\
  match solve_system_with_sweeps 5 (fun _ => false) (Q2Qc (1#10)) (data ex_system),
        solve_system_with_sweeps 5 (fun _ => true) (Q2Qc (1#10)) (data ex_system) with
  | Some (Ok (r1, _)), Some (Ok (r2, _)) =>
      length (objective_at_sweep r1) = 4 /\ length (objective_at_sweep r2) = 2 /\ variable_at_step r1 = [0; 1; 0; 1]
  | _, _ => False end.
Proof. split; [apply ex_solution|vm_compute; auto]. Qed.

(** ** C54.  [partially_commit] always returns; it forbids values (infinite extra
    unary cost) and changes nothing else; every variable keeps an allowed
    value; a solution loses its cost only if it was worse than the best lower
    bound by more than the gap; and if every DAG still had a finite path
    before, it has one afterwards. *)
Theorem C54_partial_commitment_is_safe :
  forall s dir threshold strictness epsilon,
    sys_ok s -> nearly_conserved s -> 0 < num_keys s -> (0 <= strictness)%Qc ->
    exists status s' bound gap (forbidden : nat -> nat -> bool),
      partially_commit s dir threshold strictness epsilon = Ok (status, s') /\
      (* the bound is a valid one *)
      (forall b, dual_objective s b -> cle b bound) /\
      (forall x ps, solution s x ps -> cle bound (solution_cost s x ps)) /\
      (gap = NaN \/ cle (Fin 0%Qc) gap) /\
      (* what changes *)
      sys_ok s' /\ nearly_conserved s' /\ alike s s' /\
      (forall v a, v < num_keys s -> a < num_values s ->
         extra_at s' v a = if forbidden v a then Inf else extra_at s v a) /\
      (forall v, v < num_keys s -> exists a, a < num_values s /\ forbidden v a = false) /\
      (forall x ps, solution s x ps ->
         solution_cost s' x ps = solution_cost s x ps \/
         cltb (cadd bound gap) (solution_cost s x ps) = true) /\
      ((exists b, dual_objective s (Fin b)) -> exists b, dual_objective s' (Fin b)) /\
      (* the status *)
      (status = NEEDS_GREEDY_EXTRACT -> forall v a, v < num_keys s -> a < num_values s -> extra_at s' v a = extra_at s v a) /\
      (status = STUCK -> forall x ps, solution s x ps -> solution_cost s' x ps = solution_cost s x ps) /\
      (status = MADE_PARTIAL_ASSIGNMENT -> exists v a e, v < num_keys s /\ a < num_values s /\
         extra_at s v a = Fin e /\ extra_at s' v a = Inf) /\
      (forall t q, threshold = Some (Fin t) -> bound = Fin q -> status <> NEEDS_GREEDY_EXTRACT ->
         (q + epsilon < t)%Qc /\ gap = Fin ((if qc_ltb 0 (t - q) then t - q else 0) * strictness)%Qc).
Proof.
  intros s dir threshold strictness epsilon O NC Hk Hs.
  destruct (partially_commit_spec s dir threshold strictness epsilon O NC Hk Hs) as
    [status [s' [bound [gap [F [E [[B1 [B2 B3]] [Hg [C [S1 [S2 [S3 S4]]]]]]]]]]]].
  exists status, s', bound, gap, F. destruct C as [P NC' Hl Hlost Hf]. pose proof (fb_ok _ _ _ P) as O'. splits; auto.
  - eapply forbids_alike; eauto.
  - apply (fb_extra _ _ _ P).
  - intros x ps HS. destruct (Hlost x ps HS) as [H1|H1]; [left|right; auto].
    now apply (forbids_cost s s' F x ps O P HS).
  - intros Hb. apply feasible_dual; auto. apply Hf. apply feasible_dual; auto.
  - intros Es v a Hv Ha. specialize (S1 Es). unfold extra_at. now rewrite (u_extra _ _ _ _ S1).
  - intros Es. destruct (S3 Es) as [v [a [e [H1 [H2 [_ [H4 H5]]]]]]]. exists v, a, e. auto.
Qed.
Example C54_example :
  sys_ok (data ex_system) /\ nearly_conserved (data ex_system) /\ 0 < num_keys (data ex_system) /\
  match partially_commit (data ex_system) FORWARD (Some (c 100)) (Q2Qc (1#2)) 0 with
  | Ok (status, _) => status = STUCK | Err _ => False end /\
  match partially_commit (data ex_system) REVERSE (Some (c 4)) 0 0 with
  | Ok (status, _) => status = MADE_PARTIAL_ASSIGNMENT | Err _ => False end /\
  match partially_commit (data ex_system) REVERSE (Some (c 1)) 0 0 with
  | Ok (status, _) => status = NEEDS_GREEDY_EXTRACT | Err _ => False end.
Proof.
  destruct ex_ok as [O [NC K]].
  splits; [apply O|auto|lia|vm_compute; reflexivity|vm_compute; reflexivity|vm_compute; reflexivity].
Qed.

Print Assumptions C14_objectives_are_lower_bounds.
Print Assumptions C14_lower_bounds_for_agreeing_paths.
Print Assumptions C14_no_variables_refuted.
Print Assumptions C15_update_never_lowers_dual.
Print Assumptions C15_reported_objectives_ascend.
Print Assumptions C16_penalties_conserved.
Print Assumptions C16_conserved_on_solutions.
Print Assumptions C16_fresh_system.
Print Assumptions C16_strict_refuted.
Print Assumptions C17_greedy_cost_is_true.
Print Assumptions C17_greedy_cost_of_agreeing_paths.
Print Assumptions C18_constraints_charge_violations.
Print Assumptions C18_unknown_raises.
Print Assumptions C19_vectors_decode.
Print Assumptions C19_constraining_reproduces.
Print Assumptions C20_terminates.
Print Assumptions C20_round_trips_until_plateau.
Print Assumptions C20_timeout_refuted.
Print Assumptions C54_partial_commitment_is_safe.
