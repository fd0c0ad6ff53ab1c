(** Systems made of several DAGs one of which, the last, knows every key and can
    be followed by all the others: solving them always yields a solution.

    [rel d k ds] stands for "[d] allows the decisions [ds] at cost [k]". *)

From Coq Require Import List Bool Arith Lia ZArith Sorted QArith Qcanon.
From Verif Require Import Base Graph PackedDag PackedDagProofs PackedTables Convert ConvertLists ConvertProofs ConvertLayout
  ConvertPaths ConvertApi DualSolver DualSpec DualLists DualPaths DualOps DualInvariant DualSweeps DualUpdates DualGreedy
  DualApi DualRun DualFeasible Properties_Dual.
Import ListNotations.
Close Scope Qc_scope. Close Scope Q_scope. Open Scope nat_scope.

Section Dominated.
  Context {St Ky Vl In : Type} `{EqDec St} `{EqDec Ky} `{EqDec Vl}.
  Context (kle : Ky -> Ky -> bool) (vle : Vl -> Vl -> bool).
  Notation E := (edge St (Ky * Vl) In).
  Notation D := (dag St (Ky * Vl) In).
  Notation conv := (@conversion St Ky Vl In).
  Context (ordering : option (list Vl)) (inputs : list (D * Vl)) (converted : list (pdag * conv)).
  Context (HI : Forall2 (packed_input kle vle ordering) inputs converted).
  Context (HO : ordering <> Some []).
  Context (Tk : total_order kle).
  Context (proportions : option (list Qc)) (sy : @system St Ky Vl In).
  Context (HM : make_system kle converted proportions = Ok sy).
  Context (HW : match proportions with
                | Some w => length w = length converted /\ forall x, List.In x w -> (0 < x)%Qc
                | None => True end).
  Context (HN : NoDup (sys_values sy)).
  Context (m : Vl) (ds : list D) (dc : D) (EI : inputs = map (fun d => (d, m)) (ds ++ [dc])).
  Context (cover : forall d k, List.In d ds -> assigns d k -> assigns dc k).
  Context (follow : forall p c, complete_path dc p -> path_cost p = Fin c -> forall d, List.In d ds ->
    exists q c', complete_path d q /\ path_cost q = Fin c' /\ path_assignments q = path_assignments p).
  Context (some : exists p c, complete_path dc p /\ path_cost p = Fin c).
  Notation A_of p := (fun k => Some (value_of (path_assignments p) m k)).

  Lemma dominated_agreeing p c : complete_path dc p -> path_cost p = Fin c ->
    exists qs y, agreeing inputs (A_of p) qs /\ total_cost qs = Fin y.
  Proof.
    intros Hp Hc.
    assert (G : exists qs y, agreeing (map (fun d => (d, m)) ds) (A_of p) qs /\ total_cost qs = Fin y).
    { clear EI cover. induction ds as [|d l IH].
      - exists [], 0%Qc. split; [constructor|reflexivity].
      - destruct IH as [qs [y [HA Hy]]]; [intros; eapply follow; eauto; simpl; auto|].
        destruct (follow p c Hp Hc d) as [q [c' [Hq [Hc' Ea]]]]; [simpl; auto|].
        exists (q :: qs), (c' + y)%Qc. split.
        + constructor; auto. cbn [fst snd]. split; auto. intros k _. now rewrite Ea.
        + unfold total_cost in *. cbn [map csum fold_right]. unfold csum in Hy. rewrite Hc', Hy. reflexivity. }
    destruct G as [qs [y [HA Hy]]]. exists (qs ++ [p]), (y + c)%Qc. split.
    - rewrite EI, map_app. apply Forall2_app; auto. constructor; [|constructor]. cbn [fst snd]. split; auto.
    - unfold total_cost in *. rewrite map_app, csum_app, Hy. cbn [map csum fold_right]. rewrite Hc. cbn. f_equal. ring.
  Qed.
  Lemma dominated_solution p c : complete_path dc p -> path_cost p = Fin c ->
    exists x ps y, solution (data sy) x ps /\ solution_cost (data sy) x ps = Fin y /\
      forall k, List.In k (sys_keys sy) -> gives sy x k (value_of (path_assignments p) m k).
  Proof.
    intros Hp Hc. destruct (dominated_agreeing p c Hp Hc) as [qs [y [HA Hy]]].
    destruct (agreeing_solution kle vle ordering inputs converted HI Tk proportions sy HM _ qs y HA Hy) as [x [ps [HS [Ec Hg]]]].
    exists x, ps, y. splits; auto.
    - unfold solution_cost. rewrite Ec.
      assert (O : sys_ok (data sy)) by apply (make_system_ok kle vle ordering inputs converted HI HO Tk proportions sy HM HW).
      assert (E0 : over (num_keys (data sy)) (fun v => extra_at (data sy) v (nth v x 0)) = Fin 0%Qc).
      { unfold over. apply csum_zero. intros z Hz. apply in_map_iff in Hz as [v [<- Hv]]. apply in_seq in Hv.
        apply (system_extra kle vle ordering inputs converted HI Tk proportions sy HM); [lia|].
        eapply solution_values; eauto. lia. }
      rewrite E0. apply cadd_0_r.
    - intros k Hk. destruct (Hg k Hk) as [v [Ev G]]. injection Ev as <-. exact G.
  Qed.

  Theorem dominates : dominating (data sy) (length ds).
  Proof.
    destruct (system_shape kle vle ordering inputs converted HI Tk proportions sy HM) as [EK [EV [EN [EL HK]]]].
    destruct (made kle converted proportions sy HM) as [c0 [rest [_ [Hval _]]]].
    assert (Li : length inputs = S (length ds)) by (rewrite EI, map_length, app_length; cbn; lia).
    assert (Ei : nth_error inputs (length ds) = Some (dc, m)).
    { rewrite EI, nth_error_map, nth_error_app2, Nat.sub_diag; auto. }
    destruct (nth_error converted (length ds)) as [[pd cv]|] eqn:Ec; [|apply nth_error_None in Ec; lia].
    destruct (Forall2_nth _ _ _ HI _ _ _ Ei Ec) as [T [NN [_ Hcv]]]. cbn [fst snd] in *.
    destruct (convert_parts _ _ _ _ _ _ _ Hcv) as [Q _].
    destruct (conv_facts kle vle ordering inputs converted HI Tk _ _ _ Ei Ec) as [L [E1 [E2 [E3 [E4 E5]]]]]. cbn [fst snd] in *.
    assert (Hall : forall k, List.In k (sys_keys sy) -> assigns dc k).
    { intros k Hk. apply (system_keys_In kle vle ordering inputs converted HI Tk proportions sy HM) in Hk as [i [Hi Ha]].
      rewrite EI in Hi. apply in_map_iff in Hi as [d [<- Hd]]. cbn [fst] in Ha. apply in_app_or in Hd as [Hd|[<-|[]]]; eauto. }
    constructor.
    - lia.
    - intros v Hv. rewrite EK in Hv. destruct (nth_error (sys_keys sy) v) as [k|] eqn:Ek; [|apply nth_error_None in Ek; lia].
      rewrite (system_local kle converted proportions sy HM v _ k (pd, cv) Ek Ec). cbn [snd].
      assert (Hk : List.In k (variable_keys cv)) by (apply E3, Hall; eapply nth_error_In; eauto).
      destruct (index_of_In _ _ Hk) as [i ->]. discriminate.
    - destruct some as [p [c [Hp Hc]]]. destruct (dominated_solution p c Hp Hc) as [x [ps [y [HS [Ey _]]]]]. eauto.
    - intros p q Hp Hq. unfold dag_of in Hp. rewrite (system_table kle converted proportions sy HM _ (pd, cv) Ec) in Hp.
      destruct (packed_index pd p Hp) as [ks Hks].
      destruct (convert_sound kle vle dc m ordering pd cv Q ks _ Hks) as [pc [Hpc [_ [Hcost Ha]]]].
      destruct Hpc as [_ Hpc]. rewrite Hq in Hcost.
      destruct (dominated_solution pc q Hpc Hcost) as [x [ps [y [HS [Ey Hg]]]]]. exists x, ps, y. splits; auto.
      intros v k Hv Hl. rewrite EK in Hv.
      destruct (nth_error (sys_keys sy) v) as [key|] eqn:Ek; [|apply nth_error_None in Ek; lia].
      rewrite (system_local kle converted proportions sy HM v _ key (pd, cv) Ek Ec) in Hl. cbn [snd] in Hl.
      assert (Hin : List.In (key, value_of (path_assignments pc) m key) (full_assignment (variable_keys cv) m pc)).
      { unfold full_assignment. apply in_map_iff. exists key. split; auto. apply index_of_Some in Hl. eapply nth_error_In; eauto. }
      destruct (F2_In_l _ _ _ _ Ha Hin) as [[l a] [Hla [Hl1 Hl2]]]. cbn [fst snd] in *.
      assert (l = k) by congruence. subst l.
      destruct (Hg key) as [i [G1 G2]]; [eapply nth_error_In; eauto|].
      assert (i = v).
      { pose proof (system_keys_NoDup kle converted Tk proportions sy HM) as ND.
        eapply (proj1 (NoDup_nth_error (sys_keys sy))); eauto; [eapply nth_error_lt; eauto|congruence]. }
      subst i. assert (Evv : variable_values cv = sys_values sy) by (apply (Hval (pd, cv)); eapply nth_error_In; eauto).
      assert (Eva : nth v x 0 = a); [|now rewrite Eva].
      rewrite Evv in Hl2. apply index_of_Some in Hl2.
      eapply (proj1 (NoDup_nth_error (sys_values sy))); [exact HN|eapply nth_error_lt; eauto|congruence].
  Qed.

  Lemma system_facts : sys_ok (data sy) /\ nearly_conserved (data sy) /\ 0 < num_keys (data sy).
  Proof.
    destruct (make_system_ok kle vle ordering inputs converted HI HO Tk proportions sy HM HW) as [O C]. splits; auto.
    - intros v a Hv Ha. left. auto.
    - now destruct (system_shape kle vle ordering inputs converted HI Tk proportions sy HM) as [_ [_ [_ [_ HK]]]].
  Qed.
  Theorem dominated_terminates clock tol : (0 < tol)%Qc ->
    exists fuel res s', forall more, solve_system_with_sweeps (fuel + more) clock tol (data sy) = Some (Ok (res, s')).
  Proof.
    intros Ht. destruct system_facts as [O [NC HK]]. destruct (dm_some _ _ dominates) as [x [ps [B [HS EB]]]].
    destruct (C20_terminates (data sy) clock tol x ps B O NC Ht HS EB) as [b [N [_ [_ [res [s' Hr]]]]]].
    exists (2 + N), res, s'. exact Hr.
  Qed.
  Theorem dominated_run fuel clock tol res s' dir :
    solve_system_with_sweeps fuel clock tol (data sy) = Some (Ok (res, s')) ->
    (num_dags s' = num_dags (data sy) /\ forall j, j < num_dags (data sy) -> dag_of s' j = dag_of (data sy) j) /\
    exists x q asg qs, greedy_extract s' dir = Ok (map Some x, Fin q) /\
      assignments_from_assignment_vector sy x = Ok asg /\ map fst asg = sys_keys sy /\
      agreeing inputs (fun k => assoc k asg) qs /\ total_cost qs = Fin q /\
      forall qs' y, agreeing inputs (fun k => assoc k asg) qs' -> total_cost qs' = Fin y -> (q <= y)%Qc.
  Proof.
    intros E. destruct system_facts as [O [NC HK]].
    destruct (solve_spec (data sy) clock tol fuel _ O NC E) as [res' [s1 [E1 [_ [Av _]]]]].
    assert (res' = res /\ s1 = s') as [-> ->] by (split; congruence).
    destruct (dual_exists (data sy) O) as [b0 D0].
    destruct (averaging_facts (data sy) _ _ s' b0 O NC D0 Av) as [O1 [NC1 [R _]]]. pose proof R as [f U].
    assert (HK1 : 0 < num_keys s') by (rewrite (u_keys _ _ _ _ U); auto).
    split; [split; [exact (u_n _ _ _ _ U)|exact (u_dag _ _ _ _ U)]|].
    destruct (greedy_finite s' O1 NC1 (length ds) (dominating_repriced _ _ _ R dominates) dir HK1) as [x [q [ps [Eg [HS [Eq Hm]]]]]].
    assert (Hh : history sy [Sweep fuel clock tol] (with_data sy s')).
    { eapply history_cons; [exact I|eapply call_sweep; exact E|constructor]. }
    destruct (C17_greedy_cost_of_agreeing_paths _ _ _ _ _ _ _ kle vle ordering inputs converted proportions sy
      (with_data sy s') _ dir x q Tk HO HI HW HM HN Hh Eg) as [asg [qs [A1 [A2 [A3 [A4 A5]]]]]].
    cbn [with_data data] in *.
    assert (E0 : over (num_keys s') (fun v => extra_at s' v (nth v x 0)) = Fin 0%Qc).
    { unfold over. apply csum_zero. intros z Hz. apply in_map_iff in Hz as [v [<- Hv]]. apply in_seq in Hv.
      unfold extra_at. rewrite (u_extra _ _ _ _ U).
      apply (system_extra kle vle ordering inputs converted HI Tk proportions sy HM); [rewrite <- (u_keys _ _ _ _ U); lia|].
      rewrite <- (u_values _ _ _ _ U). eapply solution_values; eauto. lia. }
    exists x, q, asg, qs. splits; auto.
    - rewrite E0, cadd_0_r in A4. exact A4.
    - intros qs' y Hag Hy. specialize (A5 qs' y Hag Hy). rewrite E0, Hy in A5. cbn in A5. revert A5. cbn.
      now rewrite Qcplus_0_r.
  Qed.

  (** ** The same after constraining with a finite penalty: [missed A cs] counts the
      constraints that [A] does not meet. *)
  Definition missed (A : Ky -> option Vl) (cs : list (Ky * Vl)) : nat :=
    length (filter (fun kv => negb (eqb (A (fst kv)) (Some (snd kv)))) cs).
  Definition fine (penalty : Qc) (A : Ky -> option Vl) (cs : list (Ky * Vl)) : Qc :=
    (penalty * Q2Qc (inject_Z (Z.of_nat (missed A cs))))%Qc.
  Lemma fine_cons penalty A kv cs : fine penalty A (kv :: cs) =
    ((if eqb (A (fst kv)) (Some (snd kv)) then 0 else penalty) + fine penalty A cs)%Qc.
  Proof.
    unfold fine, missed. cbn [filter]. destruct (eqb (A (fst kv)) (Some (snd kv))); cbn [negb length]; [ring|].
    set (n := length _). replace (Q2Qc (inject_Z (Z.of_nat (S n)))) with (Q2Qc (inject_Z (Z.of_nat n)) + 1)%Qc; [ring|].
    apply Qc_is_canon. cbn [this Qcplus Q2Qc]. rewrite !Qred_correct, Nat2Z.inj_succ. unfold Z.succ. rewrite inject_Z_plus. reflexivity.
  Qed.
  Lemma charges_fine penalty cs x A : system_ok sy -> Forall (known sy) cs ->
    (forall k, List.In k (sys_keys sy) -> exists v, A k = Some v /\ gives sy x k v) ->
    csum (map (pays sy (Fin penalty) x) cs) = Fin (fine penalty A cs).
  Proof.
    intros O Hk HA. induction Hk as [|[k v] cs [K1 K2] Hk IH].
    - unfold fine, missed. cbn [filter length map]. change (Q2Qc (inject_Z (Z.of_nat 0))) with 0%Qc. rewrite Qcmult_0_r. reflexivity.
    - cbn [map]. rewrite csum_cons, IH, fine_cons. cbn [fst snd] in *. destruct (HA k K1) as [v' [E G]].
      destruct (pays_gives sy (Fin penalty) x k v O HN K1 K2) as [P1 P2]. rewrite E.
      destruct (eq_dec v v') as [->|Hne].
      + rewrite eqb_refl, (P1 G). reflexivity.
      + rewrite P2; [|intros C; apply Hne; eapply gives_fun; eauto; apply O].
        destruct (eqb (Some v') (Some v)) eqn:Eb; [apply eqb_eq in Eb; congruence|]. reflexivity.
  Qed.
  Lemma no_extras x ps : solution (data sy) x ps -> over (num_keys (data sy)) (fun v => extra_at (data sy) v (nth v x 0)) = Fin 0%Qc.
  Proof.
    intros HS. assert (O : sys_ok (data sy)) by apply (make_system_ok kle vle ordering inputs converted HI HO Tk proportions sy HM HW).
    unfold over. apply csum_zero. intros z Hz. apply in_map_iff in Hz as [v [<- Hv]]. apply in_seq in Hv.
    apply (system_extra kle vle ordering inputs converted HI Tk proportions sy HM); [lia|]. eapply solution_values; eauto. lia.
  Qed.
  Theorem constrained_run cs (penalty : Qc) : Forall (known sy) cs ->
    exists sy1, constrain_system sy cs (Fin penalty) = Ok sy1 /\ sys_keys sy1 = sys_keys sy /\ sys_values sy1 = sys_values sy /\
      conversion_data sy1 = conversion_data sy /\ num_keys (data sy1) = num_keys (data sy) /\
      (forall clock tol, (0 < tol)%Qc -> exists fuel res s', forall more, solve_system_with_sweeps (fuel + more) clock tol (data sy1) = Some (Ok (res, s'))) /\
      forall fuel clock tol res s', solve_system_with_sweeps fuel clock tol (data sy1) = Some (Ok (res, s')) ->
        (forall dir, exists x c asg qs, greedy_extract s' dir = Ok (map Some x, Fin (c + fine penalty (fun k => assoc k asg) cs)%Qc) /\
          assignments_from_assignment_vector sy1 x = Ok asg /\ map fst asg = sys_keys sy /\
          agreeing inputs (fun k => assoc k asg) qs /\ total_cost qs = Fin c /\
          forall qs' y, agreeing inputs (fun k => assoc k asg) qs' -> total_cost qs' = Fin y -> (c <= y)%Qc) /\
        (forall A qs y b, agreeing inputs A qs -> total_cost qs = Fin y -> List.In b (objective_at_step res) ->
          cle b (Fin (y + fine penalty A cs)%Qc)).
  Proof.
    intros Hk. destruct system_facts as [O [NC HK]].
    pose proof (made_system_ok kle vle ordering inputs converted HI HO Tk proportions sy HM HW) as OS.
    assert (Np : Fin penalty <> NaN) by discriminate.
    destruct (constrain_system_spec cs (Fin penalty) Np sy OS Hk) as [sy1 [E1 [O1 [Al [K1 [V1 [C1 [NC1 HC]]]]]]]].
    specialize (NC1 NC). exists sy1. pose proof Al as [Al1 [Al2 [Al3 [Al4 Al5]]]].
    assert (FP : forall x ps q, solution (data sy) x ps -> solution_cost (data sy) x ps = Fin q -> exists q', solution_cost (data sy1) x ps = Fin q').
    { intros x ps q HS Hq. rewrite (HC x ps HS), Hq. assert (F : exists z, csum (map (pays sy (Fin penalty) x) cs) = Fin z).
      { clear -Hk. induction Hk as [|[k v] cs [J1 J2] Hk [z IH]]; [exists 0%Qc; reflexivity|]. cbn [map]. rewrite csum_cons, IH.
        cbn [fst snd] in *. unfold pays. cbn [fst snd]. destruct (index_of_In _ _ J1) as [i ->]. destruct (index_of_In _ _ J2) as [a ->].
        destruct (nth i x 0 =? a); eexists; reflexivity. }
      destruct F as [z ->]. eexists. reflexivity. }
    assert (Dm : dominating (data sy1) (length ds)).
    { destruct dominates as [D1 D2 D3 D4]. constructor.
      - lia.
      - intros v Hv. unfold local. rewrite Al4. apply D2. lia.
      - destruct D3 as [x [ps [q [A B]]]]. destruct (FP x ps q A B) as [q' Hq']. exists x, ps, q'. split; auto. now apply alike_solution with (s := data sy).
      - intros p q Hp Hq. rewrite Al5 in Hp by auto. destruct (D4 p q Hp Hq) as [x [ps [q' [A [B C]]]]].
        destruct (FP x ps q' A B) as [q'' Hq'']. exists x, ps, q''. splits; auto; [now apply alike_solution with (s := data sy)|].
        intros v k Hv. unfold local. rewrite Al4. apply C. lia. }
    splits; auto.
    - intros clock tol Ht. destruct (dm_some _ _ Dm) as [x [ps [B [HS EB]]]].
      destruct (C20_terminates (data sy1) clock tol x ps B (sk_ok _ O1) NC1 Ht HS EB) as [b [N [_ [_ [res [s' Hr]]]]]].
      exists (2 + N), res, s'. exact Hr.
    - intros fuel clock tol res s' E. split.
      + intros dir. destruct (solve_spec (data sy1) clock tol fuel _ (sk_ok _ O1) NC1 E) as [res' [s1 [E1' [_ [Av _]]]]].
        assert (res' = res /\ s1 = s') as [-> ->] by (split; congruence).
        destruct (dual_exists (data sy1) (sk_ok _ O1)) as [b0 D0].
        destruct (averaging_facts (data sy1) _ _ s' b0 (sk_ok _ O1) NC1 D0 Av) as [O2 [NC2 [R _]]]. pose proof R as [f U].
        assert (HK2 : 0 < num_keys s') by (rewrite (u_keys _ _ _ _ U); lia).
        destruct (greedy_finite s' O2 NC2 (length ds) (dominating_repriced _ _ _ R Dm) dir HK2) as [x [q [ps [Eg [HS [Eq _]]]]]].
        assert (Hh : history sy [Constrain cs (Fin penalty); Sweep fuel clock tol] (with_data sy1 s')).
        { eapply history_cons; [exact Np|eapply call_constrain; exact E1|]. eapply history_cons; [exact I|eapply call_sweep; exact E|constructor]. }
        destruct (C17_greedy_cost_of_agreeing_paths _ _ _ _ _ _ _ kle vle ordering inputs converted proportions sy
          (with_data sy1 s') _ dir x q Tk HO HI HW HM HN Hh Eg) as [asg [qs [A1 [A2 [A3 [A4 A5]]]]]].
        cbn [with_data data sys_keys] in *.
        assert (HS1 : solution (data sy1) x ps) by now apply (repriced_solution (data sy1) s').
        assert (HS0 : solution (data sy) x ps) by now apply (alike_solution (data sy) (data sy1)).
        assert (Lx : length x = length (sys_keys sy1) /\ Forall (fun a => a < length (sys_values sy1)) x).
        { destruct HS1 as [HL HS1']. split; [rewrite HL; apply O1|]. apply Forall_forall. intros a Ha. apply In_nth with (d := 0) in Ha as [v [Hv <-]].
          rewrite <- (sk_values _ O1). eapply solution_values; [apply O1|split; [exact HL|exact HS1']|lia]. }
        destruct (C19_vectors_decode _ _ _ _ _ _ _ sy1 x O1 (proj1 Lx) (proj2 Lx)) as [asg' [B1 [B2 B3]]].
        assert (asg' = asg) by (unfold assignments_from_assignment_vector in *; cbn [with_data sys_keys sys_values] in A1; congruence). subst asg'.
        assert (HA : forall k, List.In k (sys_keys sy) -> exists v, assoc k asg = Some v /\ gives sy x k v).
        { intros k Hin. rewrite <- K1, <- B2 in Hin. destruct (assoc k asg) as [v|] eqn:Ea; [|apply assoc_None_iff in Ea; contradiction].
          exists v. split; auto. apply B3 in Ea. unfold gives in *. now rewrite <- K1, <- V1. }
        pose proof (charges_fine penalty cs x _ OS Hk HA) as CF.
        assert (E0 : over (num_keys s') (fun v => extra_at s' v (nth v x 0)) = Fin (fine penalty (fun k => assoc k asg) cs)).
        { assert (Ee : over (num_keys s') (fun v => extra_at s' v (nth v x 0)) = over (num_keys (data sy1)) (fun v => extra_at (data sy1) v (nth v x 0))).
          { rewrite (u_keys _ _ _ _ U). unfold over. f_equal. apply map_ext. intros v. unfold extra_at. now rewrite (u_extra _ _ _ _ U). }
          rewrite Ee. rewrite (repriced_cost (data sy1) s' x ps R) in Eq. pose proof (HC x ps HS0) as Hc. rewrite CF in Hc.
          unfold solution_cost in Hc, Eq. rewrite (no_extras x ps HS0), cadd_0_r in Hc.
          apply cadd_fin_inv in Eq as [a [b [Ea Eb]]]. rewrite Ea in Hc. rewrite Eb in *. cbn in Hc. f_equal.
          assert (Hc' : (a + b = a + fine penalty (fun k => assoc k asg) cs)%Qc).
          { clear -Hc. remember (a + b)%Qc as u. remember (a + fine penalty (fun k => assoc k asg) cs)%Qc as w. now injection Hc. }
          replace b with (a + b - a)%Qc by ring. rewrite Hc'. ring. }
        rewrite E0 in A4, A5. destruct (total_cost qs) as [c| |] eqn:Et; try discriminate A4.
        exists x, c, asg, qs. splits; auto.
        * rewrite Eg. do 2 f_equal. symmetry. exact A4.
        * rewrite <- K1. exact A2.
        * intros qs' y Hag Hy. specialize (A5 qs' y Hag Hy). rewrite Hy in A5. rewrite <- A4 in A5. cbn in A5.
          clear -A5. set (z := fine penalty (fun k => assoc k asg) cs) in *. clearbody z. qc_lra.
      + intros A qs y b HA Hy Hb.
        destruct (agreeing_solution kle vle ordering inputs converted HI Tk proportions sy HM A qs y HA Hy) as [x [ps [HS [Ec Hg]]]].
        assert (HS1 : solution (data sy1) x ps) by now apply alike_solution with (s := data sy).
        destruct (C14_objectives_are_lower_bounds (data sy1) fuel clock tol res s' (sk_ok _ O1) NC1 E x ps b HS1 Hb) as [_ W].
        rewrite (HC x ps HS), (charges_fine penalty cs x A OS Hk Hg) in W. unfold solution_cost in W.
        rewrite (no_extras x ps HS), Ec in W. cbn in W. rewrite Qcplus_0_r in W. exact W.
  Qed.
End Dominated.
