(** The operations of the dual solver keep penalties (nearly) conserved, and
    averaging never lowers the dual objective. *)

From Coq Require Import List Bool Arith Lia ZArith QArith Qcanon.
From Verif Require Import Base Graph PackedDag PackedDagProofs PackedTables PackedScale Convert
  DualSolver DualSpec DualLists DualPaths DualOps.
Import ListNotations.
Close Scope Qc_scope. Close Scope Q_scope. Open Scope nat_scope.

(** ** Reading only changes nothing. *)
Lemma same_nearly s s' : sys_ok s -> same s s' -> nearly_conserved s -> nearly_conserved s'.
Proof.
  intros O U NC v a Hv Ha.
  rewrite (u_keys _ _ _ _ U) in Hv. rewrite (u_values _ _ _ _ U) in Ha.
  assert (Ee : forall v a, extra_at s' v a = extra_at s v a)
    by (intros; unfold extra_at; now rewrite (u_extra _ _ _ _ U)).
  assert (Ec : forall x ps, solution_cost s' x ps = solution_cost s x ps).
  { intros x ps. unfold solution_cost. rewrite (u_keys _ _ _ _ U). f_equal.
    apply over_ext. intros. apply Ee. }
  destruct (NC v a Hv Ha) as [C|[C1 [C2 C3]]].
  - left. unfold conserved, pen_sum in *. rewrite (u_n _ _ _ _ U), Ee, <- C.
    apply over_ext. intros j Hj. now apply same_pen_at.
  - right. rewrite (u_n _ _ _ _ U). splits.
    + intros j Hj El. rewrite (updated_local s s' _ _ v j U) in El.
      rewrite (same_pen_at s s' j v a U Hj). now apply C1.
    + destruct C2 as [j [Hj [k [El Hb]]]]. exists j. split; auto. exists k.
      rewrite (updated_local s s' _ _ v j U), (u_dag _ _ _ _ U j Hj), (u_pens _ _ _ _ U j Hj). auto.
    + intros x ps HS Ex. rewrite Ec. apply C3; auto. now apply (updated_solution s s' _ _ x ps U).
Qed.
Lemma same_dual s s' c : same s s' -> (dual_objective s' c <-> dual_objective s c).
Proof.
  intros U. unfold dual_objective. rewrite (u_n _ _ _ _ U).
  split; intros [L [HL E]]; exists L; split; auto; intros j Hj; specialize (HL j Hj);
    rewrite (u_dag _ _ _ _ U j Hj), (u_pens _ _ _ _ U j Hj) in *; auto.
Qed.

(** An infinite penalty in subproblem [j] at local position [k] is one of a variable. *)
Lemma inf_entry s j k b : sys_ok s -> j < num_dags s -> k < n_keys (dag_of s j) ->
  nth b (nth k (pens (table s j)) []) NaN = Inf ->
  exists u, u < num_keys s /\ local s u j = Some k /\ pen_at s j u b = Inf.
Proof.
  intros O Hj Hk E. destruct (local_surj s O j k Hj Hk) as [u [Hu El]].
  exists u. splits; auto. unfold pen_at. now rewrite El.
Qed.

(** [blocked] survives any update of another variable that keeps infinite
    penalties infinite. *)
Lemma blocked_written s s' v rows row u a j : sys_ok s -> written s v rows row s' ->
  v < num_keys s -> u < num_keys s -> j < num_dags s ->
  (forall b, b < num_values s -> local s v j <> None -> pen_at s j v b = Inf -> u <> v ->
     get (rows j) b = Inf) ->
  blocked s u a j -> blocked s' u a j.
Proof.
  intros O U Hv Hu Hj Hinf [k [El Hb]]. exists k.
  pose proof (u_ok _ _ _ _ U) as O'.
  destruct (table_facts s O j Hj) as [L [HP [_ [V _]]]].
  assert (Hj' : j < num_dags s') by now rewrite (u_n _ _ _ _ U).
  destruct (table_facts s' O' j Hj') as [L' [HP' _]].
  rewrite (u_dag _ _ _ _ U j Hj) in L', HP'.
  rewrite (updated_local s s' _ _ u j U), (u_dag _ _ _ _ U j Hj). split; auto.
  intros p Hp Hi. specialize (Hb p Hp Hi).
  apply (rest_cost_inf (dag_of s j)); auto.
  apply (rest_cost_inf (dag_of s j)) in Hb as [Hb|[k' [b [Hne [Hk' Hb]]]]]; auto.
  right. exists k', b. splits; auto.
  destruct (complete_bounds _ _ _ _ L Hp Hk') as [Hkl Hbl].
  destruct (inf_entry s j k' b O Hj Hkl Hb) as [w [Hw [Elw Ew]]].
  assert (Ew' : pen_at s' j w b = Inf).
  { rewrite (written_pen_at s s' O v rows row j w b U) by auto.
    destruct (Nat.eqb_spec w v) as [->|]; auto. rewrite Elw.
    apply Hinf; auto; [lia|congruence|]. intros ->. congruence. }
  unfold pen_at in Ew'. rewrite (updated_local s s' _ _ w j U), Elw in Ew'. exact Ew'.
Qed.

(** Solutions of infinite cost keep it when no extra cost is lowered from infinity. *)
Lemma infinite_written s s' v rows row x ps : sys_ok s -> written s v rows row s' -> v < num_keys s ->
  (forall b, b < num_values s -> extra_at s v b = Inf -> get row b = Inf) ->
  solution s x ps -> solution_cost s x ps = Inf -> solution_cost s' x ps = Inf.
Proof.
  intros O U Hv Hinf HS E.
  assert (HS' : solution s' x ps) by now apply (updated_solution s s' _ _ x ps U).
  apply (solution_inf s' (u_ok _ _ _ _ U) x ps HS').
  apply (solution_inf s O x ps HS) in E as [[j [Hj E]]|[w [Hw E]]].
  - left. exists j. rewrite (u_n _ _ _ _ U). auto.
  - right. exists w. rewrite (u_keys _ _ _ _ U). split; auto.
    rewrite (written_extra_at s s' O v rows row w _ U) by auto.
    destruct (Nat.eqb_spec w v) as [->|]; auto. apply Hinf; auto.
    eapply solution_values; eauto.
Qed.

(** ** Adding unary costs or forbidding values. *)
Lemma raise_nearly s s' v rows row : sys_ok s -> v < num_keys s -> written s v rows row s' ->
  (forall a, a < num_values s ->
     (exists (delta : cost) (share : nat -> cost), delta <> NaN /\ (forall j, j < num_dags s -> share j <> NaN) /\
        over (num_dags s) (fun j => match local s v j with Some _ => share j | None => Fin 0%Qc end) = delta /\
        get row a = cadd (extra_at s v a) delta /\
        forall j, j < num_dags s -> local s v j <> None -> get (rows j) a = cadd (pen_at s j v a) (share j)) \/
     (get row a = Inf /\ forall j, j < num_dags s -> local s v j <> None -> get (rows j) a = Inf)) ->
  nearly_conserved s -> nearly_conserved s'.
Proof.
  intros O Hv U Hup NC. pose proof (u_ok _ _ _ _ U) as O'.
  assert (KeepP : forall j b, j < num_dags s -> b < num_values s -> local s v j <> None ->
     pen_at s j v b = Inf -> get (rows j) b = Inf).
  { intros j b Hj Hb El E. destruct (Hup b Hb) as [[de [sh [_ [Hs [_ [_ H]]]]]]|[_ H]]; [|now apply H].
    rewrite (H j Hj El), E. specialize (Hs j Hj). destruct (sh j); cbn; congruence. }
  assert (KeepE : forall b, b < num_values s -> extra_at s v b = Inf -> get row b = Inf).
  { intros b Hb E. destruct (Hup b Hb) as [[de [sh [Hd [_ [_ [H _]]]]]]|[H _]]; auto.
    rewrite H, E. destruct de; cbn; congruence. }
  assert (KeepB : forall u a j, u < num_keys s -> j < num_dags s -> blocked s u a j -> blocked s' u a j).
  { intros u a j Hu Hj. apply (blocked_written s s' v rows row); auto. }
  assert (KeepS : forall x ps, solution s' x ps -> solution_cost s x ps = Inf -> solution_cost s' x ps = Inf).
  { intros x ps HS. apply (infinite_written s s' v rows row); auto.
    now apply (updated_solution s s' _ _ x ps U). }
  intros u a Hu Ha. rewrite (u_keys _ _ _ _ U) in Hu. rewrite (u_values _ _ _ _ U) in Ha.
  destruct (Nat.eq_dec u v) as [->|Hne].
  - destruct (Hup a Ha) as [[de [sh [Hd [Hs [Hsum [Hrow Hsh]]]]]]|[Hrow Hsh]].
    + destruct (NC v a Hu Ha) as [C|[C1 [C2 C3]]].
      * left. unfold conserved, pen_sum in *. rewrite (u_n _ _ _ _ U).
        rewrite (written_extra_at s s' O v rows row v a U) by auto. rewrite Nat.eqb_refl, Hrow, <- C, <- Hsum.
        rewrite <- over_add. apply over_ext. intros j Hj.
        rewrite (written_pen_at s s' O v rows row j v a U) by auto. rewrite Nat.eqb_refl.
        destruct (local s v j) as [k|] eqn:El.
        -- apply Hsh; auto. congruence.
        -- unfold pen_at. rewrite El. now rewrite cadd_0_l.
      * right. rewrite (u_n _ _ _ _ U). splits.
        -- intros j Hj El. rewrite (updated_local s s' _ _ v j U) in El.
           rewrite (written_pen_at s s' O v rows row j v a U) by auto. rewrite Nat.eqb_refl.
           destruct (local s v j) as [k|] eqn:El'; [|congruence].
           apply KeepP; auto; [congruence|]. apply C1; auto. congruence.
        -- destruct C2 as [j [Hj Hb]]. exists j. split; auto.
        -- intros x ps HS Ex. apply KeepS; auto. apply C3; auto.
           now apply (updated_solution s s' _ _ x ps U).
    + left. unfold conserved. rewrite (written_extra_at s s' O v rows row v a U) by auto.
      rewrite Nat.eqb_refl, Hrow. unfold pen_sum. rewrite (u_n _ _ _ _ U).
      apply over_inf_iff.
      * intros j Hj. apply (pen_at_notnan s' O').
        -- now rewrite (u_n _ _ _ _ U).
        -- now rewrite (u_keys _ _ _ _ U).
        -- now rewrite (u_values _ _ _ _ U).
      * destruct (so_participant s O v Hv) as [j [Hj El]]. exists j. split; auto.
        rewrite (written_pen_at s s' O v rows row j v a U) by auto. rewrite Nat.eqb_refl.
        destruct (local s v j) eqn:El'; [|congruence]. apply Hsh; auto. congruence.
  - destruct (NC u a Hu Ha) as [C|[C1 [C2 C3]]].
    + left. unfold conserved, pen_sum in *. rewrite (u_n _ _ _ _ U).
      rewrite (written_extra_at s s' O v rows row u a U) by auto.
      apply Nat.eqb_neq in Hne. rewrite Hne, <- C. apply over_ext. intros j Hj.
      rewrite (written_pen_at s s' O v rows row j u a U) by auto. now rewrite Hne.
    + right. rewrite (u_n _ _ _ _ U). splits.
      * intros j Hj El. rewrite (updated_local s s' _ _ u j U) in El.
        rewrite (written_pen_at s s' O v rows row j u a U) by auto.
        apply Nat.eqb_neq in Hne. rewrite Hne. now apply C1.
      * destruct C2 as [j [Hj Hb]]. exists j. split; auto.
      * intros x ps HS Ex. apply KeepS; auto. apply C3; auto.
        now apply (updated_solution s s' _ _ x ps U).
Qed.

(** ** Averaging. *)
Section Average.
  Context (s : sysdata) (v : nat) (O : sys_ok s) (Hv : v < num_keys s).
  Context (s' : sysdata) (rows : nat -> list cost) (M : nat -> nat -> cost) (N total : nat -> cost) (m : cost).
  Context (U : written s v rows (nth v (extra s) []) s').
  Context (HM : forall j a, j < num_dags s -> a < num_values s ->
       match local s v j with
       | Some k => least (rest_costs s j k a) (M j a) | None => M j a = Fin 0%Qc end).
  Context (HN : forall j, j < num_dags s ->
       match local s v j with
       | Some _ => N j = Fin 0%Qc
       | None => least (complete_costs (dag_of s j) (pens (table s j))) (N j) end).
  Context (HT : forall a, a < num_values s -> total a = cadd (over (num_dags s) (fun j => M j a)) (extra_at s v a)).
  Context (HR : forall j k a, j < num_dags s -> a < num_values s -> local s v j = Some k ->
       get (rows j) a = match total a with
                        | Fin t => csub (Fin (t * (weight_of s v j / total_weight s v))%Qc) (M j a)
                        | c => c end).
  Context (Hm : forall a, a < num_values s -> cle m (total a)).
  Context (Hma : exists a, a < num_values s /\ total a = m).
  Notation n := (num_dags s).
  Notation W := (total_weight s v).

  Lemma M_notnan j a : j < n -> a < num_values s -> M j a <> NaN.
  Proof.
    intros Hj Ha. specialize (HM j a Hj Ha). destruct (local s v j); [now destruct HM|].
    rewrite HM. discriminate.
  Qed.
  Lemma N_notnan j : j < n -> N j <> NaN.
  Proof.
    intros Hj. specialize (HN j Hj). destruct (local s v j); [|now destruct HN].
    rewrite HN. discriminate.
  Qed.
  Lemma total_notnan a : a < num_values s -> total a <> NaN.
  Proof.
    intros Ha. rewrite HT by auto. apply cadd_notnan.
    - apply over_notnan. intros. now apply M_notnan.
    - now apply (so_extra_nn s O).
  Qed.
  Lemma total_inf a : a < num_values s ->
    (total a = Inf <-> (exists j, j < n /\ M j a = Inf) \/ extra_at s v a = Inf).
  Proof.
    intros Ha. rewrite HT by auto. rewrite cadd_inf_iff.
    - rewrite over_inf_iff; [reflexivity|]. intros. now apply M_notnan.
    - apply over_notnan. intros. now apply M_notnan.
    - now apply (so_extra_nn s O).
  Qed.
  Lemma M_inf_blocked j a : j < n -> a < num_values s -> local s v j <> None ->
    (M j a = Inf <-> blocked s v a j).
  Proof.
    intros Hj Ha El. specialize (HM j a Hj Ha). destruct (local s v j) as [k|] eqn:E; [|congruence].
    destruct HM as [Hn [Hle Hat]]. split.
    - intros HI. exists k. split; auto. intros p Hp Hi.
      assert (Hc : cle (M j a) (rest_cost (pens (table s j)) k p)).
      { apply Hle. exists p. auto. }
      rewrite HI in Hc. destruct (rest_cost (pens (table s j)) k p); simpl in Hc; tauto.
    - intros [k' [E' Hb]]. rewrite E in E'. injection E' as <-.
      destruct Hat as [[p [Hp [Hi Ec]]]|]; auto. rewrite <- Ec. now apply Hb.
  Qed.

  (** Forbidden values stay forbidden. *)
  Lemma average_keeps_inf j b : nearly_conserved s -> j < n -> b < num_values s ->
    local s v j <> None -> pen_at s j v b = Inf -> get (rows j) b = Inf.
  Proof.
    intros NC Hj Hb El E. destruct (local s v j) as [k|] eqn:Ek; [|congruence].
    rewrite (HR j k b Hj Hb Ek).
    assert (HI : total b = Inf).
    { apply total_inf; auto. destruct (NC v b Hv Hb) as [C|[_ [[j' [Hj' B]] _]]].
      - right. unfold conserved in C. rewrite <- C. apply over_inf_iff.
        + intros. now apply (pen_at_notnan s O).
        + exists j. auto.
      - left. exists j'. split; auto. apply M_inf_blocked; auto.
        destruct B as [k' [E' _]]. congruence. }
    now rewrite HI.
  Qed.

  Lemma W_pos : (0 < W)%Qc. Proof. now apply total_weight_pos. Qed.
  Lemma W_nz : W <> 0%Qc.
  Proof. intros E. pose proof W_pos as H. rewrite E in H. apply Qclt_not_eq in H. congruence. Qed.

  (** Where the total is finite, so are the min marginals. *)
  Lemma finite_parts a t : a < num_values s -> total a = Fin t ->
    exists (Mq : nat -> Qc) (eq : Qc), (forall j, j < n -> M j a = Fin (Mq j)) /\ extra_at s v a = Fin eq /\
      t = (qsum (map Mq (seq 0 n)) + eq)%Qc.
  Proof.
    intros Ha Et.
    exists (fun j => match M j a with Fin q => q | _ => 0%Qc end),
           (match extra_at s v a with Fin q => q | _ => 0%Qc end).
    assert (H1 : forall j, j < n -> M j a = Fin (match M j a with Fin q => q | _ => 0%Qc end)).
    { intros j Hj. pose proof (M_notnan j a Hj Ha). destruct (M j a) eqn:E; auto; [|congruence].
      exfalso. assert (C : total a = Inf) by (apply total_inf; eauto). congruence. }
    assert (H2 : extra_at s v a = Fin (match extra_at s v a with Fin q => q | _ => 0%Qc end)).
    { pose proof (so_extra_nn s O v a Hv Ha). destruct (extra_at s v a) eqn:E; auto; [|congruence].
      exfalso. assert (C : total a = Inf) by (apply total_inf; auto). congruence. }
    splits; auto. rewrite HT in Et by auto. rewrite H2 in Et.
    assert (H3 : over n (fun j => M j a) =
       Fin (qsum (map (fun j => match M j a with Fin q => q | _ => 0%Qc end) (seq 0 n)))).
    { unfold over. assert (G : forall l, (forall j, In j l -> j < n) -> csum (map (fun j => M j a) l) =
         Fin (qsum (map (fun j => match M j a with Fin q => q | _ => 0%Qc end) l))).
      { induction l as [|j l IH]; intros Hl; [reflexivity|]. cbn [map]. rewrite csum_cons, IH.
        - rewrite (H1 j) by (apply Hl; simpl; auto). reflexivity.
        - intros; apply Hl; simpl; auto. }
      apply G. intros j Hj. apply in_seq in Hj. lia. }
    rewrite H3 in Et. cbn [cadd] in Et. now injection Et.
  Qed.

  Lemma over_sub (f g : nat -> Qc) k :
    over k (fun j => Fin (f j - g j)%Qc) =
    Fin (qsum (map f (seq 0 k)) - qsum (map g (seq 0 k)))%Qc.
  Proof.
    unfold over. induction (seq 0 k) as [|j l IH]; cbn [map].
    - reflexivity.
    - rewrite csum_cons, IH. cbn [cadd qsum fold_right]. f_equal. unfold qsum. ring.
  Qed.
  Lemma qsum_scale (f : nat -> Qc) (c : Qc) l : qsum (map (fun j => c * f j)%Qc l) = (c * qsum (map f l))%Qc.
  Proof. induction l as [|j l IH]; cbn; [ring|]. unfold qsum in IH. rewrite IH. ring. Qed.

  (** The averaged penalties sum to the extra cost where the total is finite. *)
  Lemma average_conserves a t : a < num_values s -> total a = Fin t ->
    over n (fun j => match local s v j with Some _ => get (rows j) a | None => Fin 0%Qc end) = extra_at s v a.
  Proof.
    intros Ha Et. destruct (finite_parts a t Ha Et) as [Mq [e [H1 [H2 H3]]]].
    rewrite (over_ext _ _ (fun j => Fin ((t / W) * weight_of s v j - Mq j)%Qc)).
    - rewrite over_sub, qsum_scale, H2. fold W. f_equal. rewrite H3. field. apply W_nz.
    - intros j Hj. pose proof (H1 j Hj) as E1. pose proof (HM j a Hj Ha) as E2.
      unfold weight_of. destruct (local s v j) as [k|] eqn:El.
      + rewrite (HR j k a Hj Ha El), Et, E1. unfold weight_of. rewrite El. cbn [csub]. f_equal.
        field. apply W_nz.
      + rewrite E2 in E1. injection E1 as <-. f_equal. field. apply W_nz.
  Qed.

  Lemma average_nearly : nearly_conserved s -> nearly_conserved s'.
  Proof.
    intros NC. pose proof (u_ok _ _ _ _ U) as O'.
    assert (Ee : forall u a, extra_at s' u a = extra_at s u a).
    { intros u a. rewrite (written_extra_at s s' O v rows _ u a U) by auto.
      destruct (Nat.eqb_spec u v) as [->|]; reflexivity. }
    assert (Ec : forall x ps, solution_cost s' x ps = solution_cost s x ps).
    { intros x ps. unfold solution_cost. rewrite (u_keys _ _ _ _ U). f_equal. apply over_ext. auto. }
    assert (KeepB : forall u a j, u < num_keys s -> j < n -> blocked s u a j -> blocked s' u a j).
    { intros u a j Hu Hj. apply (blocked_written s s' v rows (nth v (extra s) [])); auto.
      intros b Hb El E _. now apply average_keeps_inf. }
    intros u a Hu Ha. rewrite (u_keys _ _ _ _ U) in Hu. rewrite (u_values _ _ _ _ U) in Ha.
    destruct (Nat.eq_dec u v) as [->|Hne].
    - destruct (total a) as [t| |] eqn:Et.
      + left. unfold conserved, pen_sum. rewrite (u_n _ _ _ _ U), Ee, <- (average_conserves a t Ha Et).
        apply over_ext. intros j Hj. rewrite (written_pen_at s s' O v rows _ j v a U) by auto.
        now rewrite Nat.eqb_refl.
      + (* forbidden *)
        assert (HI : forall j, j < n -> local s v j <> None -> pen_at s' j v a = Inf).
        { intros j Hj El. rewrite (written_pen_at s s' O v rows _ j v a U) by auto. rewrite Nat.eqb_refl.
          destruct (local s v j) as [k|] eqn:Ek; [|congruence]. now rewrite (HR j k a Hj Ha Ek), Et. }
        destruct (extra_at s v a) as [q| |] eqn:Ex.
        * right. rewrite (u_n _ _ _ _ U).
          assert (HB : exists j, j < n /\ blocked s v a j).
          { apply total_inf in Et as [[j [Hj HI']]|C]; [|congruence|auto]. exists j. split; auto.
            apply M_inf_blocked; auto. intros El. pose proof (HM j a Hj Ha) as H0. rewrite El in H0. congruence. }
          splits.
          -- intros j Hj El. rewrite (updated_local s s' _ _ v j U) in El. auto.
          -- destruct HB as [j [Hj HB]]. exists j. split; auto.
          -- intros x ps HS Exa. rewrite Ec.
             assert (HS0 : solution s x ps) by now apply (updated_solution s s' _ _ x ps U).
             destruct HB as [j [Hj [k [El HB]]]].
             destruct HS0 as [Hx [Hp Hc]] eqn:Edest. clear Edest. destruct (Hc j Hj) as [Hcp Hca].
             destruct (table_facts s O j Hj) as [L [HP [_ [V _]]]].
             pose proof (Hca v k Hv El) as Hin. rewrite Exa in Hin.
             specialize (HB _ Hcp Hin).
             apply (rest_cost_inf (dag_of s j)) in HB as [HB|[k' [b [Hnk [Hk' HB]]]]]; auto.
             ++ apply (solution_inf s O); [split; auto|]. left. eauto.
             ++ destruct (complete_bounds _ _ _ _ L Hcp Hk') as [Hkl Hbl].
                destruct (inf_entry s j k' b O Hj Hkl HB) as [w [Hw [Elw Ew]]].
                assert (Eb : nth w x 0 = b).
                { eapply (complete_functional (dag_of s j)); eauto. }
                destruct (NC w b Hw) as [C|[_ [_ C]]]; [lia| |].
                ** apply (solution_inf s O); [split; auto|]. right. exists w. split; auto.
                   rewrite Eb. unfold conserved in C. rewrite <- C. apply over_inf_iff.
                   { intros. apply (pen_at_notnan s O); auto. lia. }
                   exists j. auto.
                ** apply C; [split; auto|auto].
        * left. unfold conserved, pen_sum. rewrite (u_n _ _ _ _ U), Ee, Ex. apply over_inf_iff.
          -- intros j Hj. apply (pen_at_notnan s' O').
             ++ now rewrite (u_n _ _ _ _ U).
             ++ now rewrite (u_keys _ _ _ _ U).
             ++ now rewrite (u_values _ _ _ _ U).
          -- destruct (so_participant s O v Hv) as [j [Hj El]]. exists j. split; auto.
        * exfalso. now apply (so_extra_nn s O v a Hv Ha).
      + exfalso. now apply (total_notnan a Ha).
    - destruct (NC u a Hu Ha) as [C|[C1 [C2 C3]]].
      + left. unfold conserved, pen_sum in *. rewrite (u_n _ _ _ _ U), Ee, <- C. apply over_ext. intros j Hj.
        rewrite (written_pen_at s s' O v rows _ j u a U) by auto.
        apply Nat.eqb_neq in Hne. now rewrite Hne.
      + right. rewrite (u_n _ _ _ _ U). splits.
        * intros j Hj El. rewrite (updated_local s s' _ _ u j U) in El.
          rewrite (written_pen_at s s' O v rows _ j u a U) by auto.
          apply Nat.eqb_neq in Hne. rewrite Hne. now apply C1.
        * destruct C2 as [j [Hj Hb]]. exists j. split; auto.
        * intros x ps HS Ex. rewrite Ec. apply C3; auto. now apply (updated_solution s s' _ _ x ps U).
  Qed.

  (** ** The returned bound is the new dual objective. *)
  Lemma share_pos j : j < n -> local s v j <> None -> (0 < weight_of s v j / W)%Qc.
  Proof. intros Hj El. apply Qcdiv_pos; [now apply weight_of_pos|apply W_pos]. Qed.

  Lemma marginal_after j k a : j < n -> a < num_values s -> local s v j = Some k ->
    least (marginal_costs (dag_of s' j) (pens (table s' j)) k a) (cscale (weight_of s v j / W) (total a)).
  Proof.
    intros Hj Ha El. rewrite (u_dag _ _ _ _ U j Hj), (u_pens _ _ _ _ U j Hj), El.
    destruct (table_facts s O j Hj) as [L [[HP _] [_ [V _]]]].
    assert (Hk : k < n_keys (dag_of s j)) by (eapply local_lt; eauto).
    pose proof (HM j a Hj Ha) as HL. rewrite El in HL.
    pose proof (HR j k a Hj Ha El) as HRa. pose proof (total_notnan a Ha) as Hna.
    assert (Nr : get (rows j) a <> NaN).
    { assert (Hp : pen_at s' j v a <> NaN).
      { apply (pen_at_notnan s' (u_ok _ _ _ _ U)).
        - now rewrite (u_n _ _ _ _ U).
        - now rewrite (u_keys _ _ _ _ U).
        - now rewrite (u_values _ _ _ _ U). }
      rewrite (written_pen_at s s' O v rows _ j v a U) in Hp by auto.
      now rewrite Nat.eqb_refl, El in Hp. }
    replace (cscale (weight_of s v j / W) (total a)) with (cadd (M j a) (get (rows j) a)).
    - apply (least_ext (fun c => exists x, rest_costs s j k a x /\ c = cadd x (get (rows j) a)));
        [|now apply least_add].
      intros c. unfold marginal_costs, rest_costs. split.
      + intros [x [[p [Hp [Hi Ex]]] ->]]. exists p. splits; auto.
        rewrite (rest_split_row (dag_of s j) _ k a) by (auto; lia). now rewrite Ex.
      + intros [p [Hp [Hi Ec]]]. eexists. split; [exists p; splits; [exact Hp|exact Hi|reflexivity]|].
        rewrite <- Ec. apply (rest_split_row (dag_of s j) _ k a); auto; lia.
    - rewrite HRa. destruct (total a) as [t| |] eqn:Et; [| |congruence].
      + destruct (finite_parts a t Ha Et) as [Mq [e [H1 _]]]. rewrite (H1 j Hj).
        cbn [csub cadd cscale]. f_equal. ring.
      + rewrite cscale_inf by (apply share_pos; auto; congruence).
        pose proof (M_notnan j a Hj Ha). destruct (M j a); cbn; congruence.
  Qed.

  Lemma m_notnan : m <> NaN.
  Proof. destruct Hma as [a [Ha <-]]. now apply total_notnan. Qed.

  Lemma least_after j : j < n -> local s v j <> None ->
    least (complete_costs (dag_of s' j) (pens (table s' j))) (cscale (weight_of s v j / W) m).
  Proof.
    intros Hj El. destruct (local s v j) as [k|] eqn:Ek; [|congruence].
    destruct (table_facts s O j Hj) as [L [_ [_ [V _]]]].
    assert (Hk : k < n_keys (dag_of s j)) by (eapply local_lt; eauto).
    pose proof (u_dag _ _ _ _ U j Hj) as Ed.
    assert (Hp : (0 < weight_of s v j / W)%Qc) by (apply share_pos; auto; congruence).
    unfold least. splits.
    - apply cscale_notnan; auto. apply m_notnan.
    - intros c Hc. rewrite Ed in Hc.
      apply (complete_has_marginal _ _ k _ L Hk) in Hc as [a [Ha Hc]]. rewrite V in Ha.
      pose proof (marginal_after j k a Hj Ha Ek) as HL. rewrite Ed in HL.
      destruct HL as [_ [Hle _]].
      eapply cle_trans; [|apply Hle; exact Hc]. apply cscale_le; auto.
    - destruct Hma as [a [Ha Ea]].
      pose proof (marginal_after j k a Hj Ha Ek) as HL. rewrite Ed in *.
      destruct HL as [_ [_ [HL|HL]]].
      + left. apply (complete_has_marginal _ _ k _ L Hk). exists a. rewrite V, <- Ea. auto.
      + right. now rewrite <- Ea.
  Qed.

  Lemma average_dual : dual_objective s' (cadd m (over n N)).
  Proof.
    exists (fun j => match local s v j with
                     | Some _ => cscale (weight_of s v j / W) m | None => N j end).
    rewrite (u_n _ _ _ _ U). split.
    - intros j Hj. destruct (local s v j) as [k|] eqn:El.
      + apply least_after; auto. congruence.
      + rewrite (u_dag _ _ _ _ U j Hj), (u_pens _ _ _ _ U j Hj), El.
        pose proof (HN j Hj) as H0. now rewrite El in H0.
    - symmetry. rewrite (over_ext _ _ (fun j => cadd (match local s v j with
           | Some _ => cscale (weight_of s v j / W) m | None => Fin 0%Qc end) (N j))).
      2:{ intros j Hj. pose proof (HN j Hj) as H0. destruct (local s v j).
          - now rewrite H0, cadd_0_r.
          - now rewrite cadd_0_l. }
      rewrite over_add. f_equal. pose proof m_notnan as Nm.
      destruct m as [q| |] eqn:Em; [| |congruence].
      + rewrite (over_ext _ _ (fun j => if match local s v j with Some _ => true | None => false end
            then Fin (q * (weight_of s v j / W))%Qc else Fin 0%Qc)).
        2:{ intros j Hj. destruct (local s v j); reflexivity. }
        rewrite distribute.
        rewrite (map_ext _ (weight_of s v)).
        * fold W. f_equal. field. apply W_nz.
        * intros j. unfold weight_of. destruct (local s v j); reflexivity.
      + apply over_inf_iff.
        * intros j Hj. destruct (local s v j) eqn:El; [|discriminate].
          rewrite cscale_inf by (apply share_pos; auto; congruence). discriminate.
        * destruct (so_participant s O v Hv) as [j [Hj El]]. exists j. split; auto.
          destruct (local s v j) eqn:Ek; [|congruence].
          apply cscale_inf. apply share_pos; auto. congruence.
  Qed.

  (** ** Averaging never lowers the dual objective. *)
  Lemma average_ascends c : nearly_conserved s -> dual_objective s c -> cle c (cadd m (over n N)).
  Proof.
    intros NC [L [HL ->]]. destruct Hma as [a [Ha Ea]]. rewrite <- Ea.
    assert (NL : forall j, j < n -> L j <> NaN) by (intros j Hj; now destruct (HL j Hj)).
    destruct (total a) as [t| |] eqn:Et.
    - (* finite: the penalties of [a] are finite and conserved *)
      destruct (finite_parts a t Ha Et) as [Mq [e [H1 [H2 _]]]].
      assert (C : conserved s v a).
      { destruct (NC v a Hv Ha) as [C|[_ [[j [Hj HB]] _]]]; auto. exfalso.
        assert (El : local s v j <> None) by (destruct HB as [k [El _]]; congruence).
        apply (M_inf_blocked j a Hj Ha El) in HB. rewrite (H1 j Hj) in HB. discriminate. }
      unfold conserved in C.
      rewrite <- Et, HT by auto. rewrite <- C. unfold pen_sum. rewrite <- !over_add.
      apply over_le. intros j Hj. destruct (table_facts s O j Hj) as [Lj [HP [_ [V _]]]].
      pose proof (HM j a Hj Ha) as H0. pose proof (HN j Hj) as H0'.
      unfold pen_at. destruct (local s v j) as [k|] eqn:El.
      + rewrite H0', cadd_0_r. destruct H0 as [_ [_ [[p [Hp [Hi Ec]]]|HI]]].
        * rewrite <- Ec. destruct (HL j Hj) as [_ [Hle _]]. apply Hle. exists p. split; auto.
          now apply (rest_split (dag_of s j)).
        * rewrite (H1 j Hj) in HI. discriminate.
      + rewrite H0, !cadd_0_l. rewrite (least_unique _ _ _ (HL j Hj) H0'). apply cle_refl.
        apply (N_notnan j Hj).
    - replace (cadd Inf (over n N)) with Inf.
      + apply cle_Inf. apply over_notnan. auto.
      + assert (over n N <> NaN) by (apply over_notnan; intros; now apply N_notnan).
        destruct (over n N); cbn; congruence.
    - exfalso. now apply (total_notnan a Ha).
  Qed.
End Average.

(** ** The averaging step, in one statement. *)
Lemma average_step s v : sys_ok s -> nearly_conserved s -> v < num_keys s ->
  exists best s', min_marginal_average s v = Ok (best, s') /\
    sys_ok s' /\ nearly_conserved s' /\ dual_objective s' best /\
    (forall c, dual_objective s c -> cle c best) /\
    (exists f, updated s s' f (extra s)).
Proof.
  intros O NC Hv.
  destruct (average_spec s v O Hv) as
    [best [s' [rows [M [N [total [m [E [U [HM [HN [HT [HR [Hm [Hma ->]]]]]]]]]]]]]]].
  exists (cadd m (over (num_dags s) N)), s'. splits; auto.
  - apply (u_ok _ _ _ _ U).
  - eapply average_nearly; eauto.
  - eapply average_dual; eauto.
  - intros c Hc. eapply average_ascends; eauto.
  - unfold written in U.
    replace (updnth v (nth v (extra s) []) (extra s)) with (extra s) in U; [eauto|].
    clear - O Hv. pose proof (so_extra s O). revert v Hv. rewrite <- H. clear H O.
    generalize (extra s). intros l. induction l as [|r l IH]; intros [|v] Hv; simpl in *; try lia; auto.
    rewrite updnth_cons_S. f_equal. apply IH. lia.
Qed.

(** The dual objective exists. *)
Lemma dual_exists s : sys_ok s -> exists c, dual_objective s c.
Proof.
  intros O. assert (G : forall k, k <= num_dags s -> exists L : nat -> cost,
     forall j, j < k -> least (complete_costs (dag_of s j) (pens (table s j))) (L j)).
  { induction k as [|k IH]; intros Hk; [exists (fun _ => NaN); lia|].
    destruct IH as [L HL]; [lia|]. destruct (table_facts s O k) as [_ [_ [I _]]]; [lia|].
    destruct (minimal_cost_spec (table s k) AT_END I Logic.I) as [c [t [_ [_ [_ [_ Hc]]]]]].
    exists (fun j => if j =? k then c else L j). intros j Hj. destruct (Nat.eqb_spec j k) as [->|]; auto.
    apply HL. lia. }
  destruct (G (num_dags s) (le_n _)) as [L HL]. exists (over (num_dags s) L), L. auto.
Qed.
Lemma dual_unique s c c' : dual_objective s c -> dual_objective s c' -> c = c'.
Proof.
  intros [L [HL ->]] [L' [HL' ->]]. apply over_ext. intros j Hj.
  eapply least_unique; eauto.
Qed.
