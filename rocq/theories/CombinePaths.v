(** The paths behind a combined result: for every sample, and for a target the
    result is evaluated on. *)

From Coq Require Import List Bool Arith Lia ZArith Sorted QArith Qcanon.
From Verif Require Import Base SeqNodes Transforms PackedSeq PackedSeqProofs Numbered Graph GatedDag PackedDag Convert MapDag Decisions ConstraintSpec ConstraintDag
  RegionDecisions RegionProofs ConstraintProofs ConstraintPack DualSolver DualSpec DualLists Properties_Regions SystemSpec BuildSystem BuildProofs BuildKeys Combine CombineProofs.
Import ListNotations.
Close Scope Qc_scope. Close Scope Q_scope. Close Scope Z_scope. Open Scope nat_scope.

(** The path that is best under some decisions: a complete path through the DAG, at
    the least cost. *)
Definition best_path {S1 I1 : Type} (made : result (dag S1 decision I1)) (rel : Qc -> list decision -> Prop) (asg : assignments)
    (dc : pdag * @conversion (S1 + cstate) dkey dvalue (I1 + cinfo)) (p : list (edge S1 decision I1)) (k : Qc) : Prop :=
  exists d y, made = Ok d /\ complete_path d p /\ constrained_best_path (fst dc) (snd dc) asg = Ok (map (map_edge inl (fun c => c) inl) p, y) /\
    path_cost p = Fin k /\ least_cost rel asg k /\ same_decisions asg (path_assignments p).

Section Generic.
  Context {M S1 I1 : Type} {d1 : EqDec S1}.
  Context (w : wrapper M (S1 + cstate) (I1 + cinfo)) (parse : text -> result (list (node M))).
  Context (context : text) (samples : list text) (index : Z) (sample : text).
  Context (trees : text -> list (node M)) (Hparse : forall s, In s samples -> parse (context ++ s) = Ok (trees s)).
  Context (Hsample : py_index samples index = Ok sample).
  Context (proto : list (node M)) (ci : option text) (Hproto : w_prototype w (trees sample) (length context) = (pack proto, ci)).
  Context (construct : storage M -> storage M -> result (dag S1 decision I1)).
  Context (Hbuild : forall p ts, w_build w p ts = build_system (construct p) (construct_constraint_dag p) ts None).
  Context (rels : text -> Qc -> list decision -> Prop).
  Let tgt (s : text) : storage M := w_target w (trees s) (length context).
  Let K := questions (labelled proto).
  Let choice := region_choice (labelled proto).
  Context (Ht : forall s, In s samples -> exists d, construct (pack proto) (tgt s) = Ok d /\ allows (rels s) K d).
  Context (couple : forall s ds, In s samples -> choice ds -> exists k, rels s k ds).
  Let factors := repeat (1 / Q2Qc (inject_Z (Z.of_nat (length samples))))%Qc (length samples).

  Theorem combine_paths fuel clock r asg : combine_samples fuel clock w parse context samples index = Some (Ok r) -> assignment_map r = Some asg ->
    Forall2 (fun s dc => exists p k, best_path (construct (pack proto) (tgt s)) (rels s) asg dc p k)
      samples (combine (map m_dag (removelast (tables (data (r_system r))))) (conversion_data (r_system r))) /\
    map m_dag (removelast (tables (data (r_system r)))) <> [] /\
    combine (map m_dag (removelast (tables (data (r_system r))))) (removelast (conversion_data (r_system r))) =
    combine (map m_dag (removelast (tables (data (r_system r))))) (conversion_data (r_system r)).
  Proof.
    intros Hr Ha.
    destruct (combine_spec w parse context samples index sample trees Hparse Hsample proto ci Hproto construct Hbuild rels Ht couple fuel clock r Hr)
      as [_ [_ [_ [[_ [C _]]|[Hk [asg' [ds [sol [ks [u [Ha' [_ [Na [Ka [Hc [Hsame _]]]]]]]]]]]]]]]]; [congruence|].
    assert (asg' = asg) by congruence. subst asg'.
    assert (HK : K <> []) by (intros C; unfold K in C; rewrite C in Hk; cbn in Hk; lia).
    destruct (constraint_allows proto) as [dc [Ec Ac]].
    destruct (build_facts w context samples trees proto construct rels Ht couple) as [sy [E [V [Ek [N Hn]]]]].
    unfold combine_samples in Hr. rewrite (prepared w parse context samples index sample trees Hparse Hsample proto ci Hproto construct Hbuild sy E) in Hr.
    destruct (solve_system_with_sweeps fuel clock default_tolerance (data sy)) as [[[res s']|]|] eqn:H0; try discriminate.
    injection Hr as Hr. unfold finish in Hr.
    assert (Es : r_system r = mkSystem s' (sys_keys sy) (sys_values sy) (conversion_data sy)).
    { destruct (rev (objective_at_step res)) as [|b l]; [injection Hr as <-; discriminate|].
      apply bind_ok_inv in Hr as [g [_ Hr]]. apply bind_ok_inv in Hr as [a [_ Hr]]. apply bind_ok_inv in Hr as [so [_ Hr]]. injection Hr as <-. reflexivity. }
    rewrite Es. cbn [data conversion_data].
    pose proof (factors_positive w parse context samples index sample trees Hparse Hsample proto construct rels Ht couple) as Fp.
    pose proof (factors_some w parse context samples index sample trees Hparse Hsample proto construct rels Ht couple) as Fs.
    pose proof (built_solved _ _ samples factors rels choice K dc Ec Ac Ht (choices_cover proto) couple Fp Fs sy _ clock default_tolerance res s' HK E H0) as Eq.
    destruct (built_paths _ _ samples factors rels choice K dc Ec Ac Ht (choices_cover proto) couple Fp sy s' asg HK E Eq Na Ka (ex_intro _ ds (conj Hc Hsame))) as [F L].
    unfold factors in F. rewrite combine_repeat_fst in F. 
    destruct (built_dags _ _ samples factors rels choice K dc Ec Ac Ht sy s' HK E Eq) as [C1 C2].
    splits.
    - eapply Forall2_impl; [|exact F]. intros s x [d [p [y [k [B1 [B2 [B3 [B4 [B5 B6]]]]]]]]]. exists p, k, d, y. splits; auto.
    - intros C. rewrite C in F. cbn in F. inversion F as [Z|]. apply (samples_some samples index sample Hsample). congruence.
    - destruct C2 as [Q1 Q2]. congruence.
  Qed.

  (** A target the result is evaluated on. *)
  Theorem single_path (t : storage M) rel asg ds : K <> [] ->
    (exists d, construct (pack proto) t = Ok d /\ allows rel K d) -> (forall ds, choice ds -> exists k, rel k ds) ->
    NoDup (map fst asg) -> (forall k, In k (map fst asg) <-> In k K) -> choice ds -> same_decisions asg ds ->
    exists sy m m' c cs, w_build w (pack proto) [t] = Ok sy /\ tables (data sy) = [m; m'] /\ conversion_data sy = c :: cs /\
      exists p k, best_path (construct (pack proto) t) rel asg (m_dag m, c) p k.
  Proof.
    intros HK Hd Hcouple Na Ka Hc Hsame. destruct (constraint_allows proto) as [dc [Ec Ac]].
    rewrite Hbuild. rewrite <- (map_id [t]). rewrite build_default by discriminate. cbn [length repeat].
    set (fs := [(1 / Q2Qc (inject_Z (Z.of_nat 1)))%Qc]).
    assert (Ht1 : forall x, In x [t] -> exists d, construct (pack proto) x = Ok d /\ allows rel K d) by (intros x [<-|[]]; auto).
    assert (Hc1 : forall x ds, In x [t] -> choice ds -> exists k, rel k ds) by (intros; auto).
    assert (Fp : forall f, In f fs -> (0 < f)%Qc) by (intros f [<-|[]]; reflexivity). assert (Fs : fs <> []) by discriminate.
    destruct (built (construct (pack proto)) _ [t] fs (fun _ => rel) choice K dc Ec Ac Ht1 (choices_cover proto) Hc1) as [sy [E _]].
    destruct (built_paths _ _ [t] fs (fun _ => rel) choice K dc Ec Ac Ht1 (choices_cover proto) Hc1 Fp sy (data sy) asg HK E eq_refl Na Ka (ex_intro _ ds (conj Hc Hsame)))
      as [F L].
    cbn [combine length fs map fst] in F, L. exists sy.
    destruct (tables (data sy)) as [|m [|m' [|]]] eqn:Et; try discriminate. cbn [removelast map] in F.
    destruct (conversion_data sy) as [|c cs] eqn:Ecv; [inversion F|]. cbn [combine] in F. inversion F as [|? ? ? ? [d [p [y [k [B1 [B2 [B3 [B4 [B5 B6]]]]]]]]]]; subst.
    exists m, m', c, cs. splits; auto. exists p, k, d, y. splits; auto.
  Qed.
End Generic.
