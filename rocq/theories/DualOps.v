(** What each operation of the dual solver does to a well-formed system. *)

From Coq Require Import List Bool Arith Lia ZArith QArith Qcanon.
From Verif Require Import Base Graph PackedDag PackedDagProofs PackedTables PackedScale Convert
  DualSolver DualSpec DualLists DualPaths.
Import ListNotations.
Close Scope Qc_scope. Close Scope Q_scope. Open Scope nat_scope.

(** [s'] is [s] with penalty tables [f] and extra unary costs [ex]. *)
Record updated (s s' : sysdata) (f : nat -> list (list cost)) (ex : list (list cost)) : Prop := {
  u_imap : imap s' = imap s;
  u_weights : weights s' = weights s;
  u_keys : num_keys s' = num_keys s;
  u_values : num_values s' = num_values s;
  u_n : num_dags s' = num_dags s;
  u_dag : forall j, j < num_dags s -> dag_of s' j = dag_of s j;
  u_pens : forall j, j < num_dags s -> pens (table s' j) = f j;
  u_extra : extra s' = ex;
  u_ok : sys_ok s'
}.
Definition same (s s' : sysdata) : Prop := updated s s' (fun j => pens (table s j)) (extra s).
(** Only the penalties and extra costs of variable [v] change. *)
Definition written (s : sysdata) (v : nat) (rows : nat -> list cost) (row : list cost) (s' : sysdata) : Prop :=
  updated s s'
    (fun j => match local s v j with
              | Some k => updnth k (rows j) (pens (table s j))
              | None => pens (table s j) end)
    (updnth v row (extra s)).

Lemma rebuilt_ok s ts ex : sys_ok s -> length ts = num_dags s ->
  (forall j, j < num_dags s -> inv (nth j ts no_table) /\ m_dag (nth j ts no_table) = dag_of s j) ->
  length ex = num_keys s ->
  (forall v, v < num_keys s -> length (nth v ex []) = num_values s) ->
  (forall v a, v < num_keys s -> a < num_values s -> nth a (nth v ex []) NaN <> NaN) ->
  sys_ok (mkSys ts (imap s) (weights s) ex (num_keys s) (num_values s)).
Proof.
  intros O Hl Ht He1 He2 He3.
  assert (Hn : num_dags (mkSys ts (imap s) (weights s) ex (num_keys s) (num_values s)) = num_dags s)
    by exact Hl.
  constructor; cbn [imap weights extra num_keys num_values]; rewrite ?Hn.
  - apply (so_imap s O).
  - apply (so_rows s O).
  - apply (so_weights s O).
  - apply (so_positive s O).
  - exact He1.
  - exact He2.
  - exact He3.
  - intros j Hj. destruct (Ht j Hj) as [I E]. destruct (so_tables s O j Hj) as [_ [V K]].
    unfold dag_of, table. cbn [tables]. rewrite E. auto.
  - intros j Hj. destruct (Ht j Hj) as [_ E]. unfold dag_of, table at 1. cbn [tables]. rewrite E.
    apply (so_columns s O j Hj).
  - intros v Hv. destruct (so_participant s O v Hv) as [j [Hj El]]. exists j. auto.
  - apply (so_values s O).
Qed.

Lemma same_refl s : sys_ok s -> same s s.
Proof. intros O. constructor; auto. Qed.

Lemma participants_ok s v : sys_ok s -> v < num_keys s ->
  participants s v = Ok (combine (tables s) (nth v (imap s) [])).
Proof.
  intros O Hv. unfold participants.
  rewrite (nth_error_nth' _ []) by now rewrite (so_imap s O). reflexivity.
Qed.
Lemma extra_row_ok s v : sys_ok s -> v < num_keys s -> nth_error (extra s) v = Some (nth v (extra s) []).
Proof. intros O Hv. apply nth_error_nth'. now rewrite (so_extra s O). Qed.

Lemma nth_write_rows ts row rows j : length row = length ts -> length rows = length ts -> j < length ts ->
  nth j (write_rows (combine ts row) rows) no_table =
  match nth j row None with
  | Some k => set_penalties (nth j ts no_table) k (nth j rows [])
  | None => nth j ts no_table end.
Proof.
  intros Hr Hrs Hj. unfold write_rows.
  set (g := fun x : memo * option nat * list cost =>
    match snd (fst x) with Some k => set_penalties (fst (fst x)) k (snd x) | None => fst (fst x) end).
  rewrite nth_indep with (d' := g ((no_table, None), []))
    by (rewrite map_length, !combine_length; lia).
  rewrite map_nth, combine_nth by (rewrite combine_length; lia).
  rewrite combine_nth by lia. reflexivity.
Qed.
Lemma write_rows_length ts row rows : length row = length ts -> length rows = length ts ->
  length (write_rows (combine ts row) rows) = length ts.
Proof. intros. unfold write_rows. rewrite map_length, !combine_length. lia. Qed.

(** Writing rows into tables that may already have had the same rows overwritten. *)
Lemma write_spec s v ts rows row :
  sys_ok s -> v < num_keys s -> length ts = num_dags s -> length rows = num_dags s ->
  (forall j, j < num_dags s -> inv (nth j ts no_table) /\ m_dag (nth j ts no_table) = dag_of s j /\
     match local s v j with
     | Some k => exists r0, updnth k r0 (pens (nth j ts no_table)) = updnth k r0 (pens (table s j))
     | None => pens (nth j ts no_table) = pens (table s j) end) ->
  (forall j, j < num_dags s -> local s v j <> None ->
     length (nth j rows []) = num_values s /\ Forall (fun c => c <> NaN) (nth j rows [])) ->
  length row = num_values s -> Forall (fun c => c <> NaN) row ->
  written s v (fun j => nth j rows []) row
    (mkSys (write_rows (combine ts (nth v (imap s) [])) rows)
       (imap s) (weights s) (updnth v row (extra s)) (num_keys s) (num_values s)).
Proof.
  intros O Hv Hts Hrs Ht Hr Hrow Hnn.
  assert (Hri : length (nth v (imap s) []) = length ts) by (rewrite (so_rows s O v Hv); auto).
  assert (Hw : forall j, j < num_dags s ->
     nth j (write_rows (combine ts (nth v (imap s) [])) rows) no_table =
     match local s v j with
     | Some k => set_penalties (nth j ts no_table) k (nth j rows [])
     | None => nth j ts no_table end).
  { intros j Hj. rewrite nth_write_rows by lia. reflexivity. }
  constructor; try reflexivity.
  - unfold num_dags at 1. cbn [tables]. rewrite write_rows_length by lia. exact Hts.
  - intros j Hj. unfold dag_of at 1, table at 1. cbn [tables]. rewrite Hw by auto.
    destruct (Ht j Hj) as [_ [D _]]. destruct (local s v j); cbn [set_penalties m_dag]; auto.
  - intros j Hj. unfold table at 1. cbn [tables]. rewrite Hw by auto.
    destruct (Ht j Hj) as [_ [_ P]]. destruct (local s v j) as [k|]; cbn [set_penalties pens]; auto.
    destruct P as [r0 P]. rewrite <- (updnth_twice k _ r0), P, updnth_twice. reflexivity.
  - apply rebuilt_ok; auto.
    + rewrite write_rows_length by lia. exact Hts.
    + intros j Hj. rewrite Hw by auto. destruct (Ht j Hj) as [I [D _]].
      destruct (local s v j) as [k|] eqn:El; auto. split; [|exact D].
      destruct (table_facts s O j Hj) as [_ [_ [_ [V _]]]].
      destruct (Hr j Hj) as [R1 R2]; [congruence|].
      apply set_penalties_spec; auto; rewrite D.
      * eapply local_lt; eauto.
      * lia.
    + rewrite updnth_length. apply (so_extra s O).
    + intros u Hu. destruct (Nat.eq_dec v u) as [<-|Hne].
      * rewrite nth_updnth_same by now rewrite (so_extra s O). exact Hrow.
      * rewrite nth_updnth_other by auto. now apply (so_extra_rows s O).
    + intros u a Hu Ha. destruct (Nat.eq_dec v u) as [<-|Hne].
      * rewrite nth_updnth_same by now rewrite (so_extra s O).
        rewrite Forall_forall in Hnn. apply Hnn, nth_In. lia.
      * rewrite nth_updnth_other by auto. now apply (so_extra_nn s O).
Qed.

(** Reading the result. *)
Section Read.
  Context (s s' : sysdata) (O : sys_ok s).
  Lemma updated_local f ex u j : updated s s' f ex -> local s' u j = local s u j.
  Proof. intros U. unfold local. now rewrite (u_imap _ _ _ _ U). Qed.
  Lemma same_pen_at j u a : same s s' -> j < num_dags s -> pen_at s' j u a = pen_at s j u a.
  Proof.
    intros U Hj. unfold pen_at. rewrite (updated_local _ _ u j U).
    destruct (local s u j); auto. now rewrite (u_pens _ _ _ _ U j Hj).
  Qed.
  Lemma written_pen_at v rows row j u a : written s v rows row s' ->
    v < num_keys s -> u < num_keys s -> j < num_dags s ->
    pen_at s' j u a =
    if u =? v then match local s v j with Some _ => get (rows j) a | None => Fin 0%Qc end
    else pen_at s j u a.
  Proof.
    intros U Hv Hu Hj. unfold pen_at. rewrite (updated_local _ _ u j U), (u_pens _ _ _ _ U j Hj).
    destruct (table_facts s O j Hj) as [_ [[HP _] _]].
    destruct (Nat.eqb_spec u v) as [->|Hne].
    - destruct (local s v j) as [k|] eqn:E; auto.
      rewrite nth_updnth_same; [reflexivity|]. rewrite HP. eapply local_lt; eauto.
    - destruct (local s u j) as [k|] eqn:E; auto.
      destruct (local s v j) as [k'|] eqn:E'; auto.
      rewrite nth_updnth_other; auto. intros ->. apply Hne. eapply local_inj; eauto.
  Qed.
  Lemma written_extra_at v rows row u a : written s v rows row s' -> v < num_keys s ->
    extra_at s' u a = if u =? v then get row a else extra_at s u a.
  Proof.
    intros U Hv. unfold extra_at. rewrite (u_extra _ _ _ _ U).
    destruct (Nat.eqb_spec u v) as [->|Hne].
    - rewrite nth_updnth_same by now rewrite (so_extra s O). reflexivity.
    - rewrite nth_updnth_other by auto. reflexivity.
  Qed.
  (** Solutions do not depend on the penalties. *)
  Lemma updated_solution f ex x ps : updated s s' f ex -> (solution s' x ps <-> solution s x ps).
  Proof.
    intros U. unfold solution, chooses. rewrite (u_keys _ _ _ _ U), (u_n _ _ _ _ U).
    split; intros [H1 [H2 H3]]; splits; auto; intros j Hj; specialize (H3 j Hj);
      rewrite (u_dag _ _ _ _ U j Hj) in *; destruct H3 as [H3 H4]; split; auto;
      intros v k Hv El; apply H4; auto; rewrite (updated_local _ _ v j U) in *; auto.
  Qed.
End Read.

Lemma same_trans s1 s2 s3 : same s1 s2 -> same s2 s3 -> same s1 s3.
Proof.
  intros U V. constructor.
  - now rewrite (u_imap _ _ _ _ V), (u_imap _ _ _ _ U).
  - now rewrite (u_weights _ _ _ _ V), (u_weights _ _ _ _ U).
  - now rewrite (u_keys _ _ _ _ V), (u_keys _ _ _ _ U).
  - now rewrite (u_values _ _ _ _ V), (u_values _ _ _ _ U).
  - now rewrite (u_n _ _ _ _ V), (u_n _ _ _ _ U).
  - intros j Hj. rewrite (u_dag _ _ _ _ V), (u_dag _ _ _ _ U); auto. now rewrite (u_n _ _ _ _ U).
  - intros j Hj. rewrite (u_pens _ _ _ _ V), (u_pens _ _ _ _ U); auto. now rewrite (u_n _ _ _ _ U).
  - now rewrite (u_extra _ _ _ _ V), (u_extra _ _ _ _ U).
  - apply (u_ok _ _ _ _ V).
Qed.

(** A system differing from [s] only in the internal state of its tables. *)
Lemma rebuilt_same s ts : sys_ok s -> length ts = num_dags s ->
  (forall j, j < num_dags s -> inv (nth j ts no_table) /\ m_dag (nth j ts no_table) = dag_of s j /\
     pens (nth j ts no_table) = pens (table s j)) ->
  same s (mkSys ts (imap s) (weights s) (extra s) (num_keys s) (num_values s)).
Proof.
  intros O Hl Ht. constructor; try reflexivity.
  - exact Hl.
  - intros j Hj. now destruct (Ht j Hj) as [_ [D _]].
  - intros j Hj. now destruct (Ht j Hj) as [_ [_ P]].
  - apply rebuilt_ok; auto.
    + intros j Hj. destruct (Ht j Hj) as [I [D _]]; auto.
    + apply (so_extra s O).
    + apply (so_extra_rows s O).
    + apply (so_extra_nn s O).
Qed.

Lemma clone_same s : sys_ok s -> same s (clone_system_data s).
Proof.
  intros O. unfold clone_system_data. apply rebuilt_same; auto.
  - apply map_length.
  - intros j Hj. replace (nth j (map copy_memo (tables s)) no_table) with (table s j).
    + destruct (table_facts s O j Hj) as [_ [_ [I _]]]. auto.
    + change no_table with (copy_memo no_table) at 1. rewrite map_nth.
      unfold table, copy_memo. now destruct (nth j (tables s) no_table).
Qed.

(** ** [system_min_marginals]. *)
Definition marginal_bound (s : sysdata) (v j a : nat) (c : cost) : Prop :=
  match local s v j with
  | Some k => least (marginal_costs (dag_of s j) (pens (table s j)) k a) c
  | None => least (complete_costs (dag_of s j) (pens (table s j))) c
  end.

Lemma system_min_marginals_spec s v : sys_ok s -> v < num_keys s ->
  exists mm s' M, system_min_marginals s v = Ok (mm, s') /\ same s s' /\
    length mm = num_values s /\
    (forall j a, j < num_dags s -> a < num_values s -> marginal_bound s v j a (M j a)) /\
    (forall a, a < num_values s -> get mm a = over (num_dags s) (fun j => M j a)).
Proof.
  intros O Hv. unfold system_min_marginals. rewrite participants_ok by auto. cbn [bind].
  set (ps := combine (tables s) (nth v (imap s) [])).
  pose proof (so_rows s O v Hv) as Hrow.
  assert (Hps : length ps = num_dags s) by (unfold ps; rewrite combine_length, Hrow; unfold num_dags; lia).
  assert (Hnth : forall j, nth j ps (no_table, None) = (table s j, local s v j)).
  { intros j. unfold ps. rewrite combine_nth by (rewrite Hrow; reflexivity). reflexivity. }
  assert (Hone : forall j, j < num_dags s -> exists r t,
    aggregate_one (num_values s) (nth j ps (no_table, None)) = Ok (r, t) /\
    inv t /\ m_dag t = dag_of s j /\ pens t = pens (table s j) /\ length r = num_values s /\
    forall a, a < num_values s -> marginal_bound s v j a (get r a)).
  { intros j Hj. rewrite Hnth. destruct (table_facts s O j Hj) as [L [HP [I [V K]]]].
    unfold aggregate_one, marginal_bound. cbn [fst snd]. destruct (local s v j) as [k|] eqn:El.
    - destruct (min_marginals_spec (table s j) k I) as [mm [t [E [It [Dt [Pt [Lm Hm]]]]]]];
        [eapply local_lt; eauto|].
      exists mm, t. splits; auto; fold (dag_of s j) in *; try congruence.
      intros a Ha. apply Hm. lia.
    - destruct (minimal_cost_spec (table s j) FROM_MIDDLE I) as [c [t [E [It [Dt [Pt Hc]]]]]].
      { fold (dag_of s j). simpl. rewrite V. pose proof (so_values s O). auto. }
      rewrite E. cbn [bind fst snd]. eexists _, t. splits; auto.
      + apply repeat_length.
      + intros a Ha. now rewrite get_repeat. }
  destruct (mapM_pointwise (aggregate_one (num_values s)) ps (no_table, None)) as [rs [Ers [Hrl Hrs]]].
  { intros j Hj. rewrite Hps in Hj. destruct (Hone j Hj) as [r [t [E _]]]. eauto. }
  rewrite Ers. cbn [bind].
  assert (Hr : forall j, j < num_dags s ->
    let r := nth j rs ([], no_table) in
    inv (snd r) /\ m_dag (snd r) = dag_of s j /\ pens (snd r) = pens (table s j) /\
    length (fst r) = num_values s /\ forall a, a < num_values s -> marginal_bound s v j a (get (fst r) a)).
  { intros j Hj r. destruct (Hone j Hj) as [r0 [t [E H]]].
    specialize (Hrs j (no_table, None) ([], no_table)). rewrite Hps, E in Hrs.
    specialize (Hrs Hj). injection Hrs as Hrs. unfold r. rewrite <- Hrs. cbn [fst snd]. exact H. }
  eexists _, _, (fun j a => get (fst (nth j rs ([], no_table))) a). splits; [reflexivity| | | |].
  - apply rebuilt_same; auto.
    + rewrite map_length. lia.
    + intros j Hj. change no_table with (snd (@nil cost, no_table)) at 1 2 3. rewrite map_nth.
      destruct (Hr j Hj) as [H1 [H2 [H3 _]]]. auto.
  - destruct (fold_vadd_get (num_values s) (map fst rs) (repeat (Fin 0%Qc) (num_values s)) 0) as [H _]; auto.
    + apply repeat_length.
    + intros r Hi. apply in_map_iff in Hi as [[r' t] [<- Hi]].
      apply In_nth with (d := ([], no_table)) in Hi as [j [Hj Ej]].
      destruct (Hr j) as [_ [_ [_ [H _]]]]; [lia|]. rewrite Ej in H. exact H.
    + apply (so_values s O).
  - intros j a Hj Ha. destruct (Hr j Hj) as [_ [_ [_ [_ H]]]]. auto.
  - intros a Ha.
    destruct (fold_vadd_get (num_values s) (map fst rs) (repeat (Fin 0%Qc) (num_values s)) a) as [_ H]; auto.
    + apply repeat_length.
    + intros r Hi. apply in_map_iff in Hi as [[r' t] [<- Hi]].
      apply In_nth with (d := ([], no_table)) in Hi as [j [Hj Ej]].
      destruct (Hr j) as [_ [_ [_ [H _]]]]; [lia|]. rewrite Ej in H. exact H.
    + rewrite H, get_repeat, cadd_0_l, map_map by auto.
      rewrite (csum_over _ ([], no_table)), Hrl, Hps. reflexivity.
Qed.

(** ** [min_marginal_average]. *)
Definition rest_costs (s : sysdata) (j k a : nat) (c : cost) : Prop :=
  exists p, packed_complete (dag_of s j) p /\ In (k, a) (path_assignments p) /\
    rest_cost (pens (table s j)) k p = c.

(** The share of subproblem [j] in the update of [v]. *)
Definition weight_of (s : sysdata) (v j : nat) : Qc :=
  match local s v j with Some _ => nth j (weights s) 0%Qc | None => 0%Qc end.

Lemma qsum_nonneg {A} (f : A -> Qc) l : (forall x, In x l -> (0 <= f x)%Qc) -> (0 <= qsum (map f l))%Qc.
Proof.
  induction l as [|x l IH]; intros H; cbn; [apply Qcle_refl|].
  assert (H1 : (0 <= f x)%Qc) by (apply H; simpl; auto).
  assert (H2 : (0 <= qsum (map f l))%Qc) by (apply IH; intros; apply H; simpl; auto).
  unfold qsum in H2. qc_lra.
Qed.
Lemma qsum_pos {A} (f : A -> Qc) l y : (forall x, In x l -> (0 <= f x)%Qc) -> In y l -> (0 < f y)%Qc ->
  (0 < qsum (map f l))%Qc.
Proof.
  induction l as [|x l IH]; intros H Hi Hy; [destruct Hi|]. cbn.
  assert (H1 : (0 <= f x)%Qc) by (apply H; simpl; auto).
  destruct Hi as [->|Hi].
  - assert (H2 : (0 <= qsum (map f l))%Qc) by (apply qsum_nonneg; intros; apply H; simpl; auto).
    unfold qsum in H2. qc_lra.
  - assert (H2 : (0 < qsum (map f l))%Qc) by (apply IH; auto; intros; apply H; simpl; auto).
    unfold qsum in H2. qc_lra.
Qed.

Lemma weight_of_pos s v j : sys_ok s -> j < num_dags s -> local s v j <> None -> (0 < weight_of s v j)%Qc.
Proof.
  intros O Hj Hl. unfold weight_of. destruct (local s v j); [|congruence].
  apply (so_positive s O). apply nth_In. now rewrite (so_weights s O).
Qed.
Lemma weight_of_nonneg s v j : sys_ok s -> j < num_dags s -> (0 <= weight_of s v j)%Qc.
Proof.
  intros O Hj. destruct (local s v j) eqn:E.
  - apply Qclt_le_weak. apply weight_of_pos; auto. congruence.
  - unfold weight_of. rewrite E. apply Qcle_refl.
Qed.
Definition total_weight (s : sysdata) (v : nat) : Qc := qsum (map (weight_of s v) (seq 0 (num_dags s))).
Lemma total_weight_pos s v : sys_ok s -> v < num_keys s -> (0 < total_weight s v)%Qc.
Proof.
  intros O Hv. destruct (so_participant s O v Hv) as [j [Hj El]].
  apply (qsum_pos _ _ j).
  - intros i Hi. apply in_seq in Hi. apply weight_of_nonneg; auto. lia.
  - apply in_seq; lia.
  - now apply weight_of_pos.
Qed.

Lemma Qcdiv_pos a b : (0 < a)%Qc -> (0 < b)%Qc -> (0 < a / b)%Qc.
Proof.
  intros Ha Hb. unfold Qclt, Qcdiv in *. rewrite Qcmult_this. apply Qmult_lt_0_compat; auto.
  unfold Qcinv. rewrite Q2Qc_this. now apply Qinv_lt_0_compat.
Qed.

Lemma average_spec s v : sys_ok s -> v < num_keys s ->
  exists best s' rows (M : nat -> nat -> cost) (N total : nat -> cost) m,
    min_marginal_average s v = Ok (best, s') /\
    written s v rows (nth v (extra s) []) s' /\
    (forall j a, j < num_dags s -> a < num_values s ->
       match local s v j with
       | Some k => least (rest_costs s j k a) (M j a) | None => M j a = Fin 0%Qc end) /\
    (forall j, j < num_dags s ->
       match local s v j with
       | Some _ => N j = Fin 0%Qc
       | None => least (complete_costs (dag_of s j) (pens (table s j))) (N j) end) /\
    (forall a, a < num_values s -> total a = cadd (over (num_dags s) (fun j => M j a)) (extra_at s v a)) /\
    (forall j k a, j < num_dags s -> a < num_values s -> local s v j = Some k ->
       get (rows j) a = match total a with
                        | Fin t => csub (Fin (t * (weight_of s v j / total_weight s v))%Qc) (M j a)
                        | c => c end) /\
    (forall a, a < num_values s -> cle m (total a)) /\
    (exists a, a < num_values s /\ total a = m) /\
    best = cadd m (over (num_dags s) N).
Proof.
  intros O Hv. unfold min_marginal_average. rewrite participants_ok by auto. cbn [bind].
  set (ps := combine (tables s) (nth v (imap s) [])).
  pose proof (so_rows s O v Hv) as Hrow.
  assert (Hps : length ps = num_dags s) by (unfold ps; rewrite combine_length, Hrow; unfold num_dags; lia).
  assert (Hnth : forall j, nth j ps (no_table, None) = (table s j, local s v j)).
  { intros j. unfold ps. rewrite combine_nth by (rewrite Hrow; reflexivity). reflexivity. }
  assert (Hone : forall j, j < num_dags s -> exists r t,
    collect_one (num_values s) (nth j ps (no_table, None)) = Ok (r, t) /\
    inv t /\ m_dag t = dag_of s j /\
    match local s v j with
    | Some k => pens t = updnth k (repeat (Fin 0%Qc) (num_values s)) (pens (table s j)) /\
        exists mm, r = inl mm /\ length mm = num_values s /\
        forall a, a < num_values s -> least (rest_costs s j k a) (get mm a)
    | None => pens t = pens (table s j) /\
        exists c, r = inr c /\ least (complete_costs (dag_of s j) (pens (table s j))) c end).
  { intros j Hj. rewrite Hnth. destruct (table_facts s O j Hj) as [L [HP [I [V K]]]].
    unfold collect_one. cbn [fst snd]. destruct (local s v j) as [k|] eqn:El.
    - assert (Hk : k < n_keys (dag_of s j)) by (eapply local_lt; eauto).
      assert (I0 : inv (set_penalties (table s j) k (repeat (Fin 0%Qc) (num_values s)))).
      { apply set_penalties_spec; auto.
        - rewrite repeat_length. fold (dag_of s j). auto.
        - apply Forall_forall. intros c Hc. apply repeat_spec in Hc. subst; discriminate. }
      destruct (min_marginals_spec _ k I0) as [mm [t [E [It [Dt [Pt [Lm Hm]]]]]]]; [exact Hk|].
      cbn [set_penalties m_dag pens] in Dt, Pt, Lm, Hm. fold (dag_of s j) in *.
      rewrite E. cbn [bind fst snd]. exists (inl mm), t. splits; auto.
      exists mm. splits; auto; [congruence|].
      intros a Ha. apply (least_ext _ _ _) with (2 := Hm a ltac:(lia)). intros c.
      unfold rest_costs, marginal_costs.
      split; intros [p [Hp [Hi Ec]]]; exists p; splits; auto; rewrite <- Ec; clear Ec;
        rewrite (rest_split_row (dag_of s j) _ k a) by (auto; destruct HP as [HP _]; lia);
        change (nth a (repeat (Fin 0%Qc) (num_values s)) NaN) with (get (repeat (Fin 0%Qc) (num_values s)) a);
        rewrite get_repeat, cadd_0_r by auto; reflexivity.
    - destruct (minimal_cost_spec (table s j) FROM_MIDDLE I) as [c [t [E [It [Dt [Pt Hc]]]]]].
      { fold (dag_of s j). simpl. rewrite V. pose proof (so_values s O). auto. }
      rewrite E. cbn [bind fst snd]. eexists _, t. splits; auto. exists c. auto. }
  destruct (mapM_pointwise (collect_one (num_values s)) ps (no_table, None)) as [rs [Ers [Hrl Hrs]]].
  { intros j Hj. rewrite Hps in Hj. destruct (Hone j Hj) as [r [t [E _]]]. eauto. }
  rewrite Ers. cbn [bind]. rewrite extra_row_ok by auto. cbn [or_err bind].
  set (infos := map fst rs).
  assert (Hinfo : forall j, j < num_dags s ->
    let i := nth j infos (inr NaN) in let t := nth j (map snd rs) no_table in
    inv t /\ m_dag t = dag_of s j /\
    match local s v j with
    | Some k => pens t = updnth k (repeat (Fin 0%Qc) (num_values s)) (pens (table s j)) /\
        exists mm, i = inl mm /\ length mm = num_values s /\
        forall a, a < num_values s -> least (rest_costs s j k a) (get mm a)
    | None => pens t = pens (table s j) /\
        exists c, i = inr c /\ least (complete_costs (dag_of s j) (pens (table s j))) c end).
  { intros j Hj i t. destruct (Hone j Hj) as [r0 [t0 [E H]]].
    specialize (Hrs j (no_table, None) (inr NaN, no_table)). rewrite Hps, E in Hrs.
    specialize (Hrs Hj). injection Hrs as Hrs.
    assert (Ei : i = r0).
    { unfold i, infos. change (@inr (list cost) cost NaN) with (fst (@inr (list cost) cost NaN, no_table)).
      rewrite map_nth, <- Hrs. reflexivity. }
    assert (Et : t = t0).
    { unfold t. change no_table with (snd (@inr (list cost) cost NaN, no_table)).
      rewrite map_nth, <- Hrs. reflexivity. }
    rewrite Ei, Et. exact H. }
  assert (Hil : length infos = num_dags s) by (unfold infos; rewrite map_length; lia).
  assert (Hmml : forall mm, In (inl mm) infos -> length mm = num_values s).
  { intros mm Hi. apply In_nth with (d := inr NaN) in Hi as [j [Hj Ej]]. rewrite Hil in Hj.
    destruct (Hinfo j Hj) as [_ [_ H]]. destruct (local s v j).
    - destruct H as [_ [mm' [E [Hl _]]]]. rewrite Ej in E. congruence.
    - destruct H as [_ [c [E _]]]. rewrite Ej in E. discriminate. }
  set (total := vadd (fold_left add_marginals infos (repeat (Fin 0%Qc) (num_values s))) (nth v (extra s) [])).
  set (M := fun j a => marginal_part (nth j infos (inr NaN)) a).
  set (N := fun j => other_part (nth j infos (inr NaN))).
  assert (Hfl : length (fold_left add_marginals infos (repeat (Fin 0%Qc) (num_values s))) = num_values s).
  { destruct (fold_marginals_get (num_values s) infos (repeat (Fin 0%Qc) (num_values s)) 0) as [H _]; auto.
    - apply repeat_length.
    - apply (so_values s O). }
  assert (Htl : length total = num_values s).
  { unfold total. rewrite vadd_length; [exact Hfl|]. now rewrite Hfl, (so_extra_rows s O). }
  assert (Htotal : forall a, a < num_values s ->
    get total a = cadd (over (num_dags s) (fun j => M j a)) (extra_at s v a)).
  { intros a Ha. unfold total. rewrite get_vadd by (rewrite Hfl; auto; now rewrite (so_extra_rows s O)).
    destruct (fold_marginals_get (num_values s) infos (repeat (Fin 0%Qc) (num_values s)) a) as [_ H]; auto.
    { apply repeat_length. }
    rewrite H, get_repeat, cadd_0_l by auto.
    rewrite (csum_over _ (inr NaN)), Hil. reflexivity. }
  assert (HM : forall j a, j < num_dags s -> a < num_values s ->
     match local s v j with
     | Some k => least (rest_costs s j k a) (M j a) | None => M j a = Fin 0%Qc end).
  { intros j a Hj Ha. unfold M. destruct (Hinfo j Hj) as [_ [_ H]]. destruct (local s v j).
    - destruct H as [_ [mm [-> [_ H]]]]. now apply H.
    - destruct H as [_ [c [-> _]]]. reflexivity. }
  assert (HN : forall j, j < num_dags s ->
     match local s v j with
     | Some _ => N j = Fin 0%Qc
     | None => least (complete_costs (dag_of s j) (pens (table s j))) (N j) end).
  { intros j Hj. unfold N. destruct (Hinfo j Hj) as [_ [_ H]]. destruct (local s v j).
    - destruct H as [_ [mm [-> _]]]. reflexivity.
    - destruct H as [_ [c [-> H]]]. exact H. }
  assert (HMn : forall j a, j < num_dags s -> a < num_values s -> M j a <> NaN).
  { intros j a Hj Ha. specialize (HM j a Hj Ha). destruct (local s v j).
    - now destruct HM.
    - rewrite HM. discriminate. }
  assert (Htn : forall a, a < num_values s -> get total a <> NaN).
  { intros a Ha. rewrite Htotal by auto. apply cadd_notnan.
    - apply over_notnan. auto.
    - apply (so_extra_nn s O); auto. }
  assert (HW : fold_left add_weight (combine infos (weights s)) 0%Qc = total_weight s v).
  { rewrite fold_weight, Qcplus_0_l. unfold total_weight.
    rewrite (map_nth_seq weight_part (inr NaN, 0%Qc)), combine_length, Hil, (so_weights s O), Nat.min_id.
    f_equal. apply map_ext_in. intros j Hj. apply in_seq in Hj.
    rewrite combine_nth by (rewrite Hil, (so_weights s O); auto).
    unfold weight_part, weight_of. cbn [fst snd].
    destruct (Hinfo j) as [_ [_ H]]; [lia|]. destruct (local s v j).
    - destruct H as [_ [mm [-> _]]]. reflexivity.
    - destruct H as [_ [c [-> _]]]. reflexivity. }
  rewrite HW. set (W := total_weight s v) in *.
  assert (HWp : (0 < W)%Qc) by now apply total_weight_pos.
  set (rows := map (new_penalties total W) (combine infos (weights s))).
  assert (Hrows : forall j, j < num_dags s ->
     nth j rows [] = new_penalties total W (nth j infos (inr NaN), nth j (weights s) 0%Qc)).
  { intros j Hj. unfold rows.
    rewrite nth_indep with (d' := new_penalties total W (inr NaN, 0%Qc))
      by (rewrite map_length, combine_length, Hil, (so_weights s O); lia).
    rewrite map_nth, combine_nth by (rewrite Hil, (so_weights s O); auto). reflexivity. }
  assert (Hrowv : forall j k, j < num_dags s -> local s v j = Some k ->
     length (nth j rows []) = num_values s /\
     forall a, a < num_values s -> get (nth j rows []) a =
       match get total a with
       | Fin t => csub (Fin (t * (weight_of s v j / W))%Qc) (M j a)
       | c => c end).
  { intros j k Hj El. rewrite Hrows by auto.
    assert (Hwp : (0 < weight_of s v j)%Qc) by (apply weight_of_pos; auto; congruence).
    unfold weight_of, M in *. destruct (Hinfo j Hj) as [_ [_ H]]. rewrite El in *.
    destruct H as [_ [mm [-> [Hmm _]]]]. unfold new_penalties. cbn [fst snd].
    split; [rewrite map_length, combine_length; lia|].
    intros a Ha. rewrite (get_map_combine _ _ _ _ NaN NaN) by lia. cbn [fst snd].
    fold (get total a). fold (get mm a). cbn [marginal_part].
    pose proof (Htn a Ha) as Hna.
    destruct (get total a) as [t| |]; [reflexivity| |congruence].
    rewrite cscale_inf by now apply Qcdiv_pos. reflexivity. }
  destruct (np_min_values total) as [m [Em [Nm [Hle [am [Ham Eam]]]]]].
  { intros E. rewrite E in Htl. simpl in Htl. pose proof (so_values s O). lia. }
  { intros i Hi. apply Htn. lia. }
  rewrite Em. cbn [bind].
  eexists _, _, (fun j => nth j rows []), M, N, (get total), m.
  splits; [reflexivity| | | | | | | |]; auto.
  - (* written *)
    assert (Esnd : map snd ps = nth v (imap s) []).
    { unfold ps. clear - Hrow. unfold num_dags in Hrow. revert Hrow.
      generalize (nth v (imap s) []), (tables s). intros l. induction l as [|x l IH]; intros [|t ts]; simpl; try lia; auto.
      intros H. f_equal. apply IH. lia. }
    rewrite Esnd.
    assert (Eex : extra s = updnth v (nth v (extra s) []) (extra s)).
    { clear - O Hv. pose proof (so_extra s O). revert v Hv. rewrite <- H. clear H O.
      generalize (extra s). intros l. induction l as [|r l IH]; intros [|v] Hv; simpl in *; try lia; auto.
      rewrite updnth_cons_S. f_equal. apply IH. lia. }
    rewrite Eex at 2. apply write_spec; auto.
    + rewrite map_length. lia.
    + unfold rows. rewrite map_length, combine_length, Hil, (so_weights s O). lia.
    + intros j Hj. destruct (Hinfo j Hj) as [H1 [H2 H3]]. splits; auto.
      destruct (local s v j) as [k|].
      * destruct H3 as [H3 _]. rewrite H3. exists []. apply updnth_twice.
      * now destruct H3.
    + intros j Hj Hl. destruct (local s v j) as [k|] eqn:El; [|congruence].
      destruct (Hrowv j k Hj El) as [R1 R2]. split; auto.
      apply Forall_get. intros a Ha. rewrite R1 in Ha. rewrite R2 by auto.
      pose proof (Htn a Ha) as Hna. destruct (get total a) as [t| |] eqn:Et; [|discriminate|congruence].
      (* the total is finite, hence so is the min marginal *)
      rewrite Htotal in Et by auto. apply cadd_fin_inv in Et as [x [y [Ex Ey]]].
      pose proof (HMn j a Hj Ha) as Hmn.
      destruct (M j a) as [z| |] eqn:EM; [discriminate| |congruence].
      exfalso. assert (C : over (num_dags s) (fun j => M j a) = Inf).
      { apply over_inf_iff; [auto|]. exists j. auto. }
      congruence.
    + now apply (so_extra_rows s O).
    + apply Forall_get. intros a Ha. rewrite (so_extra_rows s O) in Ha by auto.
      now apply (so_extra_nn s O).
  - intros j k a Hj Ha El. now apply (Hrowv j k).
  - intros a Ha. apply Hle. lia.
  - exists am. split; [lia|auto].
  - f_equal. rewrite fold_other, cadd_0_l, (csum_over _ (inr NaN)), Hil. reflexivity.
Qed.
