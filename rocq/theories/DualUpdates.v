(** Adding unary costs, committing to a value, forbidding values. *)

From Coq Require Import List Bool Arith Lia ZArith QArith Qcanon.
From Verif Require Import Base Graph PackedDag PackedDagProofs PackedTables PackedScale Convert
  DualSolver DualSpec DualLists DualPaths DualOps DualInvariant.
Import ListNotations.
Close Scope Qc_scope. Close Scope Q_scope. Open Scope nat_scope.

Definition no_nans (l : list cost) : Prop := Forall (fun c => c <> NaN) l.

(** Applying [F] to the penalty row of [v] in every participating subproblem. *)
Lemma row_update s v (F : list cost -> list cost) row : sys_ok s -> v < num_keys s ->
  (forall r, length r = num_values s -> no_nans r -> length (F r) = num_values s /\ no_nans (F r)) ->
  length row = num_values s -> no_nans row ->
  exists rows,
  written s v rows row
    (mkSys (write_rows (combine (tables s) (nth v (imap s) []))
              (map (fun p : memo * option nat => match snd p with
                             | Some k => F (nth k (pens (fst p)) [])
                             | None => [] end) (combine (tables s) (nth v (imap s) []))))
           (imap s) (weights s) (updnth v row (extra s)) (num_keys s) (num_values s)) /\
  forall j k, j < num_dags s -> local s v j = Some k -> rows j = F (nth k (pens (table s j)) []).
Proof.
  intros O Hv HF Hrow Hnn. set (ps := combine (tables s) (nth v (imap s) [])).
  set (g := fun p : memo * option nat => match snd p with
                             | Some k => F (nth k (pens (fst p)) [])
                             | None => [] end).
  pose proof (so_rows s O v Hv) as Hr.
  assert (Hps : length ps = num_dags s) by (unfold ps; rewrite combine_length, Hr; unfold num_dags; lia).
  assert (Hnth : forall j, j < num_dags s -> nth j (map g ps) [] = g (table s j, local s v j)).
  { intros j Hj. rewrite nth_indep with (d' := g (no_table, None)) by (rewrite map_length; lia).
    rewrite map_nth. unfold ps. rewrite combine_nth by (rewrite Hr; reflexivity). reflexivity. }
  assert (Hpen : forall j k, j < num_dags s -> local s v j = Some k ->
     length (nth k (pens (table s j)) []) = num_values s /\ no_nans (nth k (pens (table s j)) [])).
  { intros j k Hj El. destruct (table_facts s O j Hj) as [_ [[H1 H2] [_ [V _]]]].
    assert (Hk : k < n_keys (dag_of s j)) by (eapply local_lt; eauto).
    rewrite Forall_forall in H2. destruct (H2 (nth k (pens (table s j)) [])) as [H3 H4].
    - apply nth_In. lia.
    - split; [lia|exact H4]. }
  exists (fun j => nth j (map g ps) []). split.
  - apply write_spec; auto.
    + rewrite map_length. exact Hps.
    + intros j Hj. destruct (table_facts s O j Hj) as [_ [_ [I _]]]. fold (table s j). splits; auto.
      destruct (local s v j); [now exists []|reflexivity].
    + intros j Hj El. rewrite Hnth by auto. unfold g. cbn [fst snd].
      destruct (local s v j) as [k|] eqn:Ek; [|congruence].
      destruct (Hpen j k Hj Ek) as [P1 P2]. apply HF; auto.
  - intros j k Hj El. rewrite Hnth by auto. unfold g. cbn [fst snd]. now rewrite El.
Qed.

Lemma extra_row_facts s v : sys_ok s -> v < num_keys s ->
  length (nth v (extra s) []) = num_values s /\ no_nans (nth v (extra s) []).
Proof.
  intros O Hv. pose proof (so_extra_rows s O v Hv) as H. split; auto.
  unfold no_nans. rewrite Forall_forall. intros c Hc. apply In_nth with (d := NaN) in Hc as [a [Ha <-]].
  apply (so_extra_nn s O v a Hv). lia.
Qed.

(** ** Keeping one value. *)
Lemma only_choice_get nv choice row a : choice < nv -> a < nv ->
  get (only_choice nv choice row) a = if a =? choice then get row choice else Inf.
Proof.
  intros Hc Ha. unfold only_choice, get. destruct (Nat.eqb_spec a choice) as [->|Hne].
  - apply nth_updnth_same. now rewrite repeat_length.
  - rewrite nth_updnth_other by auto. now apply get_repeat.
Qed.
Lemma only_choice_ok nv choice row : choice < nv -> length row = nv -> no_nans row ->
  length (only_choice nv choice row) = nv /\ no_nans (only_choice nv choice row).
Proof.
  intros Hc Hl Hn. unfold only_choice. rewrite updnth_length, repeat_length. split; auto.
  unfold no_nans. rewrite Forall_forall. intros c Hin.
  apply In_nth with (d := NaN) in Hin as [a [Ha <-]]. rewrite updnth_length, repeat_length in Ha.
  pose proof (only_choice_get nv choice row a Hc Ha) as E. unfold only_choice, get in E. rewrite E.
  destruct (a =? choice); [|discriminate]. unfold no_nans in Hn. rewrite Forall_forall in Hn.
  apply Hn, nth_In. lia.
Qed.

Definition committed_to (s s' : sysdata) (v choice : nat) : Prop :=
  (exists rows row, written s v rows row s') /\
  (forall j u a, j < num_dags s -> u < num_keys s -> a < num_values s ->
     pen_at s' j u a = if (u =? v) && negb (a =? choice) then
                         match local s v j with Some _ => Inf | None => Fin 0%Qc end
                       else pen_at s j u a) /\
  (forall u a, u < num_keys s -> a < num_values s ->
     extra_at s' u a = if (u =? v) && negb (a =? choice) then Inf else extra_at s u a).

Lemma commit_choice_spec s v choice : sys_ok s -> v < num_keys s -> choice < num_values s ->
  exists s', commit_choice s v choice = Ok s' /\ committed_to s s' v choice.
Proof.
  intros O Hv Hc. unfold commit_choice. rewrite participants_ok, extra_row_ok by auto. cbn [bind or_err].
  destruct (extra_row_facts s v O Hv) as [E1 E2].
  destruct (only_choice_ok (num_values s) choice _ Hc E1 E2) as [E3 E4].
  destruct (row_update s v (only_choice (num_values s) choice)
     (only_choice (num_values s) choice (nth v (extra s) [])) O Hv) as [rows [U Hr]]; auto.
  { intros r H1 H2. now apply only_choice_ok. }
  eexists. split; [reflexivity|]. split; [eauto|]. split.
  - intros j u a Hj Hu Ha. rewrite (written_pen_at _ _ O v rows _ j u a U) by auto.
    destruct (Nat.eqb_spec u v) as [->|]; [|reflexivity]. cbn [andb].
    destruct (local s v j) as [k|] eqn:El.
    + rewrite (Hr j k Hj El), only_choice_get by auto.
      destruct (Nat.eqb_spec a choice) as [->|]; cbn [negb]; auto.
      unfold pen_at. now rewrite El.
    + unfold pen_at. rewrite El. now destruct (negb (a =? choice)).
  - intros u a Hu Ha. rewrite (written_extra_at _ _ O v rows _ u a U) by auto.
    destruct (Nat.eqb_spec u v) as [->|]; [|reflexivity]. cbn [andb].
    rewrite only_choice_get by auto. destruct (Nat.eqb_spec a choice) as [->|]; reflexivity.
Qed.

(** ** Forbidding some values. *)
Lemma forbid_get mask row a : length mask = length row -> a < length row ->
  get (forbid mask row) a = if nth a mask false then Inf else get row a.
Proof.
  intros Hl Ha. unfold forbid, get.
  set (g := fun p : bool * cost => if fst p then Inf else snd p).
  rewrite nth_indep with (d' := g (false, NaN)) by (rewrite map_length, combine_length; lia).
  rewrite map_nth, combine_nth by auto. reflexivity.
Qed.
Lemma forbid_ok mask row : length mask = length row -> no_nans row ->
  length (forbid mask row) = length row /\ no_nans (forbid mask row).
Proof.
  intros Hl Hn. assert (E : length (forbid mask row) = length row).
  { unfold forbid. rewrite map_length, combine_length. lia. }
  split; auto. unfold no_nans. rewrite Forall_forall. intros c Hin.
  apply In_nth with (d := NaN) in Hin as [a [Ha <-]]. rewrite E in Ha.
  pose proof (forbid_get mask row a Hl Ha) as Eg. unfold get in Eg. rewrite Eg.
  destruct (nth a mask false); [discriminate|]. unfold no_nans in Hn. rewrite Forall_forall in Hn.
  apply Hn, nth_In. lia.
Qed.
Definition forbidden (s s' : sysdata) (v : nat) (bad : nat -> bool) : Prop :=
  (exists rows row, written s v rows row s') /\
  (forall j u a, j < num_dags s -> u < num_keys s -> a < num_values s ->
     pen_at s' j u a = if (u =? v) && bad a then
                         match local s v j with Some _ => Inf | None => Fin 0%Qc end
                       else pen_at s j u a) /\
  (forall u a, u < num_keys s -> a < num_values s ->
     extra_at s' u a = if (u =? v) && bad a then Inf else extra_at s u a).
Lemma forbid_values_spec s v mask : sys_ok s -> v < num_keys s -> length mask = num_values s ->
  exists s', forbid_values s v mask = Ok s' /\ forbidden s s' v (fun a => nth a mask false).
Proof.
  intros O Hv Hm. unfold forbid_values. rewrite participants_ok, extra_row_ok by auto. cbn [bind or_err].
  destruct (extra_row_facts s v O Hv) as [E1 E2].
  destruct (forbid_ok mask (nth v (extra s) [])) as [E3 E4]; [lia|auto|].
  destruct (row_update s v (forbid mask) (forbid mask (nth v (extra s) [])) O Hv) as [rows [U Hr]]; auto; [| lia|].
  { intros r H1 H2. destruct (forbid_ok mask r) as [H3 H4]; [lia|auto|]. split; [lia|auto]. }
  eexists. split; [reflexivity|]. split; [eauto|]. split.
  - intros j u a Hj Hu Ha. rewrite (written_pen_at _ _ O v rows _ j u a U) by auto.
    destruct (Nat.eqb_spec u v) as [->|]; [|reflexivity]. cbn [andb].
    destruct (table_facts s O j Hj) as [_ [[HP1 HP2] [_ [V _]]]].
    destruct (local s v j) as [k|] eqn:El.
    + assert (Hk : k < n_keys (dag_of s j)) by (eapply local_lt; eauto).
      rewrite Forall_forall in HP2. destruct (HP2 (nth k (pens (table s j)) [])) as [H3 H4]; [apply nth_In; lia|].
      rewrite (Hr j k Hj El), forbid_get by lia.
      destruct (nth a mask false); auto. unfold pen_at. now rewrite El.
    + unfold pen_at. rewrite El. now destruct (nth a mask false).
  - intros u a Hu Ha. rewrite (written_extra_at _ _ O v rows _ u a U) by auto.
    destruct (Nat.eqb_spec u v) as [->|]; [|reflexivity]. cbn [andb].
    rewrite forbid_get by lia. reflexivity.
Qed.

Lemma committed_forbids s s' v choice : committed_to s s' v choice ->
  forbidden s s' v (fun a => negb (a =? choice)).
Proof. intros [H1 [H2 H3]]. split; auto. Qed.

Lemma forbidden_nearly s s' v bad : sys_ok s -> v < num_keys s -> forbidden s s' v bad ->
  nearly_conserved s -> nearly_conserved s'.
Proof.
  intros O Hv [[rows [row U]] [HP HE]] NC.
  eapply (raise_nearly s s' v rows row); eauto. intros a Ha.
  assert (Hrow : get row a = if bad a then Inf else extra_at s v a).
  { pose proof (HE v a Hv Ha) as E. rewrite (written_extra_at _ _ O v rows _ v a U) in E by auto.
    now rewrite Nat.eqb_refl in E. }
  assert (Hrows : forall j, j < num_dags s -> local s v j <> None ->
     get (rows j) a = if bad a then Inf else pen_at s j v a).
  { intros j Hj El. pose proof (HP j v a Hj Hv Ha) as E.
    rewrite (written_pen_at _ _ O v rows _ j v a U) in E by auto.
    rewrite Nat.eqb_refl in E. cbn [andb] in E. destruct (local s v j); [exact E|congruence]. }
  destruct (bad a) eqn:Eb.
  - right. split; auto.
  - left. exists (Fin 0%Qc), (fun _ => Fin 0%Qc). splits.
    + discriminate.
    + intros; discriminate.
    + apply over_zero. intros j Hj. destruct (local s v j); reflexivity.
    + rewrite cadd_0_r. exact Hrow.
    + intros j Hj El. rewrite cadd_0_r. now apply Hrows.
Qed.
Lemma forbidden_ok s s' v bad : forbidden s s' v bad -> sys_ok s'.
Proof. intros [[rows [row U]] _]. apply (u_ok _ _ _ _ U). Qed.
(** Forbidding makes the solutions using a forbidden value infinite and changes no other. *)
Lemma forbidden_cost s s' v bad x ps : sys_ok s -> v < num_keys s -> forbidden s s' v bad -> solution s x ps ->
  solution s' x ps /\
  solution_cost s' x ps = if bad (nth v x 0) then Inf else solution_cost s x ps.
Proof.
  intros O Hv [[rows [row U]] [_ HE]] HS. pose proof (u_ok _ _ _ _ U) as O'.
  assert (HS' : solution s' x ps) by now apply (updated_solution s s' _ _ x ps U).
  split; auto. destruct (bad (nth v x 0)) eqn:Eb.
  - apply (solution_inf s' O' x ps HS'). right. exists v. rewrite (u_keys _ _ _ _ U). split; auto.
    rewrite HE; auto; [|eapply solution_values; eauto]. now rewrite Nat.eqb_refl, Eb.
  - unfold solution_cost. rewrite (u_keys _ _ _ _ U). f_equal. apply over_ext. intros u Hu.
    rewrite HE; auto; [|eapply solution_values; eauto].
    destruct (Nat.eqb_spec u v) as [->|]; auto. now rewrite Eb.
Qed.

(** ** Adding unary costs. *)
Definition num_participants (s : sysdata) (v : nat) : nat :=
  length (filter (fun j => match local s v j with Some _ => true | None => false end) (seq 0 (num_dags s))).
Lemma count_participants s v : sys_ok s -> v < num_keys s ->
  length (filter (fun p : memo * option nat => match snd p with Some _ => true | None => false end)
            (combine (tables s) (nth v (imap s) []))) = num_participants s v.
Proof.
  intros O Hv. pose proof (so_rows s O v Hv) as Hr. unfold num_participants, local.
  revert Hr. unfold num_dags. generalize (nth v (imap s) []) as row. generalize (tables s) as ts.
  induction ts as [|t ts IH]; intros [|k row] Hr; try discriminate; [reflexivity|].
  injection Hr as Hr. cbn [combine filter length seq].
  change (nth 0 (k :: row) None) with k. rewrite <- seq_shift.
  assert (Em : filter (fun j => match nth j (k :: row) None with Some _ => true | None => false end)
             (map S (seq 0 (length ts))) =
           map S (filter (fun j => match nth j row None with Some _ => true | None => false end)
             (seq 0 (length ts)))).
  { clear IH. generalize (seq 0 (length ts)). induction l as [|i l IHl]; [reflexivity|]. cbn [map]. cbn [filter].
    rewrite IHl. cbn [nth]. destruct (nth i row None); reflexivity. }
  cbn [snd]. rewrite Em. destruct k; cbn [length]; rewrite map_length, IH; auto.
Qed.
Lemma qsum_count s v : qsum (map (fun j => if match local s v j with Some _ => true | None => false end
                                           then 1 else 0)%Qc (seq 0 (num_dags s))) =
  Q2Qc (inject_Z (Z.of_nat (num_participants s v))).
Proof.
  unfold num_participants. induction (seq 0 (num_dags s)) as [|j l IH]; cbn [map filter qsum fold_right].
  - apply Qc_is_canon. reflexivity.
  - unfold qsum in IH. rewrite IH. destruct (local s v j); cbn [length].
    + apply Qc_is_canon. cbn [this Qcplus Q2Qc]. rewrite !Qred_correct, Nat2Z.inj_succ.
      unfold Z.succ. rewrite inject_Z_plus. cbn. ring.
    + ring.
Qed.
Lemma num_participants_pos s v : sys_ok s -> v < num_keys s -> 0 < num_participants s v.
Proof.
  intros O Hv. destruct (so_participant s O v Hv) as [j [Hj El]]. unfold num_participants.
  assert (Hin : In j (filter (fun j => match local s v j with Some _ => true | None => false end) (seq 0 (num_dags s)))).
  { apply filter_In. split; [apply in_seq; lia|]. now destruct (local s v j). }
  destruct (filter _ _); [destruct Hin|cbn; lia].
Qed.
Lemma natQc_pos n : 0 < n -> (0 < Q2Qc (inject_Z (Z.of_nat n)))%Qc.
Proof.
  intros Hn. unfold Qclt. rewrite (Qred_correct (inject_Z (Z.of_nat n))).
  change (this 0%Qc) with (inject_Z 0). rewrite <- Zlt_Qlt. lia.
Qed.

Definition charged (s s' : sysdata) (v : nat) (vec : list cost) : Prop :=
  (exists rows row, written s v rows row s') /\
  (forall u a, u < num_keys s -> a < num_values s ->
     extra_at s' u a = if u =? v then cadd (extra_at s v a) (get vec a) else extra_at s u a).

Lemma add_unary_spec s v vec : sys_ok s -> v < num_keys s -> length vec = num_values s -> no_nans vec ->
  exists s', add_unary s v vec = Ok s' /\ sys_ok s' /\ charged s s' v vec /\
    (nearly_conserved s -> nearly_conserved s').
Proof.
  intros O Hv Hl Hn. unfold add_unary. rewrite participants_ok, extra_row_ok by auto. cbn [bind or_err].
  rewrite count_participants by auto.
  set (n := Q2Qc (inject_Z (Z.of_nat (num_participants s v)))).
  pose proof (natQc_pos _ (num_participants_pos s v O Hv)) as Hpos. fold n in Hpos.
  assert (Hn0 : n <> 0%Qc) by (intros E; rewrite E in Hpos; now apply Qclt_not_eq in Hpos).
  assert (Hinv : (0 < / n)%Qc).
  { replace (/ n)%Qc with (1 / n)%Qc by (unfold Qcdiv; ring). apply Qcdiv_pos; auto. reflexivity. }
  set (share := map (cscale (/ n)%Qc) vec).
  assert (Hs1 : length share = num_values s) by (unfold share; now rewrite map_length).
  assert (Hs2 : no_nans share).
  { unfold no_nans, share. rewrite Forall_forall. intros c Hc. apply in_map_iff in Hc as [c0 [<- Hc]].
    apply cscale_notnan; auto. unfold no_nans in Hn. rewrite Forall_forall in Hn. auto. }
  assert (Hadd : forall a b, length a = num_values s -> length b = num_values s -> no_nans a -> no_nans b ->
            length (vadd a b) = num_values s /\ no_nans (vadd a b)).
  { intros a b La Lb Na Nb. assert (Lv : length (vadd a b) = num_values s).
    { unfold vadd. rewrite map_length, combine_length. lia. }
    split; auto. unfold no_nans in *. rewrite Forall_forall in *. intros c Hc.
    apply In_nth with (d := NaN) in Hc as [i [Hi <-]]. rewrite Lv in Hi.
    fold (get (vadd a b) i). rewrite get_vadd by lia.
    apply cadd_notnan; [apply Na|apply Nb]; apply nth_In; lia. }
  destruct (extra_row_facts s v O Hv) as [E1 E2].
  destruct (Hadd _ vec E1 Hl E2 Hn) as [E3 E4].
  destruct (row_update s v (fun r => vadd r share) (vadd (nth v (extra s) []) vec) O Hv) as [rows [U Hr]]; auto.
  eexists. splits; [reflexivity| | |].
  - apply (u_ok _ _ _ _ U).
  - split; [eauto|]. intros u a Hu Ha. rewrite (written_extra_at _ _ O v rows _ u a U) by auto.
    destruct (u =? v); auto. now rewrite get_vadd by lia.
  - apply (raise_nearly s _ v rows _ O Hv U). intros a Ha. left.
    assert (Na : get vec a <> NaN).
    { unfold no_nans in Hn. rewrite Forall_forall in Hn. apply Hn, nth_In. lia. }
    assert (Es : get share a = cscale (/ n)%Qc (get vec a)).
    { unfold share. apply get_map. lia. }
    exists (get vec a), (fun _ => get share a). splits; auto.
    + intros j Hj. unfold no_nans in Hs2. rewrite Forall_forall in Hs2. apply Hs2, nth_In. lia.
    + rewrite Es. destruct (get vec a) as [q| |] eqn:Eq; [| |congruence].
      * rewrite (over_ext _ _ (fun j => if match local s v j with Some _ => true | None => false end
            then Fin (q * (1 / n))%Qc else Fin 0%Qc)).
        2:{ intros j Hj. destruct (local s v j); auto. cbn [cscale]. f_equal. unfold Qcdiv. ring. }
        rewrite (distribute (num_dags s) (fun j => match local s v j with Some _ => true | None => false end) (fun _ => 1%Qc)).
        rewrite qsum_count. fold n. f_equal. field. auto.
      * rewrite cscale_inf by auto. apply over_inf_iff.
        -- intros j Hj. destruct (local s v j); discriminate.
        -- destruct (so_participant s O v Hv) as [j [Hj El]]. exists j. split; auto.
           now destruct (local s v j).
    + rewrite get_vadd by lia. reflexivity.
    + intros j Hj El. destruct (local s v j) as [k|] eqn:Ek; [|congruence].
      rewrite (Hr j k Hj Ek).
      destruct (table_facts s O j Hj) as [_ [[HP1 HP2] [_ [V _]]]].
      assert (Hk : k < n_keys (dag_of s j)) by (eapply local_lt; eauto).
      rewrite Forall_forall in HP2. destruct (HP2 (nth k (pens (table s j)) [])) as [H3 H4]; [apply nth_In; lia|].
      rewrite get_vadd by lia. f_equal. unfold pen_at. now rewrite Ek.
Qed.

Lemma charged_solution s s' v vec x ps : charged s s' v vec -> (solution s' x ps <-> solution s x ps).
Proof. intros [[rows [row U]] _]. now apply (updated_solution s s' _ _ x ps U). Qed.
Lemma charged_shape s s' v vec : charged s s' v vec ->
  num_keys s' = num_keys s /\ num_values s' = num_values s /\ num_dags s' = num_dags s /\
  imap s' = imap s /\ forall j, j < num_dags s -> dag_of s' j = dag_of s j.
Proof. intros [[rows [row U]] _]. destruct U. splits; auto. Qed.
(** Every solution pays the cost of its own value, once. *)
Lemma charged_cost s s' v vec x ps : sys_ok s -> v < num_keys s -> charged s s' v vec -> solution s x ps ->
  solution_cost s' x ps = cadd (solution_cost s x ps) (get vec (nth v x 0)).
Proof.
  intros O Hv C HS. destruct (charged_shape _ _ _ _ C) as [Ek _]. destruct C as [_ HE].
  unfold solution_cost. rewrite Ek, <- cadd_assoc. f_equal.
  rewrite (over_ext _ _ (fun u => cadd (extra_at s u (nth u x 0))
        (if u =? v then get vec (nth v x 0) else Fin 0%Qc))).
  2:{ intros u Hu. rewrite HE; auto; [|eapply solution_values; eauto].
      destruct (Nat.eqb_spec u v) as [->|]; auto. now rewrite cadd_0_r. }
  rewrite over_add. f_equal.
  assert (G : forall n, over n (fun u => if u =? v then get vec (nth v x 0) else Fin 0%Qc) =
       if v <? n then get vec (nth v x 0) else Fin 0%Qc).
  { induction n as [|n IH]; [reflexivity|]. rewrite over_S, IH.
    destruct (Nat.ltb_spec v n), (Nat.ltb_spec v (S n)), (Nat.eqb_spec n v); try lia;
      rewrite ?cadd_0_r, ?cadd_0_l; auto. }
  rewrite G. apply Nat.ltb_lt in Hv. now rewrite Hv.
Qed.
