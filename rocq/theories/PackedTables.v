(** The cost tables stay exact under any sequence of operations; min-marginals,
    minimal cost and path extraction (model in [PackedDag.v]). *)

From Coq Require Import List Bool Arith Lia ZArith QArith Qcanon.
From Verif Require Import Base Graph PackedDag PackedDagProofs.
Import ListNotations.
Close Scope Qc_scope. Close Scope Q_scope. Open Scope nat_scope.

Record inv (m : memo) : Prop := {
  i_layout : layout (m_dag m);
  i_pens : pens_ok (m_dag m) (pens m);
  i_pre_len : length (pre_table m) = n_states (m_dag m);
  i_suf_len : length (suf_table m) = n_states (m_dag m);
  i_pv : (-2 <= pre_valid m < Z.of_nat (n_keys (m_dag m)))%Z;
  i_sv : (-1 <= suf_valid m <= Z.of_nat (n_keys (m_dag m)))%Z;
  i_pre : forall s, s < state_tag_end (m_dag m) (pre_valid m) ->
    least (path_costs (m_dag m) (pens m) 0 s) (get (pre_table m) s);
  i_suf : forall s, state_tag_start (m_dag m) (suf_valid m) <= s < n_states (m_dag m) ->
    least (path_costs (m_dag m) (pens m) s (n_states (m_dag m) - 1)) (get (suf_table m) s)
}.

Lemma path_costs_pcosts d P s t c :
  path_costs d P s t c <-> pcosts (weight P) (pedges d) s t c.
Proof.
  unfold path_costs, pcosts. split; intros [p [Hp E]]; exists p; split; auto;
    rewrite penalized_wcost in *; auto.
Qed.

Lemma pens_ok_notnan d P k v :
  pens_ok d P -> k < n_keys d -> v < n_values d -> nth v (nth k P []) NaN <> NaN.
Proof.
  intros [Hl Hf] Hk Hv. rewrite Forall_forall in Hf.
  destruct (Hf (nth k P [])) as [Hr Hn]; [apply nth_In; lia|].
  rewrite Forall_forall in Hn. apply Hn. apply nth_In. lia.
Qed.
Lemma weight_notnan d P e :
  layout d -> pens_ok d P -> In e (pedges d) -> weight P e <> NaN.
Proof.
  intros L HP He. unfold weight. apply cadd_notnan; [now apply (l_costs _ L)|].
  unfold penalty.
  destruct (edge_cases d L e He) as [[k [Hk [E _]]]|[k [v [Hk [E [V _]]]]]]; rewrite E.
  - discriminate.
  - eapply pens_ok_notnan; eauto.
Qed.

Lemma F2_length {A B} (R : A -> B -> Prop) l l' : Forall2 R l l' -> length l = length l'.
Proof. induction 1; simpl; auto. Qed.
Lemma nth_error_lt {A} (l : list A) k x : nth_error l k = Some x -> k < length l.
Proof. intros H. apply nth_error_Some. rewrite H. discriminate. Qed.
Lemma nth_last {A} (l : list A) x n : length l = S n -> last l x = nth n l x.
Proof.
  revert n; induction l as [|a l IH]; intros n H; [discriminate|].
  destruct l as [|b l]; [now destruct n as [|[|]]|].
  destruct n as [|n]; [discriminate|]. simpl in *. apply IH. lia.
Qed.

Ltac msimp := cbn [m_dag pens pre_table suf_table pre_valid suf_valid] in *.

Lemma update_prefixes_spec m desired :
  inv m -> (-1 <= desired < Z.of_nat (n_keys (m_dag m)))%Z ->
  exists m', update_prefixes_up_to m desired = Ok m' /\ inv m' /\
    m_dag m' = m_dag m /\ pens m' = pens m /\
    suf_table m' = suf_table m /\ suf_valid m' = suf_valid m /\
    pre_valid m' = Z.max (pre_valid m) desired.
Proof.
  intros I Hd. destruct m as [d P pre suf pv sv].
  pose proof I as [L HP Hpl Hsl Hpv Hsv Hpre Hsuf]. msimp.
  unfold update_prefixes_up_to. msimp.
  replace ((desired <? -1) || (Z.of_nat (n_keys d) <=? desired))%Z with false.
  2:{ symmetry. apply orb_false_iff. split; [apply Z.ltb_ge; lia|apply Z.leb_gt; lia]. }
  destruct (desired <=? pv)%Z eqn:Ev.
  { apply Z.leb_le in Ev. eexists. splits; try reflexivity; auto. msimp. lia. }
  apply Z.leb_gt in Ev.
  set (T0 := fill _ _ _ _).
  (* boundaries in nat *)
  pose (a := Z.to_nat (pv + 2)). pose (b := Z.to_nat (desired + 1)).
  assert (Ha : Z.of_nat a = (pv + 2)%Z) by (unfold a; rewrite Z2Nat.id; lia).
  assert (Hb : Z.of_nat b = (desired + 1)%Z) by (unfold b; rewrite Z2Nat.id; lia).
  assert (Hab : a <= b) by lia. assert (HbK : b <= n_keys d) by lia.
  assert (Estart : state_tag_start d (pv + 1) = nth a (svb d) 0).
  { unfold state_tag_start, zget. f_equal. lia. }
  assert (Eold : state_tag_end d pv = nth a (svb d) 0).
  { unfold state_tag_end, zget. f_equal. }
  assert (Eend : state_tag_end d desired = nth (b + 1) (svb d) 0).
  { unfold state_tag_end, zget. f_equal. lia. }
  assert (Estop : before_assigning d (desired + 1) = nth (2 * b + 1) (egb d) 0).
  { unfold before_assigning, zget. f_equal. lia. }
  set (A := if (pv =? -2)%Z then 0 else before_assigning d (pv + 1)).
  set (T1 := if (pv =? -2)%Z then updnth 0 (Fin 0%Qc) T0 else T0).
  match goal with |- context [let '(x, y) := ?E in _] =>
    replace E with (A, T1) by (unfold A, T1; destruct (pv =? -2)%Z; reflexivity) end.
  cbn iota beta.
  assert (EA : (pv = (-2)%Z /\ A = 0) \/
     (a >= 1 /\ A = nth (2 * (a - 1) + 1) (egb d) 0)).
  { unfold A. destruct (pv =? -2)%Z eqn:E; [apply Z.eqb_eq in E; auto|].
    apply Z.eqb_neq in E. right. split; [lia|]. unfold before_assigning, zget. f_equal. lia. }
  assert (HAB : A <= nth (2 * b + 1) (egb d) 0).
  { destruct EA as [[_ ->]|[H1 ->]]; [lia|]. apply (l_egb_mono _ L). lia. }
  assert (Hlen0 : length T0 = n_states d) by (unfold T0; rewrite fill_length; auto).
  assert (Hlen1 : length T1 = n_states d).
  { unfold T1. destruct (pv =? -2)%Z; rewrite ?updnth_length; auto. }
  rewrite Estop.
  set (C := nth (2 * b + 1) (egb d) 0) in *.
  assert (Hsplit : pedges d = firstn A (pedges d) ++ slice A C (pedges d) ++ skipn C (pedges d))
    by now apply slice_decompose.
  rewrite fold_fwd.
  (* the new table *)
  assert (Hnew : forall s, s < nth (b + 1) (svb d) 0 ->
    least (pcosts (weight P) (firstn A (pedges d) ++ slice A C (pedges d)) 0 s)
      (get (fold_left (relax (weight P)) (slice A C (pedges d)) T1) s)).
  { apply relax_segment.
    - apply (topological_app_l _ (skipn C (pedges d))). pose proof (l_topological _ L) as Ht.
      rewrite Hsplit, app_assoc in Ht. exact Ht.
    - intros x Hx. apply (weight_notnan d); auto. rewrite Hsplit, app_assoc. apply in_or_app; auto.
    - intros e He. pose proof He as He'. apply slice_In in He as [k [Hk Hn]].
      assert (Hin : In e (pedges d)) by (eapply nth_error_In; eauto).
      pose proof (early_dest d L b k e ltac:(lia) ltac:(unfold C in Hk; lia) Hn) as H1.
      pose proof (edge_tag_mono d L (b + 1) e ltac:(lia) Hin H1).
      splits; auto. rewrite Hlen1. apply (edge_bound d L e Hin).
    - intros s Hs.
      assert (Hsn : s < n_states d) by (pose proof (B_le d L (b + 1)); lia).
      destruct (lt_dec s (nth a (svb d) 0)) as [Hold|Hnewst].
      + (* already valid *)
        assert (Eget : get T1 s = get pre s).
        { unfold T1. replace (pv =? -2)%Z with false.
          - unfold T0. rewrite fill_get by lia. rewrite Estart.
            replace (nth a (svb d) 0 <=? s) with false by (symmetry; apply Nat.leb_gt; lia).
            reflexivity.
          - symmetry. apply Z.eqb_neq. intros ->.
            replace a with 0 in Hold by lia. rewrite (l_svb_0 _ L) in Hold. lia. }
        rewrite Eget. eapply least_ext; [|apply Hpre; rewrite Eold; exact Hold].
        intros c. rewrite path_costs_pcosts. split.
        * intros [p [Hp E]]. exists p. split; auto.
          rewrite Hsplit in Hp.
          eapply path_no_later with (ok := fun s => s < nth a (svb d) 0); [| | |exact Hp]; auto.
          -- intros e He. rewrite <- skipn_slice in He by auto.
             apply skipn_In in He as [k [Hk Hn]].
             destruct EA as [[Epv EA0]|[Ha1 EA0]].
             ++ replace a with 0 by lia. rewrite (l_svb_0 _ L). lia.
             ++ pose proof (late_dest d L (a - 1) k e ltac:(lia) ltac:(lia) Hn) as H1.
                replace (a - 1 + 1) with a in H1 by lia. lia.
          -- intros e He H1. apply (edge_tag_mono d L a e); auto; [lia|].
             rewrite Hsplit. apply in_or_app; auto.
        * intros [p [Hp E]]. exists p. split; auto.
          eapply is_path_incl; [|exact Hp]. intros e He.
          rewrite Hsplit. apply in_or_app; left. eapply is_path_In; eauto.
      + (* freshly initialised *)
        assert (Efill : get T0 s = Inf).
        { unfold T0. rewrite fill_get by lia. rewrite Estart, Eend.
          replace (nth a (svb d) 0 <=? s) with true by (symmetry; apply Nat.leb_le; lia).
          replace (s <? nth (b + 1) (svb d) 0) with true by (symmetry; apply Nat.ltb_lt; lia).
          reflexivity. }
        assert (Hnodest : forall e, In e (firstn A (pedges d)) -> dest e < nth a (svb d) 0).
        { intros e He. apply firstn_In_nth in He as [k [Hk Hn]].
          destruct EA as [[_ EA0]|[Ha1 EA0]]; [lia|].
          pose proof (early_dest d L (a - 1) k e ltac:(lia) ltac:(lia) Hn) as H1.
          now replace (a - 1 + 1) with a in H1 by lia. }
        assert (Honly : forall p, is_path (firstn A (pedges d)) 0 p s -> p = []).
        { intros p Hp. destruct p as [|e0 p0]; auto. exfalso.
          apply path_last in Hp as Hl; [|discriminate]. destruct Hl as [e [He E]].
          pose proof (is_path_In _ _ _ _ _ Hp He) as Hi. apply Hnodest in Hi. lia. }
        destruct (Nat.eq_dec s 0) as [->|Hs0].
        * (* the initial state: only when nothing was valid *)
          assert (Epv : pv = (-2)%Z).
          { destruct EA as [[E _]|[Ha1 _]]; auto. exfalso.
            pose proof (l_initial _ L). pose proof (l_svb_mono _ L 1 a). lia. }
          unfold T1. rewrite Epv. cbn [Z.eqb Pos.eqb]. unfold get. rewrite nth_updnth_same by lia.
          unfold least; splits; [discriminate| |].
          -- intros x [p [Hp E]]. apply Honly in Hp as E2. subst p. rewrite <- E. cbn. apply Qcle_refl.
          -- left. exists []. split; [constructor|reflexivity].
        * replace (get T1 s) with Inf.
          2:{ unfold T1. destruct (pv =? -2)%Z; auto. unfold get. rewrite nth_updnth_other by auto.
              symmetry; exact Efill. }
          apply least_empty. intros c [p [Hp E]]. apply Honly in Hp as E2. subst p.
          apply is_path_nil_inv in Hp. lia. }
  eexists. splits; try reflexivity; [|msimp; lia].
  constructor; msimp; auto; try lia.
  - rewrite relax_fold_length. auto.
  - intros s Hs. rewrite Eend in Hs. eapply least_ext; [|apply Hnew; exact Hs].
    intros c. rewrite path_costs_pcosts. split.
    + intros [p [Hp E]]. exists p. split; auto. eapply is_path_incl; [|exact Hp].
      intros e He. rewrite Hsplit, app_assoc. apply in_or_app; left. eapply is_path_In; eauto.
    + intros [p [Hp E]]. exists p. split; auto.
      rewrite Hsplit, app_assoc in Hp.
      eapply path_no_later with (ok := fun s => s < nth (b + 1) (svb d) 0); [| | |exact Hp]; auto.
      * intros e He. apply skipn_In in He as [k [Hk Hn]].
        pose proof (late_dest d L b k e ltac:(lia) ltac:(unfold C in Hk; lia) Hn). lia.
      * intros e He H1. apply (edge_tag_mono d L (b + 1) e); auto; [lia|].
        rewrite Hsplit, app_assoc. apply in_or_app; auto.
Qed.

Lemma weight_notnan_flip d P es e :
  layout d -> pens_ok d P -> (forall x, In x es -> In x (pedges d)) ->
  In e (rflip es) -> weight P e <> NaN.
Proof.
  intros L HP Hi He. apply rflip_In, Hi in He. rewrite <- weight_flip.
  now apply (weight_notnan d).
Qed.

Lemma update_suffixes_spec m desired :
  inv m -> (-1 <= desired < Z.of_nat (n_keys (m_dag m)))%Z ->
  exists m', update_suffixes_up_to m desired = Ok m' /\ inv m' /\
    m_dag m' = m_dag m /\ pens m' = pens m /\
    pre_table m' = pre_table m /\ pre_valid m' = pre_valid m /\
    suf_valid m' = Z.min (suf_valid m) desired.
Proof.
  intros I Hd. destruct m as [d P pre suf pv sv].
  pose proof I as [L HP Hpl Hsl Hpv Hsv Hpre Hsuf]. msimp.
  unfold update_suffixes_up_to. msimp.
  replace ((desired <? -1) || (Z.of_nat (n_keys d) <=? desired))%Z with false.
  2:{ symmetry. apply orb_false_iff. split; [apply Z.ltb_ge; lia|apply Z.leb_gt; lia]. }
  destruct (sv <=? desired)%Z eqn:Ev.
  { apply Z.leb_le in Ev. eexists. splits; try reflexivity; auto. msimp. lia. }
  apply Z.leb_gt in Ev.
  set (T0 := fill _ _ _ _).
  pose (a := Z.to_nat (sv + 1)). pose (b := Z.to_nat (desired + 1)).
  assert (Ha : Z.of_nat a = (sv + 1)%Z) by (unfold a; rewrite Z2Nat.id; lia).
  assert (Hb : Z.of_nat b = (desired + 1)%Z) by (unfold b; rewrite Z2Nat.id; lia).
  assert (Hab : b < a) by lia. assert (HaK : a <= n_keys d + 1) by lia.
  assert (Estart : state_tag_start d desired = nth b (svb d) 0) by reflexivity.
  assert (Eold : state_tag_start d sv = nth a (svb d) 0) by reflexivity.
  assert (Eend : state_tag_end d (sv - 1) = nth a (svb d) 0).
  { unfold state_tag_end, zget. f_equal. lia. }
  assert (Hn : n_states d >= 1) by (pose proof (l_final _ L); lia).
  set (A := if (sv =? Z.of_nat (n_keys d))%Z then last (egb d) 0 else after_assigning d sv).
  set (T1 := if (sv =? Z.of_nat (n_keys d))%Z then updnth (length T0 - 1) (Fin 0%Qc) T0 else T0).
  match goal with |- context [let '(x, y) := ?E in _] =>
    replace E with (A, T1) by (unfold A, T1; destruct (sv =? Z.of_nat (n_keys d))%Z; reflexivity) end.
  cbn iota beta.
  assert (EC : (if (desired =? -1)%Z then 0 else after_assigning d desired) = nth (2 * b) (egb d) 0).
  { destruct (desired =? -1)%Z eqn:E.
    - apply Z.eqb_eq in E. replace b with 0 by lia. symmetry. apply (l_egb_0 _ L).
    - unfold after_assigning, zget. f_equal. lia. }
  rewrite EC. set (C := nth (2 * b) (egb d) 0) in *.
  assert (EA : (a = n_keys d + 1 /\ A = length (pedges d)) \/
     (a <= n_keys d /\ A = nth (2 * a) (egb d) 0)).
  { unfold A. destruct (sv =? Z.of_nat (n_keys d))%Z eqn:E.
    - apply Z.eqb_eq in E. left. split; [lia|].
      rewrite (nth_last (egb d) 0 (2 * n_keys d + 1)) by (pose proof (l_egb_len _ L); lia).
      apply (l_egb_end _ L).
    - apply Z.eqb_neq in E. right. split; [lia|]. unfold after_assigning, zget. f_equal. lia. }
  assert (HCA : C <= A).
  { unfold C. destruct EA as [[_ ->]|[H1 ->]].
    - rewrite <- (l_egb_end _ L). apply (l_egb_mono _ L). lia.
    - apply (l_egb_mono _ L). lia. }
  assert (Hlen0 : length T0 = n_states d) by (unfold T0; rewrite fill_length; auto).
  assert (Hlen1 : length T1 = n_states d).
  { unfold T1. destruct (sv =? Z.of_nat (n_keys d))%Z; rewrite ?updnth_length; auto. }
  assert (Hsplit0 : pedges d = firstn C (pedges d) ++ slice C A (pedges d) ++ skipn A (pedges d))
    by now apply slice_decompose.
  assert (Hsplit : rflip (pedges d) =
    rflip (skipn A (pedges d)) ++ rflip (slice C A (pedges d)) ++ rflip (firstn C (pedges d))).
  { rewrite Hsplit0 at 1. rewrite !rflip_app. now rewrite app_assoc. }
  assert (Hinall : forall e, In e (rflip (pedges d)) -> In (flip e) (pedges d))
    by (intros e; apply rflip_In).
  assert (Hmono : forall i e, i <= n_keys d + 1 -> In e (rflip (pedges d)) ->
     nth i (svb d) 0 <= dest e < n_states d -> nth i (svb d) 0 <= source e < n_states d).
  { intros i e Hi He [H1 H2]. apply Hinall in He.
    pose proof (edge_bound d L _ He) as [H3 H4]. cbn in H3, H4. split; [|lia].
    destruct (le_lt_dec (nth i (svb d) 0) (source e)) as [H|H]; auto.
    pose proof (edge_tag_mono d L i _ Hi He). cbn in H0. specialize (H0 H). lia. }
  rewrite fold_bwd.
  set (fin := n_states d - 1).
  assert (Hnew : forall s, nth b (svb d) 0 <= s < n_states d ->
    least (pcosts (weight P) (rflip (skipn A (pedges d)) ++ rflip (slice C A (pedges d))) fin s)
      (get (fold_left (relax (weight P)) (rflip (slice C A (pedges d))) T1) s)).
  { apply relax_segment.
    - apply (topological_app_l _ (rflip (firstn C (pedges d)))).
      pose proof (rflip_topological _ (l_topological _ L)) as Ht.
      rewrite Hsplit, app_assoc in Ht. exact Ht.
    - intros x Hx. rewrite <- rflip_app in Hx. refine (weight_notnan_flip d P _ x L HP _ Hx).
      intros y Hy. rewrite Hsplit0. apply in_or_app; auto.
    - intros e He. apply rflip_In in He. pose proof He as He'. apply slice_In in He as [k [Hk Hne]].
      assert (Hin : In (flip e) (pedges d)) by (eapply nth_error_In; eauto).
      pose proof (edge_bound d L _ Hin) as [H3 H4]. cbn in H3, H4.
      pose proof (late_source d L b k _ ltac:(lia) ltac:(unfold C in Hk; lia) Hne) as H1. cbn in H1.
      assert (Hd1 : nth b (svb d) 0 <= dest e < n_states d) by lia.
      splits; try lia. apply (Hmono b e); [lia| |auto]. rewrite rflip_In; auto.
    - intros s Hs.
      destruct (le_lt_dec (nth a (svb d) 0) s) as [Hold|Hnewst].
      + assert (Ha' : a <= n_keys d).
        { destruct EA as [[E _]|[H _]]; auto. exfalso. rewrite E, (l_svb_end _ L) in Hold. lia. }
        assert (Eget : get T1 s = get suf s).
        { unfold T1. replace (sv =? Z.of_nat (n_keys d))%Z with false.
          - unfold T0. rewrite fill_get by lia. rewrite Eend.
            replace (s <? nth a (svb d) 0) with false by (symmetry; apply Nat.ltb_ge; lia).
            rewrite andb_false_r. reflexivity.
          - symmetry. apply Z.eqb_neq. lia. }
        rewrite Eget. eapply least_ext; [|apply Hsuf; rewrite Eold; lia].
        intros c. rewrite path_costs_pcosts. rewrite <- rflip_pcosts by apply weight_flip. split.
        * intros [p [Hp E]]. exists p. split; auto.
          rewrite Hsplit in Hp.
          eapply path_no_later with (ok := fun s => nth a (svb d) 0 <= s < n_states d); [| | |exact Hp]; auto; [| |lia].
          -- intros e He. rewrite <- rflip_app in He. apply rflip_In in He.
             rewrite <- firstn_slice in He by auto.
             apply firstn_In_nth in He as [k [Hk Hne]].
             destruct EA as [[E1 E2]|[Ha1 EA0]]; [lia|].
             pose proof (early_source d L a k _ ltac:(lia) ltac:(lia) Hne) as H1. cbn in H1. lia.
          -- intros e He H1. apply (Hmono a e); auto. rewrite Hsplit. apply in_or_app; auto.
        * intros [p [Hp E]]. exists p. split; auto.
          eapply is_path_incl; [|exact Hp]. intros e He.
          rewrite Hsplit. apply in_or_app; left. eapply is_path_In; eauto.
      + assert (Efill : get T0 s = Inf).
        { unfold T0. rewrite fill_get by lia. rewrite Estart, Eend.
          replace (nth b (svb d) 0 <=? s) with true by (symmetry; apply Nat.leb_le; lia).
          replace (s <? nth a (svb d) 0) with true by (symmetry; apply Nat.ltb_lt; lia).
          reflexivity. }
        assert (Hnodest : forall e, In e (rflip (skipn A (pedges d))) -> nth a (svb d) 0 <= dest e).
        { intros e He. apply rflip_In in He. apply skipn_In in He as [k [Hk Hne]].
          destruct EA as [[_ EA0]|[Ha1 EA0]]; [lia|].
          apply (late_source d L a k _ ltac:(lia) ltac:(lia) Hne). }
        assert (Honly : forall p, is_path (rflip (skipn A (pedges d))) fin p s -> p = []).
        { intros p Hp. destruct p as [|e0 p0]; auto. exfalso.
          apply path_last in Hp as Hl; [|discriminate]. destruct Hl as [e [He E]].
          pose proof (is_path_In _ _ _ _ _ Hp He) as Hi. apply Hnodest in Hi. lia. }
        destruct (Nat.eq_dec s fin) as [->|Hs0].
        * assert (Esv : sv = Z.of_nat (n_keys d)).
          { destruct EA as [[E _]|[Ha1 _]]; [lia|]. exfalso.
            pose proof (l_final _ L). pose proof (l_svb_mono _ L a (n_keys d)). unfold fin in *. lia. }
          unfold T1. rewrite Esv, Z.eqb_refl. unfold get. rewrite Hlen0.
          unfold fin at 2. rewrite nth_updnth_same by lia.
          unfold least; splits; [discriminate| |].
          -- intros x [p [Hp E]]. apply Honly in Hp as E2. subst p. rewrite <- E. cbn. apply Qcle_refl.
          -- left. exists []. split; [constructor|reflexivity].
        * replace (get T1 s) with Inf.
          2:{ unfold T1. destruct (sv =? Z.of_nat (n_keys d))%Z; auto. unfold get.
              rewrite nth_updnth_other by (rewrite Hlen0; unfold fin in Hs0; lia).
              symmetry; exact Efill. }
          apply least_empty. intros c [p [Hp E]]. apply Honly in Hp as E2. subst p.
          apply is_path_nil_inv in Hp. lia. }
  eexists. splits; try reflexivity; [|msimp; lia].
  constructor; msimp; auto; try lia.
  - rewrite relax_fold_length. auto.
  - intros s Hs. rewrite Estart in Hs. eapply least_ext; [|apply Hnew; exact Hs].
    intros c. rewrite path_costs_pcosts. rewrite <- (rflip_pcosts _ (pedges d)) by apply weight_flip.
    fold fin. split.
    + intros [p [Hp E]]. exists p. split; auto. eapply is_path_incl; [|exact Hp].
      intros e He. rewrite Hsplit, app_assoc. apply in_or_app; left. eapply is_path_In; eauto.
    + intros [p [Hp E]]. exists p. split; auto.
      rewrite Hsplit, app_assoc in Hp.
      eapply path_no_later with (ok := fun s => nth b (svb d) 0 <= s < n_states d); [| | |exact Hp]; auto.
      * intros e He. apply rflip_In in He. apply firstn_In_nth in He as [k [Hk Hne]].
        pose proof (early_source d L b k _ ltac:(lia) ltac:(unfold C in Hk; lia) Hne) as H1. cbn in H1. lia.
      * intros e He H1. apply (Hmono b e); auto; [lia|].
        rewrite Hsplit, app_assoc. apply in_or_app; auto.
Qed.

(** ** Changing penalties. *)
Lemma pens_ok_update d P v row :
  pens_ok d P -> length row = n_values d -> Forall (fun c => c <> NaN) row ->
  pens_ok d (updnth v row P).
Proof.
  intros [Hl Hf] Hr Hn. split; [now rewrite updnth_length|].
  unfold updnth. apply Forall_app. split.
  - rewrite Forall_forall in *. intros x Hx. apply Hf.
    rewrite <- (firstn_skipn v P). apply in_or_app; auto.
  - destruct (skipn v P) as [|y r] eqn:E; [constructor|].
    constructor; auto. rewrite Forall_forall in *. intros x Hx. apply Hf.
    rewrite <- (firstn_skipn v P), E. apply in_or_app; right; simpl; auto.
Qed.

Lemma penalized_same d P v row p s t :
  layout d -> is_path (pedges d) s p t -> ~ In v (map fst (path_assignments p)) ->
  penalized_cost (updnth v row P) p = penalized_cost P p.
Proof.
  intros L Hp Hn. unfold penalized_cost. f_equal. f_equal. apply map_ext_in.
  intros [k x] Hi. cbn [fst snd]. rewrite nth_updnth_other; auto.
  intros ->. apply Hn. now apply (in_map fst) in Hi.
Qed.

Lemma path_tag_bounds d s p t : layout d -> is_path (pedges d) s p t ->
  forall k, In k (map fst (path_assignments p)) ->
  s < nth (k + 1) (svb d) 0 /\ nth (k + 1) (svb d) 0 <= t.
Proof.
  intros L. induction 1 as [s|e p t He Hp IH]; intros k Hk; [destruct Hk|].
  assert (Hmono : forall s p t i, is_path (pedges d) s p t -> i <= n_keys d + 1 ->
     nth i (svb d) 0 <= s -> nth i (svb d) 0 <= t).
  { clear -L. intros s p t i Hp Hi. induction Hp as [|e p t He Hp IH]; auto.
    intros H. apply IH. destruct (le_lt_dec (nth i (svb d) 0) (dest e)); auto.
    pose proof (edge_tag_mono d L i e Hi He). lia. }
  destruct (edge_cases d L e He) as [[i [Hi [E [A C]]]]|[i [v [Hi [E [V [A C]]]]]]];
    cbn [path_assignments] in Hk; rewrite E in Hk.
  - destruct (IH k Hk) as [H1 H2]. split; auto.
    assert (In k (seq 0 (n_keys d))).
    { pose proof (path_values d L _ _ _ Hp) as Hf. rewrite Forall_forall in Hf.
      apply in_map_iff in Hk as [a [<- Ha]]. apply Hf in Ha. apply in_seq. lia. }
    apply in_seq in H. apply (edge_tag_mono d L (k + 1) e); auto. lia.
  - destruct Hk as [<-|Hk].
    + cbn. split; [lia|]. apply (Hmono (dest e) p t (i + 1)); auto; [lia|].
      lia.
    + destruct (IH k Hk) as [H1 H2]. split; auto.
      assert (In k (seq 0 (n_keys d))).
      { pose proof (path_values d L _ _ _ Hp) as Hf. rewrite Forall_forall in Hf.
        apply in_map_iff in Hk as [a [<- Ha]]. apply Hf in Ha. apply in_seq. lia. }
      apply in_seq in H. apply (edge_tag_mono d L (k + 1) e); auto. lia.
Qed.

Lemma set_penalties_spec m v row :
  inv m -> v < n_keys (m_dag m) ->
  length row = n_values (m_dag m) -> Forall (fun c => c <> NaN) row ->
  inv (set_penalties m v row).
Proof.
  intros [L HP Hpl Hsl Hpv Hsv Hpre Hsuf] Hv Hr Hn. destruct m as [d P pre suf pv sv]. msimp.
  unfold set_penalties. constructor; msimp; auto; try lia.
  - now apply pens_ok_update.
  - intros s Hs.
    assert (Hb1 : s < state_tag_end d pv /\ s < nth (v + 1) (svb d) 0).
    { unfold state_tag_end, zget in *.
      pose proof (l_svb_mono _ L (Z.to_nat (Z.min pv (Z.of_nat v - 1) + 2)) (Z.to_nat (pv + 2))).
      pose proof (l_svb_mono _ L (Z.to_nat (Z.min pv (Z.of_nat v - 1) + 2)) (v + 1)).
      split; (eapply Nat.lt_le_trans; [exact Hs|]); [apply H|apply H0]; lia. }
    destruct Hb1 as [Hb1 Hb2].
    eapply least_ext; [|apply Hpre; exact Hb1]. intros c.
    assert (Hno : forall p, is_path (pedges d) 0 p s -> ~ In v (map fst (path_assignments p))).
    { intros p Hp Hi. apply (path_tag_bounds d _ _ _ L Hp) in Hi. lia. }
    split; intros [p [Hp E]]; exists p; split; auto; rewrite <- E;
      [|symmetry]; eapply penalized_same; eauto.
  - intros s Hs.
    assert (Hb1 : state_tag_start d sv <= s /\ nth (v + 1) (svb d) 0 <= s).
    { unfold state_tag_start, zget in *.
      pose proof (l_svb_mono _ L (Z.to_nat (sv + 1)) (Z.to_nat (Z.max sv (Z.of_nat v) + 1))).
      pose proof (l_svb_mono _ L (v + 1) (Z.to_nat (Z.max sv (Z.of_nat v) + 1))).
      destruct Hs as [Hs _].
      split; (eapply Nat.le_trans; [|exact Hs]); [apply H|apply H0]; lia. }
    destruct Hb1 as [Hb1 Hb2].
    eapply least_ext; [|apply Hsuf; split; [exact Hb1|lia]]. intros c.
    assert (Hno : forall p, is_path (pedges d) s p (n_states d - 1) -> ~ In v (map fst (path_assignments p))).
    { intros p Hp Hi. apply (path_tag_bounds d _ _ _ L Hp) in Hi. lia. }
    split; intros [p [Hp E]]; exists p; split; auto; rewrite <- E;
      [|symmetry]; eapply penalized_same; eauto.
Qed.

Lemma empty_table_inv d P : layout d -> pens_ok d P -> inv (empty_table d P).
Proof.
  intros L HP. constructor; unfold empty_table; msimp; auto; try lia.
  - apply repeat_length.
  - apply repeat_length.
  - intros s. unfold state_tag_end, zget. simpl. rewrite (l_svb_0 _ L). lia.
  - intros s. unfold state_tag_start, zget.
    replace (Z.to_nat (Z.of_nat (n_keys d) + 1)) with (n_keys d + 1) by lia.
    rewrite (l_svb_end _ L). lia.
Qed.
Lemma zero_pens_ok d : pens_ok d (repeat (repeat (Fin 0%Qc) (n_values d)) (n_keys d)).
Proof.
  split; [apply repeat_length|]. apply Forall_forall. intros r Hr. apply repeat_spec in Hr. subst.
  split; [apply repeat_length|]. apply Forall_forall. intros c Hc. apply repeat_spec in Hc. subst.
  discriminate.
Qed.

(** ** Min-marginals. *)
Definition crossing d P (e : pedge) (c : cost) : Prop :=
  exists x y, path_costs d P 0 (source e) x /\ path_costs d P (dest e) (n_states d - 1) y /\
    c = cadd (cadd (cadd x (ecost e)) (penalty P e)) y.

Definition marginal_costs d P v val (c : cost) : Prop :=
  exists p, packed_complete d p /\ In (v, val) (path_assignments p) /\ penalized_cost P p = c.

Lemma marginal_fold m v group : forall mm (S : nat -> cost -> Prop),
  (forall e, In e group -> exists val, assignment e = Some (v, val)) ->
  (forall e, In e group -> least (crossing (m_dag m) (pens m) e)
     (cadd (cadd (cadd (get (pre_table m) (source e)) (ecost e)) (penalty (pens m) e))
           (get (suf_table m) (dest e)))) ->
  (forall val, val < length mm -> least (S val) (get mm val)) ->
  (forall val, val < length mm ->
     least (fun c => S val c \/ exists e, In e group /\ assignment e = Some (v, val) /\ crossing (m_dag m) (pens m) e c)
       (get (fold_left (marginal_step m) group mm) val)) /\
  length (fold_left (marginal_step m) group mm) = length mm.
Proof.
  induction group as [|e group IH]; intros mm S Hg Hc HS.
  - simpl. split; auto. intros val Hv. eapply least_ext; [|apply HS; auto].
    intros c. split; auto. intros [H|[e [[] _]]]; auto.
  - simpl. destruct (Hg e) as [val0 E0]; [simpl; auto|].
    assert (Hstep : marginal_step m mm e = updnth val0 (cmin (get mm val0)
       (cadd (cadd (cadd (get (pre_table m) (source e)) (ecost e)) (penalty (pens m) e))
           (get (suf_table m) (dest e)))) mm) by (unfold marginal_step; now rewrite E0).
    assert (Hlen : length (marginal_step m mm e) = length mm) by (rewrite Hstep; apply updnth_length).
    destruct (IH (marginal_step m mm e)
      (fun val c => S val c \/ (val = val0 /\ crossing (m_dag m) (pens m) e c))) as [H1 H2].
    + intros; apply Hg; simpl; auto.
    + intros; apply Hc; simpl; auto.
    + rewrite Hlen. intros val Hv. rewrite Hstep.
      destruct (Nat.eq_dec val val0) as [->|Hne].
      * unfold get at 1. rewrite nth_updnth_same by auto.
        eapply least_ext; [|apply least_union; [apply HS; auto|apply Hc; simpl; auto]].
        intros c; cbn; tauto.
      * unfold get at 1. rewrite nth_updnth_other by auto. eapply least_ext; [|apply HS; auto].
        intros c; cbn. intuition congruence.
    + rewrite Hlen in H1, H2. split; auto. intros val Hv.
      eapply least_ext; [|apply H1; auto]. intros c; cbn. split.
      * intros [[H|[-> H]]|[e' [He' [Ea H]]]]; auto; right; [exists e|exists e']; splits; auto.
      * intros [H|[e' [[<-|He'] [Ea H]]]]; auto.
        -- left; right. split; [congruence|exact H].
        -- right. exists e'; auto.
Qed.

Lemma in_path_assignments (p : list pedge) a :
  In a (path_assignments p) -> exists e, In e p /\ assignment e = Some a.
Proof.
  induction p as [|e p IH]; simpl; [tauto|].
  destruct (assignment e) as [b|] eqn:E.
  - intros [<-|H]; [exists e; auto|]. destruct (IH H) as [e' [H1 H2]]. exists e'; auto.
  - intros H. destruct (IH H) as [e' [H1 H2]]. exists e'; auto.
Qed.

Lemma penalized_app P p q :
  penalized_cost P (p ++ q) = cadd (penalized_cost P p) (penalized_cost P q).
Proof. rewrite !penalized_wcost. apply wcost_app. Qed.
Lemma penalized_cons P e p :
  penalized_cost P (e :: p) = cadd (weight P e) (penalized_cost P p).
Proof. rewrite !penalized_wcost. apply wcost_cons. Qed.

Lemma crossing_marginal d P v val c : layout d ->
  (exists e, In e (slice (nth (2 * v + 1) (egb d) 0) (nth (2 * v + 2) (egb d) 0) (pedges d)) /\
     assignment e = Some (v, val) /\ crossing d P e c) <->
  marginal_costs d P v val c.
Proof.
  intros L. split.
  - intros [e [He [Ea [x [y [[p [Hp Ex]] [[q [Hq Ey]] ->]]]]]]].
    exists (p ++ e :: q).
    assert (Hin : In e (pedges d)) by (apply slice_In in He as [k [_ Hk]]; eapply nth_error_In; eauto).
    splits.
    + unfold packed_complete. eapply is_path_app; [exact Hp|]. constructor; auto.
    + rewrite path_assignments_app. cbn [path_assignments]. rewrite Ea. apply in_or_app; right; simpl; auto.
    + rewrite penalized_app, penalized_cons, Ex, Ey. unfold weight.
      rewrite !cadd_assoc. reflexivity.
  - intros [p [Hp [Hi E]]]. apply in_path_assignments in Hi as [e [He Ea]].
    pose proof (is_path_In _ _ _ _ _ Hp He) as Hin.
    apply in_split in He as [p1 [p2 ->]]. exists e. splits; auto.
    + apply In_nth_error in Hin as [k Hk].
      assert (Hlt : k < length (pedges d)) by (eapply nth_error_lt; exact Hk).
      destruct (find_group d L k Hlt) as [[i [Hi Hb]]|[i [Hi Hb]]].
      * destruct (l_between _ L i k e) as [A _]; auto. congruence.
      * destruct (l_assign _ L i k e) as [[v' [A _]] _]; auto.
        assert (i = v) by congruence. subst i.
        rewrite (slice_decompose _ _ (pedges d) (Nat.lt_le_incl _ _ (Nat.le_lt_trans _ _ _ (proj1 Hb) (proj2 Hb)))) in Hk.
        set (A1 := nth (2 * v + 1) (egb d) 0) in *. set (B1 := nth (2 * v + 2) (egb d) 0) in *.
        rewrite nth_error_app2 in Hk by (rewrite firstn_length; lia).
        rewrite nth_error_app1 in Hk.
        -- eapply nth_error_In; eauto.
        -- unfold slice. rewrite !firstn_length, skipn_length. lia.
    + unfold packed_complete in Hp. apply is_path_app_inv in Hp as [t [H1 H2]].
      apply is_path_cons_inv in H2 as [-> [_ H2]].
      exists (penalized_cost P p1), (penalized_cost P p2). splits.
      * exists p1; auto.
      * exists p2; auto.
      * rewrite <- E, penalized_app, penalized_cons. unfold weight. rewrite !cadd_assoc. reflexivity.
Qed.

Lemma zget_before d v : before_assigning d (Z.of_nat v) = nth (2 * v + 1) (egb d) 0.
Proof. unfold before_assigning, zget. f_equal. lia. Qed.
Lemma zget_after d v : after_assigning d (Z.of_nat v) = nth (2 * v + 2) (egb d) 0.
Proof. unfold after_assigning, zget. f_equal. lia. Qed.

Lemma min_marginals_spec m v :
  inv m -> v < n_keys (m_dag m) ->
  exists mm m', compute_min_marginals m v = Ok (mm, m') /\ inv m' /\
    m_dag m' = m_dag m /\ pens m' = pens m /\ length mm = n_values (m_dag m) /\
    forall val, val < n_values (m_dag m) ->
      least (marginal_costs (m_dag m) (pens m) v val) (get mm val).
Proof.
  intros I Hv. unfold compute_min_marginals.
  replace (n_keys (m_dag m) <=? v) with false by (symmetry; apply Nat.leb_gt; auto).
  destruct (update_prefixes_spec m (Z.of_nat v - 1) I) as [m1 [E1 [I1 [D1 [P1 [S1 [V1 W1]]]]]]]; [lia|].
  rewrite E1. cbn [bind].
  destruct (update_suffixes_spec m1 (Z.of_nat v) I1) as [m2 [E2 [I2 [D2 [P2 [S2 [V2 W2]]]]]]]; [rewrite D1; lia|].
  rewrite E2. cbn [bind]. rewrite zget_before, zget_after.
  set (group := slice _ _ _).
  pose proof (i_layout _ I) as L.
  assert (Hg : forall e, In e group -> In e (pedges (m_dag m)) /\
      (exists val, assignment e = Some (v, val) /\ val < n_values (m_dag m)) /\
      source e < nth (v + 1) (svb (m_dag m)) 0 /\ nth (v + 1) (svb (m_dag m)) 0 <= dest e < n_states (m_dag m)).
  { intros e He. apply slice_In in He as [k [Hk He]].
    assert (In e (pedges (m_dag m))) by (eapply nth_error_In; eauto).
    destruct (l_assign _ L v k e) as [H1 [H2 H3]]; auto.
    pose proof (edge_bound _ L e). splits; auto; try lia. apply H0; auto. }
  replace (forallb _ group) with true.
  2:{ symmetry. apply forallb_forall. intros e He. destruct (Hg e He) as [_ [[val [-> _]] _]].
      apply Nat.eqb_refl. }
  rewrite D1 in D2. rewrite P1 in P2.
  destruct (marginal_fold m2 v group (repeat Inf (n_values (m_dag m))) (fun _ _ => False)) as [H1 H2].
  - intros e He. destruct (Hg e He) as [_ [[val [-> _]] _]]. eauto.
  - intros e He. destruct (Hg e He) as [Hin [_ [Hs Hd]]].
    destruct I2 as [L2 HP2 Hpl Hsl Hpv Hsv Hpre Hsuf].
    assert (A1 : least (path_costs (m_dag m) (pens m) 0 (source e)) (get (pre_table m2) (source e))).
    { rewrite <- D2, <- P2. apply Hpre. rewrite V2, D2, W1.
      unfold state_tag_end, zget. eapply Nat.lt_le_trans; [exact Hs|].
      apply (l_svb_mono _ L). rewrite V2, D2, W1 in Hpv. lia. }
    assert (A2 : least (path_costs (m_dag m) (pens m) (dest e) (n_states (m_dag m) - 1)) (get (suf_table m2) (dest e))).
    { rewrite <- D2, <- P2. apply Hsuf. rewrite W2, D2.
      unfold state_tag_start, zget. split; [|lia].
      eapply Nat.le_trans; [|exact (proj1 Hd)]. apply (l_svb_mono _ L).
      pose proof (i_sv _ I1). rewrite D1 in H. lia. }
    rewrite D2, P2. unfold crossing.
    pose proof (l_costs _ L e Hin) as Nc.
    assert (Np : penalty (pens m) e <> NaN).
    { unfold penalty. destruct (Hg e He) as [_ [[val [-> Hval]] _]].
      eapply pens_ok_notnan; eauto. apply (i_pens _ I). }
    eapply least_ext; [|apply least_add2; [apply least_add; [exact Np|apply least_add; [exact Nc|exact A1]]|exact A2]].
    intros c. cbn. split.
    + intros [x [y [[x1 [[x2 [Hx2 ->]] ->]] [Hy ->]]]]. exists x2, y. auto.
    + intros [x [y [Hx [Hy ->]]]]. exists (cadd (cadd x (ecost e)) (penalty (pens m) e)), y.
      splits; auto. eexists. split; [|reflexivity]. eexists. split; [exact Hx|reflexivity].
  - intros val Hval. rewrite repeat_length in Hval. unfold get.
    rewrite (nth_indep _ NaN Inf), nth_repeat by now rewrite repeat_length. apply least_empty. auto.
  - rewrite repeat_length in *.
    eexists _, m2. splits; [reflexivity| | | | |]; auto.
    intros val Hval. eapply least_ext; [|apply H1; auto]. intros c. cbn. rewrite D2, P2.
    rewrite <- crossing_marginal by auto. unfold group. tauto.
Qed.

Lemma make_fully_valid_spec m : inv m ->
  exists m', make_fully_valid m = Ok m' /\ inv m' /\ m_dag m' = m_dag m /\ pens m' = pens m /\
    pre_valid m' = (Z.of_nat (n_keys (m_dag m)) - 1)%Z /\ suf_valid m' = (-1)%Z.
Proof.
  intros I. unfold make_fully_valid.
  destruct (update_prefixes_spec m (Z.of_nat (n_keys (m_dag m)) - 1) I) as [m1 [E1 [I1 [D1 [P1 [S1 [V1 W1]]]]]]]; [lia|].
  rewrite E1. cbn [bind].
  destruct (update_suffixes_spec m1 (-1) I1) as [m2 [E2 [I2 [D2 [P2 [S2 [V2 W2]]]]]]]; [rewrite D1; lia|].
  exists m2. pose proof (i_pv _ I). pose proof (i_sv _ I1).
  splits; auto; try congruence; try lia.
Qed.

Lemma all_marginals_loop_spec vs : forall m, inv m -> (forall v, In v vs -> v < n_keys (m_dag m)) ->
  exists mms m', all_marginals_loop m vs = Ok (mms, m') /\ inv m' /\
    m_dag m' = m_dag m /\ pens m' = pens m /\
    Forall2 (fun v mm => length mm = n_values (m_dag m) /\
      forall val, val < n_values (m_dag m) -> least (marginal_costs (m_dag m) (pens m) v val) (get mm val)) vs mms.
Proof.
  induction vs as [|v vs IH]; intros m I Hv.
  - exists [], m. simpl. splits; auto.
  - destruct (min_marginals_spec m v I) as [mm [m1 [E1 [I1 [D1 [P1 [L1 H1]]]]]]]; [apply Hv; simpl; auto|].
    destruct (IH m1 I1) as [mms [m2 [E2 [I2 [D2 [P2 H2]]]]]]; [intros; rewrite D1; apply Hv; simpl; auto|].
    cbn [all_marginals_loop]. rewrite E1. cbn [bind snd fst]. rewrite E2. cbn [bind snd fst].
    rewrite D1 in *. rewrite P1 in *.
    exists (mm :: mms), m2. splits; auto.
Qed.
Lemma all_min_marginals_spec m : inv m ->
  exists mms m', compute_all_min_marginals m = Ok (mms, m') /\ inv m' /\
    m_dag m' = m_dag m /\ pens m' = pens m /\ length mms = n_keys (m_dag m) /\
    forall v, v < n_keys (m_dag m) -> length (nth v mms []) = n_values (m_dag m) /\
      forall val, val < n_values (m_dag m) ->
      least (marginal_costs (m_dag m) (pens m) v val) (get (nth v mms []) val).
Proof.
  intros I. unfold compute_all_min_marginals.
  destruct (make_fully_valid_spec m I) as [m1 [E1 [I1 [D1 [P1 _]]]]]. rewrite E1. cbn [bind].
  destruct (all_marginals_loop_spec (seq 0 (n_keys (m_dag m))) m1 I1) as [mms [m2 [E2 [I2 [D2 [P2 H2]]]]]].
  { intros v Hv. rewrite D1. apply in_seq in Hv. lia. }
  rewrite D1 in *. rewrite P1 in *. exists mms, m2. splits; auto.
  - apply F2_length in H2. rewrite seq_length in H2. auto.
  - intros v Hv.
    assert (G : forall l l' (Q : nat -> list cost -> Prop) i, Forall2 Q l l' -> i < length l -> Q (nth i l 0) (nth i l' [])).
    { clear. intros l l' Q i H; revert i; induction H; intros [|i] Hi; simpl in *; try lia; auto. apply IHForall2. lia. }
    specialize (G _ _ _ v H2). rewrite seq_length, seq_nth in G by auto. apply G; auto.
Qed.

Lemma np_min_spec (S : nat -> cost -> Prop) l :
  l <> [] -> (forall i, i < length l -> least (S i) (get l i)) ->
  exists c, np_min l = Ok c /\ least (fun x => exists i, i < length l /\ S i x) c.
Proof.
  destruct l as [|x l]; [congruence|]. intros _ H. simpl. eexists. split; [reflexivity|].
  assert (G : forall l x (S : nat -> cost -> Prop) (S0 : cost -> Prop), least S0 x ->
    (forall i, i < length l -> least (S i) (get l i)) ->
    least (fun c => S0 c \/ exists i, i < length l /\ S i c) (fold_left cmin l x)).
  { clear. induction l as [|y l IH]; intros x S S0 Hx Hl; simpl.
    - eapply least_ext; [|exact Hx]. intros c. split; auto. intros [H|[i [Hi _]]]; auto. lia.
    - eapply least_ext; [|apply (IH (cmin x y) (fun i => S (Datatypes.S i)) (fun c => S0 c \/ S 0 c))].
      + intros c. split.
        * intros [[H|H]|[i [Hi H]]]; auto; right; [exists 0|exists (Datatypes.S i)]; split; auto; lia.
        * intros [H|[[|i] [Hi H]]]; auto. right. exists i. split; auto. lia.
      + apply least_union; auto. apply (Hl 0). simpl; lia.
      + intros i Hi. apply (Hl (Datatypes.S i)). simpl; lia. }
  eapply least_ext; [|apply (G l x (fun i => S (Datatypes.S i)) (S 0))].
  - intros c. split.
    + intros [Hc|[i [Hi Hc]]]; [exists 0|exists (Datatypes.S i)]; split; auto; simpl; lia.
    + intros [[|i] [Hi Hc]]; auto. right. exists i. simpl in Hi. split; auto; lia.
  - apply (H 0). simpl; lia.
  - intros i Hi. apply (H (Datatypes.S i)). simpl; lia.
Qed.

Definition strategy_legal (d : pdag) (s : strategy) : Prop :=
  match s with FROM_MIDDLE => 0 < n_keys d /\ 0 < n_values d | _ => True end.

Lemma complete_has_marginal d P v c : layout d -> v < n_keys d ->
  complete_costs d P c <-> exists val, val < n_values d /\ marginal_costs d P v val c.
Proof.
  intros L Hv. split.
  - intros [p [Hp E]]. pose proof (complete_keys d L p Hp) as Hk.
    assert (Hi : In v (map fst (path_assignments p))) by (rewrite Hk; apply in_seq; lia).
    apply in_map_iff in Hi as [[v' val] [Ev Hi]]. cbn in Ev. subst v'.
    exists val. split.
    + pose proof (path_values d L _ _ _ Hp) as Hf. rewrite Forall_forall in Hf.
      now apply (Hf (v, val)).
    + exists p; auto.
  - intros [val [_ [p [Hp [_ E]]]]]. exists p; auto.
Qed.

Lemma minimal_cost_spec m s : inv m -> strategy_legal (m_dag m) s ->
  exists c m', compute_minimal_cost m s = Ok (c, m') /\ inv m' /\
    m_dag m' = m_dag m /\ pens m' = pens m /\ least (complete_costs (m_dag m) (pens m)) c.
Proof.
  intros I Hs. pose proof (i_layout _ I) as L.
  pose proof (l_initial _ L) as Hi. pose proof (l_final _ L) as Hf.
  destruct s; unfold compute_minimal_cost.
  - destruct (update_prefixes_spec m (Z.of_nat (n_keys (m_dag m)) - 1) I) as [m1 [E1 [I1 [D1 [P1 [S1 [V1 W1]]]]]]]; [lia|].
    rewrite E1. cbn [bind]. eexists _, m1. splits; [reflexivity| | | |]; auto.
    rewrite (i_pre_len _ I1). pose proof (i_pre _ I1 (n_states (m_dag m1) - 1)) as H.
    rewrite D1, P1 in *. apply H. unfold state_tag_end, zget.
    pose proof (i_pv _ I). rewrite W1.
    replace (Z.to_nat _) with (n_keys (m_dag m) + 1) by lia. rewrite (l_svb_end _ L). lia.
  - destruct (update_suffixes_spec m (-1) I) as [m1 [E1 [I1 [D1 [P1 [S1 [V1 W1]]]]]]]; [lia|].
    rewrite E1. cbn [bind]. eexists _, m1. splits; [reflexivity| | | |]; auto.
    pose proof (i_suf _ I1 0) as H.
    rewrite D1, P1 in *. apply H. unfold state_tag_start, zget.
    pose proof (i_sv _ I). rewrite W1.
    replace (Z.to_nat _) with 0 by lia. rewrite (l_svb_0 _ L). lia.
  - destruct Hs as [HK HV]. set (t := Z.min _ _).
    assert (Ht : (0 <= t < Z.of_nat (n_keys (m_dag m)))%Z) by (unfold t; lia).
    replace (t <? 0)%Z with false by (symmetry; apply Z.ltb_ge; lia).
    destruct (min_marginals_spec m (Z.to_nat t) I) as [mm [m1 [E1 [I1 [D1 [P1 [L1 H1]]]]]]]; [lia|].
    rewrite E1. cbn [bind fst snd].
    destruct (np_min_spec (fun val => marginal_costs (m_dag m) (pens m) (Z.to_nat t) val) mm) as [c [Ec Hc]].
    + destruct mm; [simpl in L1; lia|discriminate].
    + intros i Hi'. apply H1. lia.
    + rewrite Ec. cbn [bind]. exists c, m1. splits; auto.
      eapply least_ext; [|exact Hc]. intros x. rewrite L1. symmetry. apply complete_has_marginal; auto. lia.
Qed.

(** Without variables the third strategy always fails an assertion. *)
Lemma from_middle_no_keys m : n_keys (m_dag m) = 0 ->
  compute_minimal_cost m FROM_MIDDLE = Err AssertionError.
Proof.
  intros H. unfold compute_minimal_cost. rewrite H.
  replace (_ <? 0)%Z with true; auto. symmetry. apply Z.ltb_lt. lia.
Qed.

(** ** Histories of operations. *)
Inductive table_op :=
| OSetPenalties (v : nat) (row : list cost)
| OPrefixes (t : Z)
| OSuffixes (t : Z)
| OFullyValid
| OMarginals (v : nat)
| OAllMarginals
| OMinimalCost (s : strategy)
| OCopy.

Definition run_op (m : memo) (o : table_op) : result memo :=
  match o with
  | OSetPenalties v row => Ok (set_penalties m v row)
  | OPrefixes t => update_prefixes_up_to m t
  | OSuffixes t => update_suffixes_up_to m t
  | OFullyValid => make_fully_valid m
  | OMarginals v => do r <- compute_min_marginals m v; Ok (snd r)
  | OAllMarginals => do r <- compute_all_min_marginals m; Ok (snd r)
  | OMinimalCost s => do r <- compute_minimal_cost m s; Ok (snd r)
  | OCopy => Ok (copy_memo m)
  end.
Fixpoint run_ops (m : memo) (os : list table_op) : result memo :=
  match os with [] => Ok m | o :: os' => do m1 <- run_op m o; run_ops m1 os' end.

(** Arguments within the documented ranges. *)
Definition op_legal (d : pdag) (o : table_op) : Prop :=
  match o with
  | OSetPenalties v row => v < n_keys d /\ length row = n_values d /\ Forall (fun c => c <> NaN) row
  | OPrefixes t | OSuffixes t => (-1 <= t < Z.of_nat (n_keys d))%Z
  | OMarginals v => v < n_keys d
  | OMinimalCost s => strategy_legal d s
  | _ => True
  end.
(** The penalties after a history: only the explicit changes count. *)
Definition op_pens (P : list (list cost)) (o : table_op) : list (list cost) :=
  match o with OSetPenalties v row => updnth v row P | _ => P end.

Lemma run_op_spec m o : inv m -> op_legal (m_dag m) o ->
  exists m', run_op m o = Ok m' /\ inv m' /\ m_dag m' = m_dag m /\ pens m' = op_pens (pens m) o.
Proof.
  intros I Hl. destruct o as [v row|t|t| |v| |s|]; cbn [run_op op_pens op_legal] in *.
  - destruct Hl as [H1 [H2 H3]]. eexists. splits; [reflexivity| | |]; auto.
    now apply set_penalties_spec.
  - destruct (update_prefixes_spec m t I Hl) as [m' H]. exists m'. tauto.
  - destruct (update_suffixes_spec m t I Hl) as [m' H]. exists m'. tauto.
  - destruct (make_fully_valid_spec m I) as [m' H]. exists m'. tauto.
  - destruct (min_marginals_spec m v I Hl) as [mm [m' [E H]]]. exists m'. rewrite E. cbn. tauto.
  - destruct (all_min_marginals_spec m I) as [mm [m' [E H]]]. exists m'. rewrite E. cbn. tauto.
  - destruct (minimal_cost_spec m s I Hl) as [mm [m' [E H]]]. exists m'. rewrite E. cbn. tauto.
  - exists m. destruct m; auto.
Qed.
Lemma run_ops_spec os : forall m, inv m -> Forall (op_legal (m_dag m)) os ->
  exists m', run_ops m os = Ok m' /\ inv m' /\ m_dag m' = m_dag m /\
    pens m' = fold_left op_pens os (pens m).
Proof.
  induction os as [|o os IH]; intros m I Hf.
  - exists m. simpl; auto.
  - inversion Hf as [|? ? H1 H2]; subst.
    destruct (run_op_spec m o I H1) as [m1 [E1 [I1 [D1 P1]]]].
    destruct (IH m1 I1) as [m2 [E2 [I2 [D2 P2]]]]; [now rewrite D1|].
    exists m2. cbn [run_ops]. rewrite E1. cbn [bind fold_left]. splits; auto; congruence.
Qed.

Lemma least_path_notnan d P s t c : least (path_costs d P s t) c -> c <> NaN.
Proof. now intros [H _]. Qed.

Lemma masked_prefixes_spec m s : inv m -> s < n_states (m_dag m) ->
  (s < state_tag_end (m_dag m) (pre_valid m) /\
   least (path_costs (m_dag m) (pens m) 0 s) (get (masked_prefixes m) s)) \/
  (state_tag_end (m_dag m) (pre_valid m) <= s /\ get (masked_prefixes m) s = NaN).
Proof.
  intros I Hs. unfold masked_prefixes. rewrite fill_get by (rewrite (i_pre_len _ I); auto).
  replace (s <? length (pre_table m)) with true by (symmetry; apply Nat.ltb_lt; rewrite (i_pre_len _ I); auto).
  rewrite andb_true_r. destruct (state_tag_end (m_dag m) (pre_valid m) <=? s) eqn:E.
  - right. apply Nat.leb_le in E. auto.
  - left. apply Nat.leb_gt in E. split; auto. now apply (i_pre _ I).
Qed.
Lemma masked_suffixes_spec m s : inv m -> s < n_states (m_dag m) ->
  (state_tag_start (m_dag m) (suf_valid m) <= s /\
   least (path_costs (m_dag m) (pens m) s (n_states (m_dag m) - 1)) (get (masked_suffixes m) s)) \/
  (s < state_tag_start (m_dag m) (suf_valid m) /\ get (masked_suffixes m) s = NaN).
Proof.
  intros I Hs. unfold masked_suffixes. rewrite fill_get by (rewrite (i_suf_len _ I); auto).
  cbn [Nat.leb andb]. destruct (s <? state_tag_start (m_dag m) (suf_valid m)) eqn:E.
  - right. apply Nat.ltb_lt in E. auto.
  - left. apply Nat.ltb_ge in E. split; auto. now apply (i_suf _ I).
Qed.

(** ** Extraction. *)
Definition outgoing_ok (d : pdag) (outgoing : list (list nat)) : Prop :=
  length outgoing = n_states d /\
  forall s k, s < n_states d ->
    In k (nth s outgoing []) <-> (exists e, nth_error (pedges d) k = Some e /\ source e = s).

Lemma topological_index (es : list pedge) k k' e e' :
  topological es -> nth_error es k = Some e -> nth_error es k' = Some e' ->
  source e' = dest e -> k < k'.
Proof.
  intros [Ho Hl] Hk Hk' E.
  destruct (lt_eq_lt_dec k k') as [[H|H]|H]; auto; exfalso.
  - subst k'. assert (e = e') by congruence. subst e'. apply (Hl e); auto. eapply nth_error_In; eauto.
  - clear Hl. revert k k' Hk Hk' H. induction es as [|a es IH]; intros k k' Hk Hk' H; [destruct k; discriminate|].
    cbn in Ho. destruct Ho as [Ho1 Ho2]. destruct k as [|k]; [lia|]. destruct k' as [|k'].
    + cbn in Hk, Hk'. injection Hk' as ->. apply (Ho1 e); [eapply nth_error_In; eauto|congruence].
    + cbn in Hk, Hk'. apply (IH Ho2 k k'); auto. lia.
Qed.

Definition to_go (m : memo) (e : pedge) : cost :=
  cadd (cadd (get (suf_table m) (dest e)) (ecost e)) (penalty (pens m) e).

Lemma choose_fold m ks : forall k0 best nx,
  best <> NaN ->
  (forall k, In k ks -> exists e, nth_error (pedges (m_dag m)) k = Some e /\ to_go m e <> NaN) ->
  exists k c nx', fold_left (choose m) ks (k0, best, nx) = (k, c, nx') /\ c <> NaN /\ cle c best /\
    (forall k1 e1, In k1 ks -> nth_error (pedges (m_dag m)) k1 = Some e1 -> cle c (to_go m e1)) /\
    ((k, c, nx') = (k0, best, nx) \/
     (exists e, In k ks /\ nth_error (pedges (m_dag m)) k = Some e /\ to_go m e = c /\ dest e = nx')).
Proof.
  induction ks as [|k1 ks IH]; intros k0 best nx Nb H.
  - exists k0, best, nx. splits; auto; [now apply cle_refl|]. intros ? ? [].
  - destruct (H k1) as [e1 [E1 N1]]; [simpl; auto|].
    cbn [fold_left choose]. rewrite E1. fold (to_go m e1).
    destruct (cltb (to_go m e1) best) eqn:C.
    + destruct (IH k1 (to_go m e1) (dest e1)) as [k [c [nx' [F [Nc [Hle [Hall Hc]]]]]]]; auto.
      { intros; apply H; simpl; auto. }
      exists k, c, nx'. splits; auto.
      * eapply cle_trans; [exact Hle|]. apply (cltb_spec best (to_go m e1)) in C; auto.
        destruct (cle_total best (to_go m e1)); tauto.
      * intros k2 e2 [<-|Hi] E2; [|eauto]. congruence.
      * right. destruct Hc as [Hc|[e [Hi Hc]]].
        -- injection Hc as -> -> ->. exists e1. splits; simpl; auto.
        -- exists e. simpl; tauto.
    + destruct (IH k0 best nx) as [k [c [nx' [F [Nc [Hle [Hall Hc]]]]]]]; auto.
      { intros; apply H; simpl; auto. }
      exists k, c, nx'. splits; auto.
      * intros k2 e2 [<-|Hi] E2; [|eauto]. assert (e2 = e1) by congruence. subst e2.
        eapply cle_trans; [exact Hle|].
        destruct (cle_total best (to_go m e1)) as [T|T]; auto.
        destruct (cltb_spec best (to_go m e1) Nb N1) as [_ X].
        destruct (Qc_eq_dec 0 0); [|congruence].
        destruct best, (to_go m e1); cbn in *; try tauto; try congruence.
        unfold qc_ltb in C. destruct (Qclt_le_dec q0 q); [discriminate|auto].
      * destruct Hc as [Hc|[e [Hi Hc]]]; auto. right. exists e. simpl; tauto.
Qed.

Definition indices_path (es : list pedge) (ks : list nat) (p : list pedge) : Prop :=
  Forall2 (fun k e => nth_error es k = Some e) ks p.

Lemma cadd_fin_inv a b q : cadd a b = Fin q -> exists x y, a = Fin x /\ b = Fin y.
Proof. destruct a, b; cbn; intros; try discriminate. eauto. Qed.
Lemma cle_fin_r a q : cle a (Fin q) -> exists x, a = Fin x.
Proof. destruct a; cbn; [eauto|tauto|tauto]. Qed.

Lemma extract_loop_spec m outgoing : inv m -> suf_valid m = (-1)%Z ->
  outgoing_ok (m_dag m) outgoing ->
  forall fuel s q low, s < n_states (m_dag m) ->
  (forall k e, nth_error (pedges (m_dag m)) k = Some e -> source e = s -> low <= k) ->
  length (pedges (m_dag m)) < fuel + low ->
  get (suf_table m) s = Fin q ->
  exists ks p, extract_loop m outgoing fuel s = Ok ks /\
    indices_path (pedges (m_dag m)) ks p /\
    is_path (pedges (m_dag m)) s p (n_states (m_dag m) - 1) /\
    penalized_cost (pens m) p = Fin q.
Proof.
  intros I Hsv [Hol Hok]. pose proof (i_layout _ I) as L.
  assert (Hsuf : forall s, s < n_states (m_dag m) ->
    least (path_costs (m_dag m) (pens m) s (n_states (m_dag m) - 1)) (get (suf_table m) s)).
  { intros s Hs. apply (i_suf _ I). rewrite Hsv. unfold state_tag_start, zget. simpl.
    rewrite (l_svb_0 _ L). lia. }
  assert (Htg : forall e, In e (pedges (m_dag m)) -> to_go m e = cadd (weight (pens m) e) (get (suf_table m) (dest e))).
  { intros e He. unfold to_go, weight. rewrite <- cadd_assoc. apply cadd_comm. }
  assert (Hnn : forall e, In e (pedges (m_dag m)) -> to_go m e <> NaN).
  { intros e He. rewrite Htg by auto. apply cadd_notnan.
    - apply (weight_notnan (m_dag m)); auto. apply (i_pens _ I).
    - eapply least_path_notnan. apply Hsuf. apply (edge_bound _ L e He). }
  induction fuel as [|fuel IH]; intros s q low Hs Hlow Hfuel Hq.
  - (* every edge would have to be behind us, so s is final *)
    destruct (Hsuf s Hs) as [_ [_ [[p [Hp E]]|E]]]; [|congruence].
    rewrite Hq in E. destruct p as [|e p].
    + apply is_path_nil_inv in Hp. cbn [extract_loop].
      replace (s <? n_states (m_dag m) - 1) with false by (symmetry; apply Nat.ltb_ge; lia).
      exists [], []. splits; [reflexivity|apply Forall2_nil|rewrite Hp; apply path_nil|exact E].
    + apply is_path_cons_inv in Hp as [Es [Hi _]]. apply In_nth_error in Hi as [k Hk].
      pose proof (Hlow k e Hk (eq_sym Es)). apply nth_error_lt in Hk.
      change (edge nat (nat * nat) unit) with pedge in Hk. lia.
  - cbn [extract_loop]. destruct (s <? n_states (m_dag m) - 1) eqn:Efin.
    2:{ apply Nat.ltb_ge in Efin. assert (Es : s = n_states (m_dag m) - 1) by lia.
        destruct (Hsuf s Hs) as [_ [_ [[p [Hp E]]|E]]]; [|congruence].
        assert (p = []). { rewrite <- Es in Hp. eapply topological_acyclic; [apply (l_topological _ L)|exact Hp]. }
        subst p. exists [], []. splits; [reflexivity|apply Forall2_nil|exact Hp|rewrite <- Hq; exact E]. }
    apply Nat.ltb_lt in Efin.
    destruct (Hsuf s Hs) as [_ [Hleast [[p [Hp E]]|E]]]; [|congruence].
    rewrite Hq in *.
    destruct p as [|e p]; [apply is_path_nil_inv in Hp; lia|].
    apply is_path_cons_inv in Hp as [Es [Hi Hp]].
    apply In_nth_error in Hi as [k0 Hk0].
    assert (Hin0 : In k0 (nth s outgoing [])) by (apply Hok; auto; exists e; auto).
    assert (En : nth_error outgoing s = Some (nth s outgoing [])) by (apply nth_error_nth'; lia). rewrite En.
    destruct (nth s outgoing []) as [|kk ks] eqn:Eout; [destruct Hin0|].
    rewrite <- Eout in Hin0. cbn iota beta. rewrite <- Eout.
    destruct (choose_fold m (nth s outgoing []) kk Inf (n_states (m_dag m))) as [k [c [nx [F [Nc [Hle [Hall Hc]]]]]]].
    { discriminate. }
    { intros k Hk. apply Hok in Hk as [e' [He' Es']]; auto. exists e'. split; auto.
      apply Hnn. eapply nth_error_In; eauto. }
    assert (Hce : cle c (Fin q)).
    { eapply cle_trans; [apply (Hall k0 e); auto|].
      assert (In e (pedges (m_dag m))) by (eapply nth_error_In; eauto).
      rewrite Htg by auto. rewrite <- E, penalized_cons. apply cadd_le.
      - apply cle_refl. apply (weight_notnan (m_dag m)); auto. apply (i_pens _ I).
      - apply (Hsuf (dest e)); [apply (edge_bound _ L e); auto|]. exists p; auto. }
    destruct (cle_fin_r _ _ Hce) as [qc Eqc].
    destruct Hc as [Hc|[e1 [Hk1 [He1 [Ego Edest]]]]].
    { injection Hc as _ Hc _. rewrite Hc in Eqc. discriminate. }
    assert (Hin1 : In e1 (pedges (m_dag m))) by (eapply nth_error_In; eauto).
    assert (Hs1 : source e1 = s). { apply Hok in Hk1 as [e' [He' Es']]; auto. congruence. }
    pose proof (Htg e1 Hin1) as Hgo1. rewrite Ego, Eqc in Hgo1. symmetry in Hgo1.
    destruct (cadd_fin_inv _ _ _ Hgo1) as [x [y [Ex Ey]]].
    destruct (IH (dest e1) y (S k)) as [ks' [p' [Erec [Hidx [Hpath Hcost]]]]].
    + apply (edge_bound _ L e1 Hin1).
    + intros k2 e2 Hk2 Es2. apply (topological_index (pedges (m_dag m)) k k2 e1 e2); auto.
      apply (l_topological _ L).
    + pose proof (Hlow k e1 He1 Hs1). lia.
    + exact Ey.
    + rewrite F, <- Edest. cbn [bind]. rewrite Erec. cbn [bind].
      exists (k :: ks'), (e1 :: p'). splits; auto.
      * constructor; auto.
      * rewrite <- Hs1. constructor; auto.
      * rewrite penalized_cons, Hcost, Ex. cbn [cadd].
        rewrite Ex, Ey in Hgo1. cbn [cadd] in Hgo1. rewrite Hgo1.
        f_equal. assert (Hle2 : cle (Fin q) (Fin qc)).
        { apply Hleast. exists (e1 :: p'). split; [rewrite <- Hs1; constructor; auto|].
          rewrite penalized_cons, Hcost, Ex. cbn [cadd]. congruence. }
        rewrite Eqc in Hce. apply (cle_antisym _ _ Hce) in Hle2. congruence.
Qed.

Lemma extract_spec m outgoing q : inv m -> outgoing_ok (m_dag m) outgoing ->
  least (complete_costs (m_dag m) (pens m)) (Fin q) ->
  exists ks p m', extract_indices m outgoing = Ok (ks, m') /\ inv m' /\
    m_dag m' = m_dag m /\ pens m' = pens m /\
    indices_path (pedges (m_dag m)) ks p /\ packed_complete (m_dag m) p /\
    penalized_cost (pens m) p = Fin q.
Proof.
  intros I Ho Hq. unfold extract_indices.
  destruct (update_suffixes_spec m (-1) I) as [m1 [E1 [I1 [D1 [P1 [S1 [V1 W1]]]]]]]; [lia|].
  rewrite E1. cbn [bind].
  pose proof (i_layout _ I1) as L.
  assert (Hsv : suf_valid m1 = (-1)%Z) by (pose proof (i_sv _ I); lia).
  destruct (extract_loop_spec m1 outgoing I1 Hsv) with (fuel := S (length (pedges (m_dag m)))) (s := 0) (q := q) (low := 0)
    as [ks [p [Er [Hi [Hp Hc]]]]].
  - now rewrite D1.
  - pose proof (l_final _ L). lia.
  - intros; lia.
  - rewrite D1. lia.
  - eapply least_unique; [|exact Hq]. unfold complete_costs. rewrite <- D1, <- P1.
    apply (i_suf _ I1). rewrite Hsv. unfold state_tag_start, zget. simpl. rewrite (l_svb_0 _ L).
    pose proof (l_final _ L). lia.
  - rewrite Er. cbn [bind]. rewrite D1, P1 in *. exists ks, p, m1. splits; auto.
Qed.

(** With no finite-cost path, extraction gives back no complete path. *)
Lemma extract_infeasible m outgoing : inv m -> outgoing_ok (m_dag m) outgoing ->
  1 < n_states (m_dag m) ->
  least (complete_costs (m_dag m) (pens m)) Inf ->
  (exists m' k, extract_indices m outgoing = Ok ([k], m')) \/
  extract_indices m outgoing = Err AssertionError.
Proof.
  intros I [Hol Hok] Hn Hq. unfold extract_indices.
  destruct (update_suffixes_spec m (-1) I) as [m1 [E1 [I1 [D1 [P1 [S1 [V1 W1]]]]]]]; [lia|].
  rewrite E1. cbn [bind]. pose proof (i_layout _ I1) as L.
  assert (Hsv : suf_valid m1 = (-1)%Z) by (pose proof (i_sv _ I); lia).
  cbn [extract_loop]. rewrite D1.
  replace (0 <? n_states (m_dag m) - 1) with true by (symmetry; apply Nat.ltb_lt; lia).
  assert (En : nth_error outgoing 0 = Some (nth 0 outgoing [])) by (apply nth_error_nth'; lia). rewrite En.
  destruct (nth 0 outgoing []) as [|kk ks] eqn:Eout; [now right|left].
  assert (Hsuf : forall s, s < n_states (m_dag m) ->
    least (path_costs (m_dag m) (pens m) s (n_states (m_dag m) - 1)) (get (suf_table m1) s)).
  { intros s Hs. rewrite <- D1, <- P1. apply (i_suf _ I1). rewrite Hsv. unfold state_tag_start, zget. simpl.
    rewrite (l_svb_0 _ L), D1. lia. }
  destruct (choose_fold m1 (kk :: ks) kk Inf (n_states (m_dag m))) as [k [c [nx [F [Nc [Hle [Hall Hc]]]]]]].
  { discriminate. }
  { intros k Hk. rewrite <- Eout in Hk. apply Hok in Hk as [e [He Es]]; [|lia]. rewrite D1. exists e. split; auto.
    assert (Hin : In e (pedges (m_dag m))) by (eapply nth_error_In; eauto).
    unfold to_go. rewrite <- cadd_assoc. apply cadd_notnan.
    - eapply least_path_notnan. apply Hsuf. apply (edge_bound _ (i_layout _ I) e Hin).
    - rewrite P1. apply (weight_notnan (m_dag m)); auto; [apply (i_layout _ I)|apply (i_pens _ I)]. }
  rewrite F.
  assert (nx = n_states (m_dag m)).
  { destruct Hc as [Hc|[e [Hk [He [Eg Ed]]]]]; [congruence|]. exfalso.
    rewrite <- Eout in Hk. pose proof Hk as Hk'. apply Hok in Hk' as [e' [He' Es]]; [|lia].
    rewrite D1 in He. assert (e' = e) by congruence. subst e'.
    assert (Hin : In e (pedges (m_dag m))) by (eapply nth_error_In; eauto).
    assert (Ec : c = Inf).
    { rewrite <- Eg. unfold to_go. rewrite <- cadd_assoc.
      destruct (Hsuf (dest e)) as [_ [_ [[p [Hp E]]|E]]]; [apply (edge_bound _ (i_layout _ I) e Hin)| |].
      - assert (Hx : cle Inf (penalized_cost (pens m) (e :: p))).
        { apply Hq. exists (e :: p). split; [|reflexivity].
          assert (Hz : is_path (pedges (m_dag m)) (source e) (e :: p) (n_states (m_dag m) - 1)) by (apply path_cons; auto).
          rewrite Es in Hz. exact Hz. }
        rewrite penalized_cons, E in Hx. rewrite P1.
        change (cadd (ecost e) (penalty (pens m) e)) with (weight (pens m) e).
        rewrite cadd_comm. destruct (cadd (weight (pens m) e) _); cbn in Hx; tauto.
      - rewrite E. assert (Hw : weight (pens m1) e <> NaN).
        { rewrite P1. apply (weight_notnan (m_dag m)); auto; [apply (i_layout _ I)|apply (i_pens _ I)]. }
        unfold weight in Hw. destruct (cadd (ecost e) (penalty (pens m1) e)); cbn; congruence. }
    rewrite Ec in F. (* an infinite candidate never replaces the initial one *)
    assert (G : forall l a best n' k' nx', best = Inf -> fold_left (choose m1) l (a, best, n') = (k', Inf, nx') -> nx' = n').
    { clear. induction l as [|x l IH]; intros a best n' k' nx' -> Hf; cbn in Hf; [congruence|].
      destruct (nth_error (pedges (m_dag m1)) x) as [e|]; [|eapply IH; eauto].
      destruct (cltb _ Inf) eqn:C; [|eapply IH; eauto]. exfalso.
      assert (M : forall l a best n', is_finite best = true -> is_finite (snd (fst (fold_left (choose m1) l (a, best, n')))) = true).
      { clear. induction l as [|x l IH]; intros a best n' Hb; cbn; auto.
        destruct (nth_error (pedges (m_dag m1)) x) as [e|]; [|apply IH; auto].
        destruct (cltb _ best) eqn:C; apply IH; auto.
        destruct (cadd _ _), best; cbn in *; try discriminate; auto. }
      specialize (M l x _ (dest e) C). rewrite Hf in M. discriminate. }
    specialize (G _ _ _ _ _ _ eq_refl F).
    pose proof (edge_bound _ (i_layout _ I) e Hin). lia. }
  subst nx. 
  assert (Efin : forall f, extract_loop m1 outgoing f (n_states (m_dag m)) = Ok []).
  { intros [|f]; cbn [extract_loop]; rewrite D1;
      replace (n_states (m_dag m) <? n_states (m_dag m) - 1) with false by (symmetry; apply Nat.ltb_ge; lia); auto. }
  rewrite Efin. cbn [bind]. eauto.
Qed.
