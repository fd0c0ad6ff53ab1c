(** What the groups of a selection path show and cost. *)

From Coq Require Import List Bool Arith ZArith Lia QArith Qcanon.
From Verif Require Import Base Graph SeqNodes PackedSeq PackedSeqProofs Numbered Decisions RegionDecisions EditSpec EditReport EditReportProofs
  SelectionDag SelectionSpec SelectionProofs SelectionPaths SelectionReport.
Import ListNotations.
Close Scope Qc_scope. Close Scope Q_scope. Close Scope Z_scope. Open Scope nat_scope.

Section GroupBy.
  Context {A K : Type} {kd : EqDec K} (key : A -> K).
  Lemma groupby_concat l : concat (map snd (groupby key l)) = l.
  Proof.
    induction l as [|x l IH]; [reflexivity|]. cbn [groupby]. destruct (groupby key l) as [|[k g] rest]; [cbn in *; now rewrite <- IH|].
    destruct (eqb (key x) k); cbn in *; now rewrite <- IH.
  Qed.
  Lemma groupby_keys l : Forall (fun g => Forall (fun x => key x = fst g) (snd g)) (groupby key l).
  Proof.
    induction l as [|x l IH]; [constructor|]. cbn [groupby]. destruct (groupby key l) as [|[k g] rest]; [repeat constructor|].
    inversion IH as [|? ? H1 H2]; subst. destruct (eqb (key x) k) eqn:E.
    - apply eqb_eq in E. constructor; [|exact H2]. constructor; auto.
    - constructor; [repeat constructor|]. auto.
  Qed.
End GroupBy.

Section Groups.
  Context {M : Type} (S T : storage M).
  Definition shows (e : sedge) : list text := match edge_tokens S T e with Ok ts => ts | Err _ => [] end.
  Definition told (p : list sedge) : Prop := Forall (fun e => exists ts, edge_tokens S T e = Ok ts) p.
  Lemma mapM_shows p : told p -> mapM (edge_tokens S T) p = Ok (map shows p).
  Proof.
    intros F. apply mapM_ok_iff. induction F as [|e p [ts He] F IH]; constructor; auto. unfold shows. now rewrite He.
  Qed.
  Lemma fold_costs (p : list sedge) k : fold_left (fun k e => cadd k (ecost e)) p k = cadd k (path_cost p).
  Proof.
    revert k. induction p as [|e p IH]; intros k; cbn [fold_left]; [unfold path_cost; cbn; now rewrite cadd_0_r|].
    rewrite IH. unfold path_cost. cbn [map]. unfold csum. cbn [fold_right]. symmetry. apply cadd_assoc.
  Qed.
  Lemma csum_concat (l : list (list cost)) : csum (concat l) = csum (map csum l).
  Proof. induction l as [|x l IH]; [reflexivity|]. cbn [concat map]. rewrite csum_app, IH. reflexivity. Qed.
  Definition within_category (P : option scategory -> bool) (g : sgroup) : bool := P (sg_category g).
  Lemma extract_ok p : told p -> exists groups, extract_match_groups p S T = Ok groups /\
    forall P : option scategory -> bool,
      concat (map sg_tokens (filter (within_category P) groups)) = flat_map shows (filter (fun e => P (category_of e)) p) /\
      csum (map sg_cost (filter (within_category P) groups)) = path_cost (filter (fun e => P (category_of e)) p).
  Proof.
    intros F. unfold extract_match_groups. pose proof (groupby_concat category_of p) as C. pose proof (groupby_keys category_of p) as K.
    remember (groupby category_of p) as gs eqn:Eg. clear Eg. rewrite <- C in F |- *. clear C p.
    induction gs as [|[k part] gs IH]; [exists []; split; [reflexivity|intros P; auto]|].
    inversion K as [|? ? K1 K2]; subst. cbn [map snd concat] in F. apply Forall_app in F as [F1 F2]. destruct (IH F2 K2) as [groups [E H]].
    cbn [mapM]. unfold part_group at 1. cbn [snd]. rewrite (mapM_shows part F1). cbn [bind]. rewrite fold_costs, cadd_0_l.
    apply bind_ok_inv in E as [rest [E1 E2]]. rewrite E1. cbn [bind]. injection E2 as E2. eexists. split; [reflexivity|].
    cbn [concat]. rewrite E2. intros P. destruct (H P) as [H1 H2]. cbn [map snd concat].
    assert (FP : filter (fun e => P (category_of e)) part = if P k then part else []).
    { clear -K1. cbn in K1. induction K1 as [|e part He K1 IH]; [now destruct (P k)|]. cbn [filter]. rewrite He, IH. now destruct (P k). }
    rewrite !filter_app, !map_app, !concat_app, csum_app, flat_map_app, FP, H1, H2.
    match goal with |- context [path_cost (?a ++ ?b)] => replace (path_cost (a ++ b)) with (cadd (path_cost a) (path_cost b)) by (symmetry; apply path_cost_app) end.
    assert (G : forall l, l = (if negb (eqb (path_cost part) (Fin 0)) || negb (eqb (concat (map shows part)) []) then [mkSGroup (concat (map shows part)) k (path_cost part)] else []) ->
      concat (map sg_tokens (filter (within_category P) l)) = flat_map shows (if P k then part else []) /\
      csum (map sg_cost (filter (within_category P) l)) = path_cost (if P k then part else [])).
    { intros l ->. unfold within_category. destruct (eqb (path_cost part) (Fin 0)) eqn:Ek, (eqb (concat (map shows part)) []) eqn:Et;
        cbn [negb orb filter sg_category]; destruct (P k); cbn [map concat sg_tokens sg_cost flat_map]; rewrite ?app_nil_r; try (split; reflexivity).
      - apply eqb_eq in Ek, Et. rewrite flat_map_concat_map, Et, Ek. split; reflexivity.
      - rewrite flat_map_concat_map. split; [reflexivity|]. unfold csum. cbn [fold_right]. now rewrite cadd_0_r.
      - rewrite flat_map_concat_map. split; [reflexivity|]. unfold csum. cbn [fold_right]. now rewrite cadd_0_r.
      - rewrite flat_map_concat_map. split; [reflexivity|]. unfold csum. cbn [fold_right]. now rewrite cadd_0_r. }
    destruct (G _ eq_refl) as [G1 G2]. cbn [fst]. split; [f_equal; exact G1|f_equal; exact G2].
  Qed.
End Groups.

Section Shown.
  Context {M : Type} {md : EqDec M} (U : text -> M -> utilities).
  Notation L := (lnode M).
  Notation step := (@step M).
  Definition step_text (w : step) : list text := match w with WToken _ t _ => [t] | _ => [] end.
  Lemma walk_texts (x : L) : flat_map step_text (walk x) = map (fun y => fst (snd y)) (token_nodes x).
  Proof.
    induction x as [i t|i t m|i|i|i|i cs m IH] using lnode_ind'; try reflexivity. cbn [walk flat_map step_text token_nodes app].
    rewrite flat_map_app. cbn [flat_map step_text app]. rewrite app_nil_r.
    induction IH as [|c cs Hc IHcs IHc]; [reflexivity|]. cbn [flat_map]. rewrite flat_map_app, map_app. f_equal; auto.
  Qed.
  Lemma walks_texts (l : list L) : flat_map step_text (walks l) = map (fun y => fst (snd y)) (flat_map token_nodes l).
  Proof. induction l as [|x l IH]; [reflexivity|]. unfold walks. cbn [flat_map]. rewrite flat_map_app, map_app. f_equal; [apply walk_texts|exact IH]. Qed.
  Lemma walk_node (x : L) w : In w (walk x) -> exists y, In y (nodes x) /\ number y = number_of w /\ step_text w = match y with LToken _ t _ => [t] | _ => [] end.
  Proof.
    induction x as [i t|i t m|i|i|i|i cs m IH] using lnode_ind'; cbn [walk]; intros Hw.
    - destruct Hw.
    - destruct Hw as [<-|[]]. exists (LToken i t m). splits; auto. now left.
    - destruct Hw as [<-|[]]. exists (LStart i). splits; auto. now left.
    - destruct Hw as [<-|[]]. exists (LEnd i). splits; auto. now left.
    - destruct Hw as [<-|[]]. exists (LExit i). splits; auto. now left.
    - destruct Hw as [<-|Hw]; [exists (LGroup i cs m); splits; auto; now left|]. apply in_app_or in Hw as [Hw|[<-|[]]]; [|exists (LGroup i cs m); splits; auto; now left].
      apply in_flat_map in Hw as [c [Hc Hw]]. rewrite Forall_forall in IH. destruct (IH c Hc Hw) as [y [H1 H2]]. exists y. split; auto.
      cbn [nodes]. right. apply in_flat_map. eauto.
  Qed.
  Lemma node_at (ns : list (node M)) x : In x (flat_map nodes (labelled ns)) ->
    nth_error (preorder_traversal (pack ns)) (number x) = Some (label x) /\ placed (pack ns) x.
  Proof.
    intros Hx. split.
    - assert (E : preorder_traversal (pack ns) = map label (flat_map nodes (labelled ns))) by now rewrite nodes_pres, pack_labelled.
      rewrite E. apply In_nth_error in Hx as [k Hk]. pose proof (pre_of_seqs ns 0 0 0 0) as Hs. rewrite <- nodes_pres in Hs.
      fold (labelled ns) in Hs. assert (Hk' : nth_error (map pre (map label (flat_map nodes (labelled ns)))) k = Some (number x))
        by (rewrite map_map; exact (map_nth_error _ _ _ Hk)).
      rewrite Hs in Hk'.
      assert (Hlt : k < list_sum (map size ns)) by (rewrite <- (seq_length (list_sum (map size ns)) 0); apply nth_error_Some; congruence).
      rewrite (nth_error_nth' _ 0) in Hk' by (now rewrite seq_length). rewrite seq_nth in Hk' by auto. injection Hk' as Hk'. cbn in Hk'. subst k.
      exact (map_nth_error _ _ _ Hk).
    - apply in_flat_map in Hx as [c [Hc Hx]]. pose proof (pack_placed ns) as F. rewrite Forall_forall in F.
      pose proof (nodes_placed _ _ (F c Hc)) as G. rewrite Forall_forall in G. auto.
  Qed.
  Lemma token_text_step (ns : list (node M)) w : In w (walks (labelled ns)) -> token_text (pack ns) (Some (number_of w)) = Ok (step_text w).
  Proof.
    intros Hw. unfold walks in Hw. apply in_flat_map in Hw as [x [Hx Hw]]. apply walk_node in Hw as [y [Hy [<- ->]]].
    destruct (node_at ns y) as [N P]; [apply in_flat_map; eauto|]. cbn [token_text]. unfold lookup at 1. rewrite N. cbn [bind].
    apply placed_inv in P. destruct y as [i t|i t m|i|i|i|i cs m]; cbn [label].
    - destruct P as [-> _]. reflexivity.
    - destruct P as [-> ->]. reflexivity.
    - now rewrite P.
    - now rewrite P.
    - now rewrite P.
    - destruct P as [-> _]. reflexivity.
  Qed.

  Section Run.
    Context (ns ts : list (node M)).
    (** As [edge_tokens], of what an edge does. *)
    Definition effect_tokens (e : seffect) : result (list text) :=
      match snd e with
      | None => Ok []
      | Some f => match s_category f with
                  | SelectMatched | SelectUnmatched | SkipUnselected => token_text (pack ns) (s_proto f)
                  | SkipInTarget => token_text (pack ts) (s_target f)
                  end
      end.
    Definition effect_category (e : seffect) : option scategory := match snd e with Some f => Some (s_category f) | None => None end.
    Definition effect_shows (e : seffect) : list text := match effect_tokens e with Ok l => l | Err _ => [] end.
    Definition of_prototype (c : option scategory) : bool :=
      match c with Some SelectMatched | Some SelectUnmatched | Some SkipUnselected => true | _ => false end.
    Definition of_target (c : option scategory) : bool :=
      match c with Some SelectMatched | Some SkipInTarget => true | _ => false end.
    Definition unselected (c : option scategory) : bool :=
      match c with Some SelectMatched | Some SelectUnmatched => false | _ => true end.
    Definition some_shown P (tr : list seffect) := flat_map effect_shows (filter (fun e => P (effect_category e)) tr).
    Lemma some_shown_cons P e tr : some_shown P (e :: tr) = (if P (effect_category e) then effect_shows e else []) ++ some_shown P tr.
    Proof. unfold some_shown. cbn [filter]. now destruct (P (effect_category e)). Qed.
    Lemma srun_shown c from to tr : srun U c from to tr ->
      (forall w, In w from -> token_text (pack ns) (Some (number_of w)) = Ok (step_text w)) ->
      (forall w, In w to -> token_text (pack ts) (Some (number_of w)) = Ok (step_text w)) ->
      Forall (fun e => exists l, effect_tokens e = Ok l) tr /\
      some_shown of_prototype tr = flat_map step_text from /\
      (exists rest, flat_map step_text to = some_shown of_target tr ++ rest) /\
      Forall (fun e => unselected (effect_category e) = true -> fst (fst e) = Fin 0) tr.
    Proof.
      induction 1 as [to|w from to tr Hw Hr IH|k from to tr Hr IH|k from to tr Hr IH|w from t k to tr Hv Hr IH|w from t k to tr Hv Hr IH
        |w from t k c to tr Ha Hr IH|w from to tr [k Hw] Hr IH|k from to tr Hr IH|w from to tr Hw Hr IH|k from to tr Hr IH]; intros HF HT.
      - splits; [repeat constructor; cbn; eauto|reflexivity|eexists; reflexivity|repeat constructor].
      - destruct IH as [I1 [I2 [[r I3] I4]]]; [intros; apply HF; now right|exact HT|]. specialize (HF w (or_introl eq_refl)).
        rewrite !some_shown_cons. cbn. unfold effect_shows, effect_tokens. cbn [snd s_category s_proto]. rewrite HF, I2.
        splits; [constructor; [cbn; eauto|exact I1]|reflexivity|eauto|constructor; auto].
      - destruct IH as [I1 [I2 [[r I3] I4]]]; [intros; apply HF; now right|exact HT|].
        rewrite !some_shown_cons. cbn. rewrite I2. splits; [constructor; [cbn; eauto|exact I1]|reflexivity|eauto|constructor; auto].
      - destruct IH as [I1 [I2 [[r I3] I4]]]; [intros; apply HF; now right|exact HT|].
        rewrite !some_shown_cons. cbn. rewrite I2. splits; [constructor; [cbn; eauto|exact I1]|reflexivity|eauto|constructor; auto].
      - destruct IH as [I1 [I2 [[r I3] I4]]]; [exact HF|intros; apply HT; now right|]. specialize (HT t (or_introl eq_refl)).
        assert (k = number_of t) as -> by (destruct t; cbn in Hv |- *; congruence).
        rewrite !some_shown_cons. cbn [effect_category snd s_category of_prototype of_target app]. unfold effect_shows, effect_tokens. cbn [snd s_category s_proto s_target]. rewrite HT, I2.
        splits; [constructor; [unfold effect_tokens; cbn [snd s_category s_target]; eauto|exact I1]|reflexivity| |constructor; auto].
        exists r. cbn [flat_map]. now rewrite I3, app_assoc.
      - destruct IH as [I1 [I2 [[r I3] I4]]]; [exact HF|exact HT|].
        rewrite !some_shown_cons. cbn [effect_category snd of_prototype of_target app]. rewrite I2. splits; [constructor; [cbn; eauto|exact I1]|reflexivity|eauto|constructor; auto].
      - destruct IH as [I1 [I2 [[r I3] I4]]]; [intros; apply HF; now right|intros; apply HT; now right|].
        specialize (HF w (or_introl eq_refl)). apply alike_spec in Ha as [N [Es ->]].
        assert (Et : step_text t = step_text w). { clear -Es. destruct w, t; cbn in Es |- *; try discriminate; try reflexivity. now injection Es as -> _. }
        rewrite !some_shown_cons. cbn [effect_category snd s_category of_prototype of_target]. unfold effect_shows, effect_tokens. cbn [snd s_category s_proto]. rewrite HF, I2.
        splits; [constructor; [unfold effect_tokens; cbn [snd s_category s_proto]; eauto|exact I1]|reflexivity| |constructor; [cbn; discriminate|auto]].
        exists r. cbn [flat_map]. now rewrite I3, Et, app_assoc.
      - destruct IH as [I1 [I2 [[r I3] I4]]]; [intros; apply HF; now right|exact HT|]. specialize (HF w (or_introl eq_refl)).
        assert (Ew : step_text w = []) by now destruct Hw as [-> | ->]. rewrite Ew in HF.
        rewrite !some_shown_cons. cbn [effect_category snd s_category of_prototype of_target]. unfold effect_shows, effect_tokens. cbn [snd s_category s_proto flat_map]. rewrite HF, I2, Ew.
        splits; [constructor; [unfold effect_tokens; cbn [snd s_category s_proto]; eauto|exact I1]|reflexivity|eauto|constructor; [cbn; discriminate|auto]].
      - destruct IH as [I1 [I2 [[r I3] I4]]]; [intros; apply HF; now right|exact HT|].
        rewrite !some_shown_cons. cbn. rewrite I2. splits; [constructor; [cbn; eauto|exact I1]|reflexivity|eauto|constructor; auto].
      - destruct IH as [I1 [I2 [[r I3] I4]]]; [intros; apply HF; now right|exact HT|]. specialize (HF w (or_introl eq_refl)).
        rewrite !some_shown_cons. cbn [effect_category snd s_category of_prototype of_target]. unfold effect_shows, effect_tokens. cbn [snd s_category s_proto flat_map]. rewrite HF, I2.
        splits; [constructor; [unfold effect_tokens; cbn [snd s_category s_proto]; eauto|exact I1]|reflexivity|eauto|constructor; [cbn; discriminate|auto]].
      - destruct IH as [I1 [I2 [[r I3] I4]]]; [intros; apply HF; now right|exact HT|].
        rewrite !some_shown_cons. cbn. rewrite I2. splits; [constructor; [cbn; eauto|exact I1]|reflexivity|eauto|constructor; auto].
    Qed.
    Lemma shown_effects P (p : list sedge) : flat_map (shows (pack ns) (pack ts)) (filter (fun e => P (category_of e)) p) = some_shown P (effects p).
    Proof.
      induction p as [|e p IH]; [reflexivity|]. unfold effects. cbn [map]. rewrite some_shown_cons. cbn [filter].
      change (effect_category (effect_of e)) with (category_of e). destruct (P (category_of e)); cbn [flat_map]; rewrite IH; reflexivity.
    Qed.
    Definition shown_tokens (l : list (node M)) : list text := map (fun y => fst (snd y)) (flat_map token_nodes (labelled l)).
    Lemma path_groups p : is_path (all_edges U (walks (labelled ns)) (walks (labelled ts))) (SAt SkipUnselected 0 0) p SFinal ->
      exists groups, extract_match_groups p (pack ns) (pack ts) = Ok groups /\
        csum (map sg_cost groups) = path_cost p /\
        concat (map sg_tokens (filter (fun g => of_prototype (sg_category g)) groups)) = shown_tokens ns /\
        (exists rest, shown_tokens ts = concat (map sg_tokens (filter (fun g => of_target (sg_category g)) groups)) ++ rest) /\
        csum (map sg_cost (filter (fun g => unselected (sg_category g)) groups)) = Fin 0.
    Proof.
      intros Hp. apply path_run in Hp. cbn [skipn] in Hp.
      destruct (srun_shown _ _ _ _ Hp) as [I1 [I2 [[r I3] I4]]]; [apply token_text_step|apply token_text_step|].
      destruct (extract_ok (pack ns) (pack ts) p) as [gs [E H]].
      { unfold effects in I1. rewrite Forall_map in I1. exact I1. }
      exists gs. unfold shown_tokens. rewrite <- !walks_texts. splits; auto.
      - destruct (H (fun _ => true)) as [_ H2].
        assert (A : forall l : list sgroup, filter (within_category (fun _ => true)) l = l) by (induction l; cbn; congruence).
        assert (B : forall l : list sedge, filter (fun _ => true) l = l) by (induction l; cbn; congruence).
        now rewrite A, B in H2.
      - destruct (H of_prototype) as [H1 _]. rewrite shown_effects, I2 in H1. exact H1.
      - destruct (H of_target) as [H1 _]. rewrite shown_effects in H1. exists r. rewrite I3. f_equal. symmetry. exact H1.
      - destruct (H unselected) as [_ H2]. etransitivity; [exact H2|]. unfold effects in I4. rewrite Forall_map in I4. clear -I4.
        induction I4 as [|e p He F IH]; [reflexivity|]. cbn [filter]. change (category_of e) with (effect_category (effect_of e)).
        destruct (unselected (effect_category (effect_of e))) eqn:Eu; [|exact IH].
        unfold path_cost in *. cbn [map]. unfold csum in *. cbn [fold_right]. rewrite IH. specialize (He eq_refl). cbn in He. rewrite He. reflexivity.
    Qed.
  End Run.
End Shown.
