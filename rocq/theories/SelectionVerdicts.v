(** What a selection path says of every token of the prototype. *)

From Coq Require Import List Bool Arith ZArith Lia QArith Qcanon Sorted.
From Verif Require Import Base Graph GatedDag SeqNodes PackedSeq PackedSeqProofs Numbered Decisions RegionDecisions EditSpec EditReport EditReportProofs
  SelectionDag SelectionSpec SelectionProofs SelectionPaths SelectionReport SelectionReportProofs.
Import ListNotations.
Close Scope Qc_scope. Close Scope Q_scope. Close Scope Z_scope. Open Scope nat_scope.

(** Outside of the selected parts; in a part that was found in the target; in a part
    that was not. *)
Inductive verdict := NotSelected | Matched | Wrong.
Definition verdict_of (c : scategory) : verdict := match c with SelectMatched => Matched | SelectUnmatched => Wrong | _ => NotSelected end.

Section Verdicts.
  Context {M : Type} {md : EqDec M} (U : text -> M -> utilities).
  Notation step := (@step M).
  Definition selects (c : scategory) : dvalue := match c with SelectMatched | SelectUnmatched => DTrue | _ => DFalse end.
  Definition step_token (w : step) : list (nat * (text * M)) := match w with WToken k t m => [(k, (t, m))] | _ => [] end.
  Definition effect_verdict (e : seffect) : list (nat * scategory) :=
    match snd e with Some f => match s_proto f with Some i => [(i, s_category f)] | None => [] end | None => [] end.
  Definition charge (x : step * scategory) : Qc :=
    match snd x with SelectMatched => (- gain U (fst x))%Qc | SelectUnmatched => penalty U (fst x) | _ => 0%Qc end.
  Definition charges (l : list (step * scategory)) : Qc := fold_right (fun x q => (charge x + q)%Qc) 0%Qc l.
  Definition agrees (tr : list seffect) (x : step * scategory) : Prop :=
    snd x <> SkipInTarget /\ forall k t m, fst x = WToken k t m -> In ((k, NodeInRegion), selects (snd x)) (decided tr).
  Lemma agrees_cons e tr x : agrees tr x -> agrees (e :: tr) x.
  Proof. intros [H1 H2]. split; auto. intros k t m E. unfold decided. cbn [flat_map]. apply in_or_app. right. exact (H2 k t m E). Qed.
  Lemma agrees_all e tr l : Forall (agrees tr) l -> Forall (agrees (e :: tr)) l.
  Proof. apply Forall_impl. intros x. apply agrees_cons. Qed.

  Lemma srun_steps c from to tr : srun U c from to tr -> exists ss : list (step * scategory),
    flat_map effect_verdict tr = map (fun x => (number_of (fst x), snd x)) ss /\
    flat_map step_token (map fst ss) = flat_map step_token from /\ incl (map fst ss) from /\
    Forall (agrees tr) ss /\ total tr = Fin (charges ss).
  Proof.
    assert (K : forall (c : cost) d f tr w cat ss (q : Qc), total tr = Fin (charges ss) -> c = Fin q -> q = charge (w, cat) ->
      total ((c, d, f) :: tr) = Fin (charges ((w, cat) :: ss))).
    { intros c0 d f tr0 w cat ss q H -> ->. eapply total_cons; [reflexivity|exact H]. }
    assert (K0 : forall d f tr (q : Qc), total tr = Fin q -> total ((Fin 0, d, f) :: tr) = Fin q).
    { intros d f tr0 q H. erewrite total_cons; [|reflexivity|exact H]. f_equal. ring. }
    induction 1 as [to|w from to tr Hw Hr IH|k from to tr Hr IH|k from to tr Hr IH|w from t k to tr Hv Hr IH|w from t k to tr Hv Hr IH
      |w from t k c to tr Ha Hr IH|w from to tr [k Hw] Hr IH|k from to tr Hr IH|w from to tr Hw Hr IH|k from to tr Hr IH].
    - exists []. splits; try reflexivity. intros x []. constructor.
    - destruct IH as [ss [H1 [H2 [H3 [H4 H5]]]]]. exists ((w, SkipUnselected) :: ss). cbn [map flat_map fst snd].
      splits; [unfold effect_verdict at 1; cbn; now rewrite H1|now rewrite H2| | |].
      + intros x [<-|Hx]; [now left|right; auto].
      + constructor; [|now apply agrees_all]. split; [discriminate|]. cbn [fst snd]. intros k t m ->. left. reflexivity.
      + eapply K; eauto.
    - destruct IH as [ss [H1 [H2 [H3 [H4 H5]]]]]. exists ss. splits; auto using agrees_all; intros x Hx; right; auto.
    - destruct IH as [ss [H1 [H2 [H3 [H4 H5]]]]]. exists ss. splits; auto using agrees_all; intros x Hx; right; auto.
    - destruct IH as [ss [H1 [H2 [H3 [H4 H5]]]]]. exists ss. splits; auto using agrees_all.
    - destruct IH as [ss [H1 [H2 [H3 [H4 H5]]]]]. exists ss. splits; auto using agrees_all.
    - destruct IH as [ss [H1 [H2 [H3 [H4 H5]]]]]. apply alike_spec in Ha as [N [Es ->]]. exists ((w, SelectMatched) :: ss). cbn [map flat_map fst snd].
      splits; [unfold effect_verdict at 1; cbn; now rewrite H1|now rewrite H2| | |].
      + intros x [<-|Hx]; [now left|right; auto].
      + constructor; [|now apply agrees_all]. split; [discriminate|]. cbn [fst snd]. intros k' t' m ->. left. reflexivity.
      + eapply K; eauto.
    - destruct IH as [ss [H1 [H2 [H3 [H4 H5]]]]]. exists ((w, SelectMatched) :: ss). cbn [map flat_map fst snd].
      splits; [unfold effect_verdict at 1; cbn; now rewrite H1|now rewrite H2| | |].
      + intros x [<-|Hx]; [now left|right; auto].
      + constructor; [|now apply agrees_all]. split; [discriminate|]. cbn [fst snd]. intros k' t' m ->. destruct Hw; discriminate.
      + eapply K; eauto. destruct Hw as [-> | ->]; reflexivity.
    - destruct IH as [ss [H1 [H2 [H3 [H4 H5]]]]]. exists ss. splits; auto using agrees_all; intros x Hx; right; auto.
    - destruct IH as [ss [H1 [H2 [H3 [H4 H5]]]]]. exists ((w, SelectUnmatched) :: ss). cbn [map flat_map fst snd].
      splits; [unfold effect_verdict at 1; cbn; now rewrite H1|now rewrite H2| | |].
      + intros x [<-|Hx]; [now left|right; auto].
      + constructor; [|now apply agrees_all]. split; [discriminate|]. cbn [fst snd]. intros k t m ->. left. reflexivity.
      + eapply K; eauto.
    - destruct IH as [ss [H1 [H2 [H3 [H4 H5]]]]]. exists ss. splits; auto using agrees_all; intros x Hx; right; auto.
  Qed.

  (** The verdicts on the tokens. *)
  Definition on_tokens (ss : list (step * scategory)) : list (nat * (text * M) * verdict) :=
    flat_map (fun x => map (fun t => (t, verdict_of (snd x))) (step_token (fst x))) ss.
  Lemma on_tokens_tokens ss : map fst (on_tokens ss) = flat_map step_token (map fst ss).
  Proof.
    induction ss as [|x ss IH]; [reflexivity|]. unfold on_tokens in *. cbn [flat_map map]. rewrite map_app, IH, map_map. cbn [fst]. now rewrite map_id.
  Qed.
  Lemma walk_tokens (x : lnode M) : flat_map step_token (walk x) = token_nodes x.
  Proof.
    induction x as [i t|i t m|i|i|i|i cs m IH] using lnode_ind'; try reflexivity. cbn [walk flat_map step_token token_nodes app].
    rewrite flat_map_app. cbn [flat_map step_token app]. rewrite app_nil_r.
    induction IH as [|c cs Hc IHcs IHc]; [reflexivity|]. cbn [flat_map]. rewrite flat_map_app. f_equal; auto.
  Qed.
  Lemma walks_tokens (l : list (lnode M)) : flat_map step_token (walks l) = flat_map token_nodes l.
  Proof. induction l as [|x l IH]; [reflexivity|]. unfold walks. cbn [flat_map]. rewrite flat_map_app. f_equal; [apply walk_tokens|exact IH]. Qed.
  (** What a verdict costs. *)
  Definition verdict_cost (v : nat * (text * M) * verdict) : Qc :=
    let '(_, (t, m), x) := v in match x with Matched => (- match_utility (U t m))%Qc | Wrong => delete_cost (U t m) | NotSelected => 0%Qc end.
  Lemma on_tokens_cost ss : Forall (fun x => snd x <> SkipInTarget) ss -> charges ss = fold_right (fun v q => (verdict_cost v + q)%Qc) 0%Qc (on_tokens ss).
  Proof.
    induction 1 as [|[w c] ss H F IH]; [reflexivity|]. unfold on_tokens in *. cbn [flat_map charges fold_right]. rewrite fold_right_app, <- IH. fold (charges ss).
    destruct w, c; cbn; try ring; now destruct H.
  Qed.
End Verdicts.

Section Path.
  Context {M : Type} {md : EqDec M} (U : text -> M -> utilities) (ns ts : list (node M)).
  Notation step := (@step M).
  (** Texts by verdict. *)
  Definition is_verdict (v x : verdict) : bool := match v, x with NotSelected, NotSelected | Matched, Matched | Wrong, Wrong => true | _, _ => false end.
  Definition verdict_texts (v : verdict) (vs : list (nat * (text * M) * verdict)) : list text :=
    map (fun x => fst (snd (fst x))) (filter (fun x => is_verdict v (snd x)) vs).
  Definition token_of (i : nat) : list text := match token_text (pack ns) (Some i) with Ok l => l | Err _ => [] end.
  Lemma shown_verdicts P (tr : list seffect) : P None = false -> P (Some SkipInTarget) = false ->
    some_shown ns ts P tr = flat_map (fun x => if P (Some (snd x)) then token_of (fst x) else []) (flat_map effect_verdict tr).
  Proof.
    intros P0 P1. induction tr as [|e tr IH]; [reflexivity|]. rewrite some_shown_cons, IH. cbn [flat_map]. rewrite flat_map_app. f_equal.
    unfold effect_category, effect_verdict, effect_shows, effect_tokens. destruct (snd e) as [[[] [i|] j]|]; cbn [s_category s_proto s_target flat_map app fst snd]; rewrite ?P0, ?P1, ?app_nil_r; try reflexivity;
      match goal with |- context [P ?x] => now destruct (P x) end.
  Qed.
  Lemma texts_verdicts (v : verdict) P (ss : list (step * scategory)) : (forall c, c <> SkipInTarget -> P (Some c) = is_verdict v (verdict_of c)) ->
    (forall w, In w (map fst ss) -> token_text (pack ns) (Some (number_of w)) = Ok (step_text w)) -> Forall (fun x => snd x <> SkipInTarget) ss ->
    flat_map (fun x => if P (Some (snd x)) then token_of (fst x) else []) (map (fun x : step * scategory => (number_of (fst x), snd x)) ss) = verdict_texts v (on_tokens ss).
  Proof.
    intros HP HT. induction 1 as [|[w c] ss H F IH]; [reflexivity|]. cbn [map flat_map fst snd]. unfold verdict_texts, on_tokens in *. cbn [flat_map].
    rewrite filter_app, map_app, <- IH by (intros; apply HT; now right). f_equal. rewrite (HP c H). unfold token_of. rewrite (HT w (or_introl eq_refl)).
    destruct w; cbn [step_text step_token map filter fst snd]; now destruct (is_verdict v (verdict_of c)).
  Qed.
  Definition matched (c : option scategory) : bool := match c with Some SelectMatched => true | _ => false end.
  Definition unmatched (c : option scategory) : bool := match c with Some SelectUnmatched => true | _ => false end.
  Definition matched_groups := filter (fun g => matched (sg_category g)).
  Definition wrong_groups := filter (fun g => unmatched (sg_category g)).

  Theorem path_verdicts d p : construct_selection_dag U (pack ns) (pack ts) = Ok d -> complete_path d p ->
    exists groups ss, extract_match_groups p (pack ns) (pack ts) = Ok groups /\
      flat_map (fun e => effect_verdict (effect_of e)) p = map (fun x => (number_of (fst x), snd x)) ss /\ incl (map fst ss) (walks (labelled ns)) /\
      let verdicts := on_tokens ss in
      map fst verdicts = flat_map token_nodes (labelled ns) /\
      Forall (fun v => In ((fst (fst v), NodeInRegion), if is_verdict NotSelected (snd v) then DFalse else DTrue) (path_assignments p)) verdicts /\
      path_cost p = Fin (fold_right (fun v q => (verdict_cost U v + q)%Qc) 0%Qc verdicts) /\
      concat (map sg_tokens (matched_groups groups)) = verdict_texts Matched verdicts /\
      concat (map sg_tokens (wrong_groups groups)) = verdict_texts Wrong verdicts /\
      exists rest, shown_tokens ts = concat (map sg_tokens (filter (fun g => of_target (sg_category g)) groups)) ++ rest.
  Proof.
    intros Hd Hp.
    assert (B : ~ begins_with_end (walks (labelled ns))).
    { intros B. rewrite (construct_selection_fails U ns ts B) in Hd. discriminate. }
    rewrite (construct_selection_ok U ns ts B) in Hd. injection Hd as <-. unfold complete_path in Hp. cbn in Hp.
    destruct (path_groups U ns ts p Hp) as [gs0 [E0 [_ [_ [Rt _]]]]].
    apply path_run in Hp. cbn [skipn] in Hp. destruct (srun_steps U _ _ _ _ Hp) as [ss [H1 [H2 [H3 [H4 H5]]]]].
    destruct (srun_shown U ns ts _ _ _ _ Hp) as [I1 _]; [apply token_text_step|apply token_text_step|].
    destruct (extract_ok (pack ns) (pack ts) p) as [gs [E H]].
    { unfold effects in I1. rewrite Forall_map in I1. exact I1. }
    assert (gs0 = gs) by congruence. subst gs0. clear E0.
    assert (HS : Forall (fun x => snd x <> SkipInTarget) ss) by (eapply Forall_impl; [|exact H4]; intros x [Hx _]; exact Hx).
    assert (HT : forall w, In w (map fst ss) -> token_text (pack ns) (Some (number_of w)) = Ok (step_text w)) by (intros w Hw; apply token_text_step; auto).
    exists gs, ss. cbv zeta. splits; auto.
    - rewrite <- H1. unfold effects. clear. induction p as [|e p IH]; [reflexivity|]. cbn [flat_map map]. now rewrite IH.
    - rewrite on_tokens_tokens, H2. apply walks_tokens.
    - rewrite <- effects_decided. apply Forall_forall. intros v Hv. unfold on_tokens in Hv. apply in_flat_map in Hv as [x [Hx Hv]].
      rewrite Forall_forall in H4. destruct (H4 x Hx) as [N A]. apply in_map_iff in Hv as [y [<- Hy]]. destruct x as [w c]. cbn [fst snd] in *.
      destruct w; try (now destruct Hy). destruct Hy as [<-|[]]. cbn [fst]. specialize (A _ _ _ eq_refl). destruct c; exact A.
    - rewrite <- effects_total, H5. f_equal. now apply on_tokens_cost.
    - destruct (H matched) as [G _]. rewrite shown_effects, (shown_verdicts matched _ eq_refl eq_refl), H1 in G. etransitivity; [exact G|].
      apply texts_verdicts; auto. intros [] C; reflexivity.
    - destruct (H unmatched) as [G _]. rewrite shown_effects, (shown_verdicts unmatched _ eq_refl eq_refl), H1 in G. etransitivity; [exact G|].
      apply texts_verdicts; auto. intros [] C; reflexivity.
  Qed.
End Path.
