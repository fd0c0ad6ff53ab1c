(** Proofs about drawings: the view box, and the calls [render_dag] makes. *)

From Coq Require Import String.
From Coq Require Import List Bool Arith Lia QArith Qcanon Lqa.
From Verif Require Import Base SeqNodes Graph GatedDag Html Drawing DrawSpec DrawingProofs.
Import ListNotations.
Close Scope string_scope. Close Scope Qc_scope. Close Scope Q_scope. Open Scope nat_scope. Open Scope list_scope.

Lemma qmin_spec a b : ((qmin a b = a /\ a <= b) \/ (qmin a b = b /\ b <= a))%Qc.
Proof. unfold qmin, qc_ltb. destruct (Qclt_le_dec b a); [right|left]; split; auto. now apply Qclt_le_weak. Qed.
Lemma qmax_spec a b : ((qmax a b = b /\ a <= b) \/ (qmax a b = a /\ b <= a))%Qc.
Proof. unfold qmax, qc_ltb. destruct (Qclt_le_dec a b); [left|right]; split; auto. now apply Qclt_le_weak. Qed.
Lemma qmin_fold l : forall a, let m := fold_left qmin l a in
  (m <= a /\ (forall x, List.In x l -> m <= x))%Qc /\ List.In m (a :: l).
Proof.
  induction l as [|y l IH]; intros a; cbn zeta; cbn [fold_left].
  - splits; [apply Qcle_refl|contradiction|now left].
  - destruct (IH (qmin a y)) as [[H1 H2] H3].
    destruct (qmin_spec a y) as [[E L]|[E L]]; rewrite E in *.
    + splits; [exact H1| |destruct H3; [left|right; right]; auto].
      intros x [<-|Hx]; [eapply Qcle_trans; eauto|auto].
    + splits; [eapply Qcle_trans; eauto| |right; exact H3].
      intros x [<-|Hx]; auto.
Qed.
Lemma qmax_fold l : forall a, let m := fold_left qmax l a in
  (a <= m /\ (forall x, List.In x l -> x <= m))%Qc /\ List.In m (a :: l).
Proof.
  induction l as [|y l IH]; intros a; cbn zeta; cbn [fold_left].
  - splits; [apply Qcle_refl|contradiction|now left].
  - destruct (IH (qmax a y)) as [[H1 H2] H3].
    destruct (qmax_spec a y) as [[E L]|[E L]]; rewrite E in *.
    + splits; [eapply Qcle_trans; eauto| |right; exact H3].
      intros x [<-|Hx]; auto.
    + splits; [exact H1| |destruct H3; [left|right; right]; auto].
      intros x [<-|Hx]; [eapply Qcle_trans; eauto|auto].
Qed.

(** One box inside another. *)
Definition sub (b b' : box) : Prop :=
  (b_left b' <= b_left b /\ b_top b' <= b_top b /\ b_right b <= b_right b' /\ b_bottom b <= b_bottom b')%Qc.
Lemma sub_refl b : sub b b.
Proof. unfold sub. splits; apply Qcle_refl. Qed.
Lemma sub_trans a b c : sub a b -> sub b c -> sub a c.
Proof. unfold sub. intros (A1 & A2 & A3 & A4) (B1 & B2 & B3 & B4). splits; eapply Qcle_trans; eauto. Qed.
Lemma boundary_right l t r b : b_right (from_boundary l t r b) = r.
Proof. unfold b_right. cbn. qc_lra. Qed.
Lemma boundary_bottom l t r b : b_bottom (from_boundary l t r b) = b.
Proof. unfold b_bottom. cbn. qc_lra. Qed.
Lemma union_upper a b : sub a (union a b) /\ sub b (union a b).
Proof.
  unfold union, sub. rewrite boundary_right, boundary_bottom. cbn [from_boundary b_left b_top].
  destruct (qmin_spec (b_left a) (b_left b)) as [[-> ?]|[-> ?]], (qmin_spec (b_top a) (b_top b)) as [[-> ?]|[-> ?]],
    (qmax_spec (b_right a) (b_right b)) as [[-> ?]|[-> ?]], (qmax_spec (b_bottom a) (b_bottom b)) as [[-> ?]|[-> ?]];
    splits; auto; apply Qcle_refl.
Qed.
Lemma union_least a b c : sub a c -> sub b c -> sub (union a b) c.
Proof.
  unfold union, sub. rewrite boundary_right, boundary_bottom. cbn [from_boundary b_left b_top]. intros (A1 & A2 & A3 & A4) (B1 & B2 & B3 & B4).
  destruct (qmin_spec (b_left a) (b_left b)) as [[-> ?]|[-> ?]], (qmin_spec (b_top a) (b_top b)) as [[-> ?]|[-> ?]],
    (qmax_spec (b_right a) (b_right b)) as [[-> ?]|[-> ?]], (qmax_spec (b_bottom a) (b_bottom b)) as [[-> ?]|[-> ?]];
    splits; auto.
Qed.

Fixpoint boxes (c : command) : list box :=
  match c with
  | Label b _ _ _ _ => [b]
  | LabelAt p _ _ _ _ _ _ => [mkBox (px p) (py p) 0%Qc 0%Qc]
  | Container b _ => [b]
  | Line [] _ _ => []
  | Line (p :: ps) _ _ =>
      [from_boundary (fold_left qmin (map px ps) (px p)) (fold_left qmin (map py ps) (py p))
                     (fold_left qmax (map px ps) (px p)) (fold_left qmax (map py ps) (py p))]
  | Dot p _ _ => [from_boundary (px p) (py p) (px p) (py p)]
  | Group _ _ body => flat_map boxes body
  | Css _ => []
  | Custom _ => []
  end.
Definition grow (o : option box) (b : box) : option box := Some match o with None => b | Some b0 => union b0 b end.

Section Perform.
  Variable num : Qc -> text.
  Lemma perform_bounds c : forall r r', perform num r c = Ok r' -> r_bounds r' = fold_left grow (boxes c) (r_bounds r).
  Proof using.
    induction c as [b t h s tags|p t s d h x tags|b tags|ps h tags|p h tags|h tags body IH|t|t] using command_induction;
      intros r r' H; cbn [perform] in H.
    - injection H as <-. reflexivity.
    - injection H as <-. unfold label_at_point. destruct (vertical_offset _ _ _ _), (horizontal_offset _ _ _). reflexivity.
    - injection H as <-. reflexivity.
    - destruct ps as [|p ps]; [discriminate|]. injection H as <-. reflexivity.
    - injection H as <-. reflexivity.
    - rewrite perform_all_eq in H. apply bind_ok_inv in H as [r1 [H1 H2]]. injection H2 as <-. cbn [boxes group_close add_item r_bounds].
      change (r_bounds r) with (r_bounds (group_open r h tags)). revert H1. generalize (group_open r h tags). clear r.
      induction body as [|c body IHb]; intros r H1; cbn [perform_all flat_map] in *.
      + injection H1 as ->. reflexivity.
      + apply bind_ok_inv in H1 as [r2 [H1 H2]]. inversion IH; subst. rewrite fold_left_app, (IHb H4 _ H2). f_equal. auto.
    - injection H as <-. reflexivity.
    - injection H as <-. reflexivity.
  Qed.
  Lemma perform_all_bounds l : forall r r', perform_all num r l = Ok r' -> r_bounds r' = fold_left grow (flat_map boxes l) (r_bounds r).
  Proof using.
    induction l as [|c l IH]; intros r r' H; cbn [perform_all flat_map] in *.
    - injection H as ->. reflexivity.
    - apply bind_ok_inv in H as [r2 [H1 H2]]. rewrite fold_left_app, (IH _ _ H2). f_equal. now apply perform_bounds.
  Qed.
  Lemma perform_nonempty c : forall r r', perform num r c = Ok r' -> forall ps h tags, c = Line ps h tags -> ps <> [].
  Proof using. intros r r' H ps h tags ->. destruct ps; [discriminate|]. discriminate. Qed.
End Perform.

Lemma grow_spec bs : forall o B, fold_left grow bs o = Some B ->
  (forall b, o = Some b \/ List.In b bs -> sub b B) /\
  (forall X, (forall b, o = Some b \/ List.In b bs -> sub b X) -> sub B X).
Proof.
  induction bs as [|b bs IH]; intros o B H; cbn [fold_left] in H.
  - subst o. split; [intros b [E|[]]; injection E as ->; apply sub_refl|intros X HX; apply HX; now left].
  - destruct (IH _ _ H) as [H1 H2]. split.
    + assert (U := H1 _ (or_introl eq_refl)). intros b' [E|[<-|Hb]].
      * subst o. eapply sub_trans; [|exact U]. apply union_upper.
      * destruct o as [b0|]; [|exact U]. eapply sub_trans; [|exact U]. apply union_upper.
      * apply H1. now right.
    + intros X HX. apply H2. intros b' [E|Hb].
      * injection E as <-. destruct o as [b0|]; [apply union_least|]; apply HX; cbn; auto.
      * apply HX. cbn. auto.
Qed.
Lemma grow_none bs : fold_left grow bs None = None -> bs = [].
Proof.
  assert (G : forall bs o, o <> None -> fold_left grow bs o <> None) by (induction bs0 as [|b bs0 IH]; intros o N; cbn; [exact N|apply IH; discriminate]).
  destruct bs as [|b bs]; [reflexivity|]. cbn. intros H. exfalso. revert H. apply G. discriminate.
Qed.

(** The points a call covers lie in its boxes, and its boxes are no larger. *)
Lemma covers_boxes c : forall p, covers c p -> exists b, List.In b (boxes c) /\ in_box b p.
Proof.
  induction c as [b t h s tags|q t s d h x tags|b tags|ps h tags|q h tags|h tags body IH|t|t] using command_induction;
    intros p H; inversion H; subst; cbn [boxes].
  - eexists. split; [now left|assumption].
  - eexists. split; [now left|]. unfold in_box. cbn. rewrite !Qcplus_0_r. splits; apply Qcle_refl.
  - eexists. split; [now left|assumption].
  - destruct ps as [|q ps]; [contradiction|]. eexists. split; [now left|]. unfold in_box.
    destruct (qmin_fold (map px ps) (px q)) as [[X1 X2] _]. destruct (qmin_fold (map py ps) (py q)) as [[Y1 Y2] _].
    destruct (qmax_fold (map px ps) (px q)) as [[X3 X4] _]. destruct (qmax_fold (map py ps) (py q)) as [[Y3 Y4] _].
    match goal with |- context[from_boundary ?a ?b ?c ?d] =>
      change (b_left (from_boundary a b c d) + b_width (from_boundary a b c d))%Qc with (b_right (from_boundary a b c d));
      change (b_top (from_boundary a b c d) + b_height (from_boundary a b c d))%Qc with (b_bottom (from_boundary a b c d)) end.
    rewrite boundary_right, boundary_bottom. cbn [from_boundary b_left b_top].
    match goal with K : List.In p _ |- _ => destruct K as [<-|K] end.
    + auto.
    + splits; [apply X2|apply X4|apply Y2|apply Y4]; now apply in_map.
  - eexists. split; [now left|]. unfold in_box. cbn. splits; try apply Qcle_refl; qc_lra.
  - rewrite Forall_forall in IH. destruct (IH c) with (p := p) as [b [I1 I2]]; auto. exists b. split; [|exact I2].
    apply in_flat_map. eauto.
Qed.
(** A box with every covered point in it has every box in it. *)
Lemma boxes_covered c X : upright c -> (forall p, covers c p -> in_box X p) -> forall b, List.In b (boxes c) -> sub b X.
Proof.
  induction c as [b t h s tags|q t s d h x tags|b tags|ps h tags|q h tags|h tags body IH|t|t] using command_induction;
    intros U H b' Hb; inversion U; subst; cbn [boxes] in Hb.
  - destruct Hb as [<-|[]]. destruct (H (mkPoint (b_left b) (b_top b))) as (A1 & A2 & A3 & A4).
    { constructor. unfold in_box. cbn. splits; try apply Qcle_refl; qc_lra. }
    destruct (H (mkPoint (b_right b) (b_bottom b))) as (B1 & B2 & B3 & B4).
    { constructor. unfold in_box, b_right, b_bottom. cbn. splits; try apply Qcle_refl; qc_lra. }
    cbn in *. now splits.
  - destruct Hb as [<-|[]]. destruct (H q) as (A1 & A2 & A3 & A4); [constructor|].
    unfold sub, b_right, b_bottom. cbn. rewrite !Qcplus_0_r. now splits.
  - destruct Hb as [<-|[]]. destruct (H (mkPoint (b_left b) (b_top b))) as (A1 & A2 & A3 & A4).
    { constructor. unfold in_box. cbn. splits; try apply Qcle_refl; qc_lra. }
    destruct (H (mkPoint (b_right b) (b_bottom b))) as (B1 & B2 & B3 & B4).
    { constructor. unfold in_box, b_right, b_bottom. cbn. splits; try apply Qcle_refl; qc_lra. }
    cbn in *. now splits.
  - destruct ps as [|q ps]; [contradiction|]. destruct Hb as [<-|[]]. unfold sub. rewrite boundary_right, boundary_bottom. cbn [from_boundary b_left b_top].
    destruct (qmin_fold (map px ps) (px q)) as [_ X1]. destruct (qmin_fold (map py ps) (py q)) as [_ Y1].
    destruct (qmax_fold (map px ps) (px q)) as [_ X2]. destruct (qmax_fold (map py ps) (py q)) as [_ Y2].
    change (px q :: map px ps) with (map px (q :: ps)) in *. change (py q :: map py ps) with (map py (q :: ps)) in *.
    apply in_map_iff in X1 as [p1 [E1 I1]]. apply in_map_iff in Y1 as [p2 [E2 I2]].
    apply in_map_iff in X2 as [p3 [E3 I3]]. apply in_map_iff in Y2 as [p4 [E4 I4]].
    cbv zeta in *. rewrite <- E1, <- E2, <- E3, <- E4.
    splits; [apply (H p1)|apply (H p2)|apply (H p3)|apply (H p4)]; now constructor.
  - destruct Hb as [<-|[]]. destruct (H q) as (A1 & A2 & A3 & A4); [constructor|].
    unfold sub. rewrite boundary_right, boundary_bottom. cbn. now splits.
  - apply in_flat_map in Hb as [c [I1 I2]]. rewrite Forall_forall in IH.
    match goal with K : Forall upright body |- _ => rewrite Forall_forall in K; specialize (K c I1) end.
    apply (IH c I1); auto. intros p Hp. apply H. econstructor; eauto.
  - contradiction.
  - contradiction.
Qed.

Lemma boxes_point c : upright c -> forall b, List.In b (boxes c) -> exists p, covers c p.
Proof.
  induction c as [b t h s tags|q t s d h x tags|b tags|ps h tags|q h tags|h tags body IH|t|t] using command_induction;
    intros U b' Hb; inversion U; subst; cbn [boxes] in Hb.
  - exists (mkPoint (b_left b) (b_top b)). constructor. unfold in_box. cbn. splits; try apply Qcle_refl; qc_lra.
  - exists q. constructor.
  - exists (mkPoint (b_left b) (b_top b)). constructor. unfold in_box. cbn. splits; try apply Qcle_refl; qc_lra.
  - destruct ps as [|q ps]; [contradiction|]. exists q. constructor. now left.
  - exists q. constructor.
  - apply in_flat_map in Hb as [c [I1 I2]]. rewrite Forall_forall in IH.
    match goal with K : Forall upright body |- _ => rewrite Forall_forall in K; specialize (K c I1) end.
    destruct (IH c I1) with (b := b') as [p Hp]; auto. exists p. econstructor; eauto.
  - contradiction.
  - contradiction.
Qed.

(** The view box: the smallest box around everything, and a margin. *)
Theorem view_box (num : Qc -> text) l r styles hov padding : perform_all num (new_renderer styles hov) l = Ok r ->
  let v := viewbox r padding in
  (forall c p, List.In c l -> covers c p ->
     (b_left v + padding <= px p /\ px p <= b_left v + b_width v - padding /\
      b_top v + padding <= py p /\ py p <= b_top v + b_height v - padding)%Qc) /\
  (Forall upright l -> (exists c p, List.In c l /\ covers c p) ->
   forall X, (forall c p, List.In c l -> covers c p -> in_box X p) ->
     (b_left X <= b_left v + padding /\ b_left v + b_width v - padding <= b_left X + b_width X /\
      b_top X <= b_top v + padding /\ b_top v + b_height v - padding <= b_top X + b_height X)%Qc) /\
  ((forall c p, List.In c l -> ~ covers c p) -> Forall upright l ->
   v = mkBox (- padding)%Qc (- padding)%Qc (of_nat 10 + padding + padding)%Qc (of_nat 10 + padding + padding)%Qc).
Proof.
  intros H v. apply perform_all_bounds in H. cbn [new_renderer r_bounds] in H.
  assert (Ev : v = viewbox r padding) by reflexivity. unfold viewbox in Ev.
  destruct (r_bounds r) as [B|] eqn:EB.
  - assert (Vr : (b_left v + b_width v = b_right B + padding)%Qc) by (rewrite Ev; apply boundary_right).
    assert (Vb : (b_top v + b_height v = b_bottom B + padding)%Qc) by (rewrite Ev; apply boundary_bottom).
    assert (Vl : (b_left v = b_left B - padding)%Qc) by now rewrite Ev.
    assert (Vt : (b_top v = b_top B - padding)%Qc) by now rewrite Ev.
    rewrite Vr, Vb, Vl, Vt. symmetry in H. destruct (grow_spec _ _ _ H) as [G1 G2]. splits.
    + intros c p Hc Hp. destruct (covers_boxes c p Hp) as [b [I1 I2]].
      assert (Sb : sub b B) by (apply G1; right; apply in_flat_map; eauto).
      destruct Sb as (S1 & S2 & S3 & S4), I2 as (A1 & A2 & A3 & A4). unfold b_right, b_bottom in *.
      clear -S1 S2 S3 S4 A1 A2 A3 A4. splits; qc_lra.
    + intros U _ X HX.
      assert (Sb : sub B X).
      { apply G2. intros b [E|Hb]; [discriminate|]. apply in_flat_map in Hb as [c [I1 I2]].
        rewrite Forall_forall in U. apply (boxes_covered c X (U c I1)); eauto. }
      destruct Sb as (S1 & S2 & S3 & S4). unfold b_right, b_bottom in *.
      clear -S1 S2 S3 S4. splits; qc_lra.
    + intros N U. exfalso.
      assert (G : forall bs o B', fold_left grow bs o = Some B' -> o = None -> exists b, List.In b bs).
      { intros [|b bs] o B' E ->; [discriminate|]. exists b. now left. }
      destruct (G _ _ _ H eq_refl) as [b Hb]. apply in_flat_map in Hb as [c [I1 I2]].
      rewrite Forall_forall in U.
      destruct (boxes_point c (U c I1) b I2) as [p Hp]. exact (N c p I1 Hp).
  - symmetry in H. apply grow_none in H. splits.
    + intros c p Hc Hp. exfalso. destruct (covers_boxes c p Hp) as [b [I1 _]].
      assert (K : List.In b (flat_map boxes l)) by (apply in_flat_map; eauto). rewrite H in K. exact K.
    + intros _ (c & p & Hc & Hp). exfalso. destruct (covers_boxes c p Hp) as [b [I1 _]].
      assert (K : List.In b (flat_map boxes l)) by (apply in_flat_map; eauto). rewrite H in K. exact K.
    + intros _ _. rewrite Ev. unfold from_boundary, b_right, b_bottom. cbn [b_left b_top b_width b_height]. f_equal; qc_lra.
Qed.

(** ** The calls of [render_dag]. *)
Section RenderDag.
  Context {St As In : Type} `{HSt : EqDec St} `{HAs : EqDec As}.
  Notation E := (edge St As In).
  Notation D := (dag St As In).

  Lemma state_list_spec (d : D) : NoDup (extract_state_list d) /\
    forall s, List.In s (extract_state_list d) <-> exists e, List.In e (edges d) /\ (s = source e \/ s = dest e).
  Proof using.
    unfold extract_state_list.
    assert (G : forall es acc, NoDup acc ->
      let out := fold_left (fun result (e : E) =>
         let result1 := if mem (source e) result then result else result ++ [source e] in
         if mem (dest e) result1 then result1 else result1 ++ [dest e]) es acc in
      NoDup out /\ forall s, List.In s out <-> List.In s acc \/ exists e, List.In e es /\ (s = source e \/ s = dest e)).
    { assert (A : forall (x : St) acc, NoDup acc -> let out := if mem x acc then acc else acc ++ [x] in
         NoDup out /\ forall s, List.In s out <-> List.In s acc \/ s = x).
      { intros x acc N out. subst out. destruct (mem x acc) eqn:M.
        - apply mem_true_iff in M. split; [exact N|]. intros s. split; [auto|intros [K| ->]; auto].
        - assert (M' : ~ List.In x acc) by (intros K; apply mem_true_iff in K; congruence). split.
          + apply NoDup_app_snoc; auto.
          + intros s. rewrite in_app_iff. cbn. split; [intros [K|[K|[]]]; auto|intros [K|K]; auto]. }
      induction es as [|e es IH]; intros acc N; cbn zeta; cbn [fold_left].
      - split; [exact N|]. intros s. split; [auto|intros [K|[e [[] _]]]; exact K].
      - destruct (A (source e) acc N) as [N1 I1]. destruct (A (dest e) _ N1) as [N2 I2].
        destruct (IH _ N2) as [N3 I3]. split; [exact N3|]. intros s. etransitivity; [apply I3|]. rewrite I2, I1.
        split.
        + intros [[[K|K]|K]|[e' [K1 K2]]]; auto; right; [exists e|exists e|exists e']; cbn; auto.
        + intros [K|[e' [[<-|K1] K2]]]; auto; [destruct K2; auto|right; eauto]. }
    destruct (G (edges d) [] (NoDup_nil _)) as [N I]. split; [exact N|]. intros s. rewrite I. split; [intros [[]|K]; exact K|auto].
  Qed.
  Lemma reachable_use (d : D) s : ordered (edges d) -> List.In s (compute_reachable_states d) <-> state_in_use d s.
  Proof using.
    intros O. rewrite reachable_iff, forward_reachable_iff, backward_reachable_iff by assumption. unfold state_in_use. split.
    - intros [[p1 [P1 F1]] [p2 [P2 F2]]]. exists p1, p2. splits; auto. apply Forall_app. auto.
    - intros (p1 & p2 & P1 & P2 & F). apply Forall_app in F as [F1 F2]. split; eauto.
  Qed.
  Lemma elbow_connects (n : edge_annotation) src dst : exists p0 p1 p2 p3 dot text dir,
    elbow n src dst = ([p0; p1; p2; p3], dot, text, dir) /\ connects n src dst p0 p1 p2 p3 dot text dir.
  Proof using.
    unfold elbow, connects. destruct (e_axis n).
    - match goal with |- context[qc_ltb ?a (qmax ?x ?y)] => destruct (qc_ltb a (qmax x y)) eqn:Q end;
        do 7 eexists; (split; [reflexivity|]); cbn [px py shift interpolate point_within] in *;
        unfold qc_ltb in Q; match type of Q with (if ?c then _ else _) = _ => destruct c as [L|L]; try discriminate end; clear Q.
      + splits; try ring. left. splits; [|ring|reflexivity].
        match type of L with (_ < qmax ?x ?y)%Qc => destruct (qmax_spec x y) as [[E _]|[E _]]; rewrite E in L end;
          [right|left]; (eapply Qclt_le_trans; [exact L|]); match goal with |- (?a <= ?b)%Qc => replace a with b by ring end; apply Qcle_refl.
      + splits; try ring. right.
        match type of L with (qmax ?x ?y <= ?z)%Qc =>
          assert (L1 : (x <= z)%Qc) by (destruct (qmax_spec x y) as [[E K]|[E K]]; rewrite E in L; [eapply Qcle_trans; eauto|exact L]);
          assert (L2 : (y <= z)%Qc) by (destruct (qmax_spec x y) as [[E K]|[E K]]; rewrite E in L; [exact L|eapply Qcle_trans; eauto]) end.
        splits; [|
          |ring|reflexivity].
        * eapply Qcle_trans; [|exact L1]. match goal with |- (?a <= ?b)%Qc => replace a with b by ring end; apply Qcle_refl.
        * eapply Qcle_trans; [|exact L2]. match goal with |- (?a <= ?b)%Qc => replace a with b by ring end; apply Qcle_refl.
    - do 7 eexists. split; [reflexivity|]. cbn [px py shift interpolate point_within]. splits; try ring. reflexivity.
  Qed.
  Lemma alike_infoless (e e' : E) : infoless e = infoless e' <-> alike e e'.
  Proof using.
    unfold infoless, alike. split.
    - intros K. injection K as -> -> -> ->. auto.
    - intros (-> & -> & -> & ->). reflexivity.
  Qed.
  Lemma lights_lit emphasized (e : E) : let '(h, l) := lights emphasized e in
    lit emphasized e ((if h then [chars "highlight"] else []) ++ (if l then [chars "lowlight"] else [])).
  Proof using.
    unfold lights, lit. destruct emphasized as [[|x l]|]; try reflexivity.
    destruct (mem (infoless e) (map infoless (x :: l))) eqn:M; cbn [negb app].
    - left. split; [|reflexivity]. apply mem_true_iff, in_map_iff in M as [e' [K I]]. exists e'. split; [exact I|].
      apply alike_infoless. congruence.
    - right. split; [|reflexivity]. intros e' I K. apply alike_infoless in K.
      assert (T : mem (infoless e) (map infoless (x :: l)) = true) by (apply mem_true_iff; rewrite K; now apply in_map). congruence.
  Qed.
  Lemma Ok_injective {A} (x y : A) : Ok x = Ok y -> x = y.
  Proof using. congruence. Qed.
  Lemma draw_state_call (d : D) a s c : ordered (edges d) -> draw_state a (compute_reachable_states d) s = Ok c -> state_call d a s c.
  Proof using.
    intros O K. unfold draw_state in K. apply bind_ok_inv in K as [n [K1 K2]]. apply Ok_injective in K2. subst c.
    exists n. destruct (mem s (compute_reachable_states d)) eqn:M; eexists; (splits; [exact K1|reflexivity|]).
    - left. split; [|reflexivity]. now apply reachable_use, mem_true_iff.
    - right. split; [|reflexivity]. intros U. apply reachable_use, mem_true_iff in U; [congruence|assumption].
  Qed.
  Lemma draw_edge_call (d : D) a emphasized e c : ordered (edges d) ->
    draw_edge a (compute_reachable_states d) emphasized e = Ok c -> edge_call d a emphasized e c.
  Proof using.
    intros O K. unfold draw_edge in K. apply bind_ok_inv in K as [n [K1 K]]. apply bind_ok_inv in K as [ns [K2 K]].
    apply bind_ok_inv in K as [nd [K3 K]]. pose proof (lights_lit emphasized e) as L. destruct (lights emphasized e) as [h l].
    destruct (elbow_connects n (s_bounds ns) (s_bounds nd)) as (p0 & p1 & p2 & p3 & dt & tx & dir & Ee & C). rewrite Ee in K.
    cbv beta iota zeta in K. apply Ok_injective in K. subst c. exists n, ns, nd, p0, p1, p2, p3, dt, tx, dir.
    exists ((if h then [chars "highlight"] else []) ++ (if l then [chars "lowlight"] else [])).
    destruct (mem (source e) (compute_reachable_states d) && mem (dest e) (compute_reachable_states d)) eqn:M;
      eexists; (splits; [exact K1|exact K2|exact K3| |exact C|exact L|]).
    - rewrite <- !app_assoc. reflexivity.
    - left. apply andb_true_iff in M as [M1 M2]. splits; [| |reflexivity]; now apply reachable_use, mem_true_iff.
    - rewrite <- !app_assoc. reflexivity.
    - right. split; [|reflexivity]. intros [U1 U2]. apply reachable_use, mem_true_iff in U1, U2; try assumption. rewrite U1, U2 in M. discriminate.
  Qed.
  Lemma Forall2_weaken {A B} (P Q : A -> B -> Prop) l l' : (forall x y, P x y -> Q x y) -> Forall2 P l l' -> Forall2 Q l l'.
  Proof using. intros I F. induction F; constructor; auto. Qed.
  Lemma mapM_Forall2 {A B} (f : A -> result B) l l' : mapM f l = Ok l' -> Forall2 (fun x y => f x = Ok y) l l'.
  Proof using.
    revert l'. induction l as [|x l IH]; intros l' K; cbn in K.
    - injection K as <-. constructor.
    - apply bind_ok_inv in K as [y [K1 K]]. apply bind_ok_inv in K as [ys [K2 K]]. injection K as <-. constructor; auto.
  Qed.
  Theorem render_calls (d : D) a svg emphasized calls : ordered (edges d) -> render_dag d a svg emphasized = Ok calls ->
    exists states extras setup_calls extra_calls state_calls edge_calls,
      calls = setup_calls ++ extra_calls ++ state_calls ++ edge_calls /\
      setup_calls = a_setup a svg ++ (if svg then [Css default_svg_style_css; Custom hover_filter] else []) /\
      extra_annotations a = Ok extras /\ Forall2 extra_call extras extra_calls /\
      NoDup states /\ (forall s, List.In s states <-> exists e, List.In e (edges d) /\ (s = source e \/ s = dest e)) /\
      Forall2 (state_call d a) states state_calls /\
      Forall2 (edge_call d a emphasized) (edges d) edge_calls.
  Proof using.
    intros O K. unfold render_dag in K. apply bind_ok_inv in K as [xs [K1 K]]. apply bind_ok_inv in K as [ss [K2 K]].
    apply bind_ok_inv in K as [es [K3 K]]. injection K as <-. destruct (state_list_spec d) as [N I].
    do 6 eexists. splits; [reflexivity|reflexivity|exact K1| |exact N|exact I| |].
    - clear. induction xs as [|[]]; cbn [map]; constructor; auto; reflexivity.
    - apply mapM_Forall2 in K2. eapply Forall2_weaken; [|exact K2]. intros s c. now apply draw_state_call.
    - apply mapM_Forall2 in K3. eapply Forall2_weaken; [|exact K3]. intros e c. now apply draw_edge_call.
  Qed.
End RenderDag.
