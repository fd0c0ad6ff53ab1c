(** C72: the simple annotator. *)

From Coq Require Import String.
From Coq Require Import List Bool Arith Lia ZArith QArith Qcanon Qround Lqa.
From Verif Require Import Base SeqNodes Graph GatedDag Html Drawing DrawSpec DrawingProofs DrawBounds SimpleAnnotator Properties_Drawing.
Import ListNotations.
Close Scope string_scope. Close Scope Qc_scope. Close Scope Q_scope. Close Scope Z_scope. Open Scope nat_scope. Open Scope list_scope.

(** ** The spread of jitter: numbers from 0 up to 1, without a repetition among any 161803 consecutive
    indices. *)
Theorem C72_bounded_irrational :
  forall index : Z, (0 <= to_bounded_irrational index /\ to_bounded_irrational index < 1)%Qc.
Proof.
  intros i. unfold to_bounded_irrational. set (q := (inject_Z i / (161803 # 100000) + (1 # 2))%Q).
  pose proof (Qfloor_le q) as L. pose proof (Qlt_floor q) as U. rewrite inject_Z_plus in U. change (inject_Z 1) with 1%Q in U.
  unfold Qcle, Qclt. rewrite !Q2Qc_this. split; lra.
Qed.
Print Assumptions C72_bounded_irrational.
Theorem C72_no_repetition :
  forall i j : Z, (Z.abs (i - j) < 161803)%Z -> to_bounded_irrational i = to_bounded_irrational j -> i = j.
Proof.
  intros i j B H. unfold to_bounded_irrational in H. apply Qc_eq_iff in H. rewrite !Q2Qc_this in H.
  set (a := Qfloor (inject_Z i / (161803 # 100000) + (1 # 2))%Q) in *. set (b := Qfloor (inject_Z j / (161803 # 100000) + (1 # 2))%Q) in *.
  assert (K : (100000 * (i - j) = 161803 * (a - b))%Z).
  { assert (Q : (inject_Z (100000 * (i - j)) == inject_Z (161803 * (a - b)))%Q).
    { rewrite !inject_Z_mult. unfold Z.sub. rewrite !inject_Z_plus, !inject_Z_opp.
      change (inject_Z 100000) with 100000%Q. change (inject_Z 161803) with 161803%Q.
      unfold Qdiv in H. change (/ (161803 # 100000))%Q with (100000 # 161803)%Q in H. lra. }
    exact (proj1 (inject_Z_injective _ _) Q). }
  destruct (Z.eq_dec i j) as [|N]; [assumption|]. exfalso.
  assert (D : (161803 | i - j)%Z).
  { apply (Znumtheory.Gauss 161803 100000); [exists (a - b)%Z; lia|]. apply Znumtheory.Zgcd_1_rel_prime. reflexivity. }
  destruct D as [k Hk]. lia.
Qed.
Print Assumptions C72_no_repetition.
(** Finding: in exact arithmetic the numbers come back after that many steps; the documentation promises
    that different indices get different numbers. *)
Theorem C72_irrational_refuted : ~ (forall i j : Z, to_bounded_irrational i = to_bounded_irrational j -> i = j).
Proof. intros H. specialize (H 0%Z 161803%Z ltac:(vm_compute; reflexivity)). discriminate. Qed.
Print Assumptions C72_irrational_refuted.

Section Simple.
  Context {St As In : Type}.
  Variable sigmoid : Qc -> Qc.
  Variable bounds_for_state : St -> result box.
  Variable str_state repr_state : St -> text.
  Variable repr_edge : edge St As In -> text.
  Variable str_cost : cost -> text.
  Variable str_key str_value : As -> text.
  Variable hash100 : As -> nat.
  Variable color_of : In -> option text.
  Hypothesis sigmoid_unit : forall x, (0 <= sigmoid x /\ sigmoid x <= 1)%Qc.
  Notation annotate := (simple_annotate_edge sigmoid bounds_for_state repr_edge str_cost str_key str_value hash100 color_of).

  Lemma simple_edge_spec e n : annotate e = Ok n ->
    exists src dst, bounds_for_state (source e) = Ok src /\ bounds_for_state (dest e) = Ok dst /\
      (e_axis n = Horizontal <-> (b_left src + b_width src <= b_left dst)%Qc) /\
      (tenth 1 <= start_alignment n /\ start_alignment n <= tenth 9)%Qc /\
      (tenth 1 <= end_alignment n /\ end_alignment n <= tenth 9)%Qc /\
      (0 <= elbow_distance n /\ elbow_distance n <= 1)%Qc /\
      (0 <= text_alignment n /\ text_alignment n <= 1)%Qc /\
      elbow_distance_adjust n = 0%Qc /\ text_alignment_adjust n = 0%Qc /\
      match color_of (info e) with
      | Some c => List.In c known_colors /\ e_tags n = [chars "color_" ++ c]
      | None => e_tags n = []
      end.
  Proof using sigmoid_unit.
    intros H. unfold simple_annotate_edge in H. apply bind_ok_inv in H as [src [H1 H]]. apply bind_ok_inv in H as [dst [H2 H]].
    exists src, dst. split; [exact H1|]. split; [exact H2|].
    match type of H with context[if qc_ltb ?g 0%Qc then ?x else ?y] => set (gap := g) in *; set (choice := if qc_ltb gap 0%Qc then x else y) in * end.
    destruct choice as [[axis off] scale] eqn:Ec.
    assert (Ax : axis = Horizontal <-> (b_left src + b_width src <= b_left dst)%Qc).
    { unfold choice, qc_ltb in Ec. destruct (Qclt_le_dec gap 0) as [L|L]; injection Ec as <- _ _; unfold gap, b_right in L; split; intros K.
      - discriminate.
      - exfalso. clear -L K. qc_lra.
      - clear -L. qc_lra.
      - reflexivity. }
    clear Ec choice. cbv zeta in H.
    set (jit := match assignment e with Some x => (of_nat 2 * to_bounded_irrational (Z.of_nat (hash100 x)) - 1)%Qc | None => 0%Qc end) in *.
    assert (J : (Q2Qc (-1 # 1) <= jit /\ jit <= 1)%Qc).
    { unfold jit. destruct (assignment e) as [x|].
      - destruct (C72_bounded_irrational (Z.of_nat (hash100 x))) as [U1 U2]. generalize dependent (to_bounded_irrational (Z.of_nat (hash100 x))).
        intros u U1 U2. unfold of_nat. change (inject_Z (Z.of_nat 2)) with 2%Q. split; qc_lra.
      - split; qc_lra. }
    clearbody jit.
    destruct (sigmoid_unit (off / (half * scale))%Qc) as [A1 A2]. generalize dependent (sigmoid (off / (half * scale))%Qc). intros s1 H A1 A2.
    destruct (sigmoid_unit (off / (Q2Qc (3 # 2) * scale))%Qc) as [B1 B2]. generalize dependent (sigmoid (off / (Q2Qc (3 # 2) * scale))%Qc). intros s2 H B1 B2.
    match type of H with context[if qc_ltb ?x (Q2Qc (1 # 100)) then ?a else ?b] => set (choice := if qc_ltb x (Q2Qc (1 # 100)) then a else b) in * end.
    destruct choice as [elb txt] eqn:Ec.
    assert (W : (0 <= elb /\ elb <= 1 /\ 0 <= txt /\ txt <= 1)%Qc).
    { unfold choice in Ec. change (of_nat 2) with (Q2Qc 2) in Ec. destruct J as [J1 J2]. clear -Ec B1 B2 J1 J2.
      match type of Ec with context[qmax ?m _] => set (mid := m) in * end.
      assert (M : (Q2Qc (-1 # 1) <= mid /\ mid <= 1)%Qc) by (unfold mid; split; qc_lra). destruct M as [M1 M2]. clearbody mid.
      destruct (qc_ltb (qmax mid (- mid)%Qc) (Q2Qc (1 # 100))); [injection Ec as <- <-; unfold half; splits; qc_lra|].
      unfold qc_ltb in Ec. destruct (Qclt_le_dec 0 mid) as [L|L]; injection Ec as <- <-; unfold tenth; splits; qc_lra. }
    clear Ec choice. apply bind_ok_inv in H as [tags [H3 H]]. apply Ok_injective in H. subst n.
    cbn [e_axis start_alignment end_alignment elbow_distance text_alignment elbow_distance_adjust text_alignment_adjust e_tags].
    destruct J as [J1 J2], W as (W1 & W2 & W3 & W4). change (of_nat 2) with (Q2Qc 2).
    splits; auto; try (unfold half, tenth; qc_lra); try apply Ax.
    destruct (color_of (info e)) as [c|].
    - destruct (mem c known_colors) eqn:M; [|discriminate]. apply mem_true_iff in M. split; [exact M|]. apply Ok_injective in H3. now symmetry.
    - apply Ok_injective in H3. now symmetry.
  Qed.
  Lemma simple_edge_ok e :
    (exists n, annotate e = Ok n) <->
    (exists b, bounds_for_state (source e) = Ok b) /\ (exists b, bounds_for_state (dest e) = Ok b) /\
    (forall c, color_of (info e) = Some c -> List.In c known_colors).
  Proof using.
    unfold simple_annotate_edge. split.
    - intros [n H]. apply bind_ok_inv in H as [src [H1 H]]. apply bind_ok_inv in H as [dst [H2 H]]. splits; eauto.
      intros c Hc. rewrite Hc in H. destruct (mem c known_colors) eqn:M; [now apply mem_true_iff|].
      destruct (qc_ltb (b_left dst - b_right src) 0); cbv zeta in H;
        match type of H with context[if qc_ltb ?x (Q2Qc (1 # 100)) then ?a else ?b] => destruct (if qc_ltb x (Q2Qc (1 # 100)) then a else b) end; discriminate.
    - intros ([src H1] & [dst H2] & H3). rewrite H1, H2. cbn [bind].
      destruct (qc_ltb (b_left dst - b_right src) 0); cbv zeta;
        match goal with |- context[if qc_ltb ?x (Q2Qc (1 # 100)) then ?a else ?b] => destruct (if qc_ltb x (Q2Qc (1 # 100)) then a else b) end;
        (destruct (color_of (info e)) as [c|]; [rewrite (proj2 (mem_true_iff c known_colors) (H3 c eq_refl))|]; cbn [bind]; eauto).
  Qed.
End Simple.

(** ** C72.  With the simple annotator an edge is drawn horizontally exactly when its destination is to the right
    of its source; it leaves and enters the boxes on the middle four fifths of their sides, and its elbow
    and its text are on the way.  Its colour is one of the known ones; an unknown one is refused.  So, whatever
    the boxes of the states, the line starts and ends on the boxes, its dot lies on it, and it does not
    run back. *)
Theorem C72_simple_edges :
  forall (St As In : Type) (sigmoid : Qc -> Qc) (bounds_for_state : St -> result box) (repr_edge : edge St As In -> text)
         (str_cost : cost -> text) (str_key str_value : As -> text) (hash100 : As -> nat) (color_of : In -> option text)
         (e : edge St As In),
    (forall x, (0 <= sigmoid x /\ sigmoid x <= 1)%Qc) ->
    let annotate := simple_annotate_edge sigmoid bounds_for_state repr_edge str_cost str_key str_value hash100 color_of in
    ((exists n, annotate e = Ok n) <->
     (exists b, bounds_for_state (source e) = Ok b) /\ (exists b, bounds_for_state (dest e) = Ok b) /\
     (forall c, color_of (info e) = Some c -> List.In c known_colors)) /\
    (forall n, annotate e = Ok n ->
       exists src dst, bounds_for_state (source e) = Ok src /\ bounds_for_state (dest e) = Ok dst /\
         (e_axis n = Horizontal <-> (b_left src + b_width src <= b_left dst)%Qc) /\
         (tenth 1 <= start_alignment n /\ start_alignment n <= tenth 9)%Qc /\
         (tenth 1 <= end_alignment n /\ end_alignment n <= tenth 9)%Qc /\
         e_tags n = match color_of (info e) with Some c => [chars "color_" ++ c] | None => [] end /\
         forall p0 p1 p2 p3 dot text dir, connects n src dst p0 p1 p2 p3 dot text dir ->
           ((0 <= b_width src)%Qc -> (0 <= b_height src)%Qc -> in_box src p0) /\
           ((0 <= b_width dst)%Qc -> (0 <= b_height dst)%Qc -> in_box dst p3) /\
           between (px p1) (px dot) (px p2) /\ between (py p1) (py dot) (py p2) /\
           between (px p0) (px p1) (px p3) /\ between (py p0) (py p1) (py p3) /\
           between (px p0) (px p2) (px p3) /\ between (py p0) (py p2) (py p3)).
Proof.
  intros St As In sigmoid bounds repr sc sk sv hash color e HS annotate. split; [apply simple_edge_ok|]. intros n Hn.
  destruct (simple_edge_spec sigmoid bounds repr sc sk sv hash color HS e n Hn) as (src & dst & B1 & B2 & Ax & S & En & El & T & A1 & A2 & C).
  exists src, dst. splits; auto; try apply Ax; try apply S; try apply En.
  { destruct (color (info e)); [apply C|exact C]. }
  intros p0 p1 p2 p3 dt tx dir K. destruct (C70_line_within _ _ _ _ _ _ _ _ _ _ K) as (K1 & K2 & K3 & K4).
  assert (U : forall q, (tenth 1 <= q /\ q <= tenth 9 -> 0 <= q /\ q <= 1)%Qc) by (unfold tenth; intros q [Q1 Q2]; split; qc_lra).
  specialize (K1 (U _ S)). specialize (K2 (U _ En)). destruct (K3 T) as [K5 K6]. destruct (K4 El A1) as (K7 & K8 & K9 & K10).
  splits; auto.
Qed.
Print Assumptions C72_simple_edges.

(** An SVG of a DAG drawn with it has nothing but plain tags. *)
Theorem C72_simple_svg :
  forall (St As In : Type) (dSt : EqDec St) (dAs : EqDec As) (num : Qc -> text) (sigmoid : Qc -> Qc) (bounds_for_state : St -> result box)
         (str_state repr_state : St -> text) (repr_edge : edge St As In -> text)
         (str_cost : cost -> text) (str_key str_value : As -> text) (hash100 : As -> nat) (color_of : In -> option text)
         (d : dag St As In) emphasized with_default_styles with_hover_text (padding : Qc),
    (forall x, (0 <= sigmoid x /\ sigmoid x <= 1)%Qc) -> (forall q, number_text (num q)) -> ordered (edges d) ->
    (forall e, List.In e (edges d) ->
       (exists b, bounds_for_state (source e) = Ok b) /\ (exists b, bounds_for_state (dest e) = Ok b) /\
       (forall c, color_of (info e) = Some c -> List.In c known_colors)) ->
    exists calls r ms,
      render_dag d (simple_annotator sigmoid bounds_for_state str_state repr_state repr_edge str_cost str_key str_value hash100 color_of)
        true emphasized = Ok calls /\
      perform_all num (new_renderer with_default_styles with_hover_text) calls = Ok r /\
      shows_all num with_hover_text [el "g" []; svg_element num (viewbox r padding)] calls ms /\
      drawing (to_html num r padding) = Some (map (inside [svg_element num (viewbox r padding)]) arrow_marks ++ ms).
Proof.
  intros St As In dSt dAs num sigmoid bounds ss rs repr sc sk sv hash color d emphasized styles hov padding HS HN O H.
  set (a := simple_annotator sigmoid bounds ss rs repr sc sk sv hash color).
  destruct (proj2 (C70_render_dag_succeeds St As In dSt dAs d a true emphasized)) as [calls E].
  { split; [now exists []|]. intros e He. destruct (H e He) as (H1 & H2 & H3). splits.
    - apply simple_edge_ok. auto.
    - destruct H1 as [b H1]. cbn. unfold simple_annotate_state. rewrite H1. cbn. eauto.
    - destruct H2 as [b H2]. cbn. unfold simple_annotate_state. rewrite H2. cbn. eauto. }
  assert (PC : forall c, List.In c known_colors -> plain c).
  { intros c Hc. cbn [known_colors map] in Hc. repeat (destruct Hc as [<-|Hc]; [apply plainb_plain; vm_compute; reflexivity|]). contradiction. }
  destruct (C71_dag_to_svg St As In dSt dAs num d a emphasized calls styles hov padding HN) as (r & ms & R1 & R2 & R3); auto.
  - intros s n K. cbn in K. unfold simple_annotate_state in K. apply bind_ok_inv in K as [b [_ K]]. apply Ok_injective in K. subst n. constructor.
  - intros e n K. destruct (simple_edge_spec sigmoid bounds repr sc sk sv hash color HS e n K) as (src & dst & _ & _ & _ & _ & _ & _ & _ & _ & _ & C).
    destruct (color (info e)) as [c|].
    + destruct C as [C1 C2]. rewrite C2. constructor; [|constructor]. apply plain_app; [apply plainb_plain; vm_compute; reflexivity|auto].
    + rewrite C. constructor.
  - intros xs K. cbn in K. apply Ok_injective in K. subst xs. constructor.
  - cbn [a simple_annotator a_setup simple_setup]. constructor; [|constructor]. constructor.
    assert (M : mild (join newline (map color_css known_colors))) by (apply mildb_mild; vm_compute; reflexivity).
    unfold mild, plain_css in *. eapply Forall_impl; [|exact M]. cbn. tauto.
  - exists calls, r, ms. auto.
Qed.
Print Assumptions C72_simple_svg.

(** Hypotheses met: the boxes of a chain of states, and an edge with a known colour. *)
Example C72_example :
  let annotate := simple_annotate_edge (St := nat) (As := nat) (In := option text) (fun _ => half) (fun s => Ok (mkBox (of_nat (2 * s)) 0 1 1)%Qc)
                    (fun _ => []) (fun _ => []) (fun _ => []) (fun _ => []) (fun x => x mod 100) (fun c => c) in
  (0 <= half /\ half <= 1)%Qc /\
  (exists n, annotate (mkEdge 0 1 Inf (Some 7) (Some (chars "red"))) = Ok n /\ e_axis n = Horizontal) /\
  annotate (mkEdge 0 1 Inf None (Some (chars "mauve"))) = Err ValueError.
Proof.
  cbv zeta. splits.
  - discriminate.
  - discriminate.
  - destruct (simple_annotate_edge (St := nat) (As := nat) (In := option text) (fun _ => half) (fun s => Ok (mkBox (of_nat (2 * s)) 0 1 1)%Qc)
      (fun _ => []) (fun _ => []) (fun _ => []) (fun _ => []) (fun x => x mod 100) (fun c => c) (mkEdge 0 1 Inf (Some 7) (Some (chars "red")))) as [n|] eqn:E.
    + exists n. split; [reflexivity|]. apply Ok_injective in E. subst n. reflexivity.
    + discriminate.
  - reflexivity.
Qed.
