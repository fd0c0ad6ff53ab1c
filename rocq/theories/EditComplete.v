(** Every edit script is a path of the edit DAG. *)

From Coq Require Import List Bool Arith ZArith Lia QArith Qcanon.
From Verif Require Import Base Graph GatedDag SeqNodes PackedSeq Numbered Decisions ConstraintProofs EditDag EditScript EditView.
Import ListNotations.
Close Scope Qc_scope. Close Scope Q_scope. Close Scope Z_scope. Open Scope nat_scope.

Section Complete.
  Context {M : Type} {md : EqDec M} (P : parameters).
  Notation L := (lnode M).
  Variable (E : list eedge).

  Definition goes (s : estate) (tr : list effect) (t : estate) : Prop :=
    exists p, is_path E s p t /\ effects p = tr.
  Lemma goes_nil s : goes s [] s.
  Proof. exists []. split; auto. constructor. Qed.
  Lemma goes_cons (e : eedge) s tr t ef : In e E -> source e = s -> effect_of e = ef -> goes (dest e) tr t -> goes s (ef :: tr) t.
  Proof. intros He <- <- [p [Hp <-]]. exists (e :: p). split; auto. now constructor. Qed.
  Lemma goes_app s tr t tr' u : goes s tr t -> goes t tr' u -> goes s (tr ++ tr') u.
  Proof.
    intros [p [Hp <-]] [p' [Hp' <-]]. exists (p ++ p'). split; [|unfold effects; now rewrite map_app].
    eapply is_path_app; eauto.
  Qed.

  Lemma quiet_in a q i h j c (x : L) e c' : quiet P c x e c' ->
    In (mkEdge (EAt a c q i h j) (EAt a c' q (S i) h j) (fst (fst e)) (snd (fst e)) (snd e)) (advance P a q i h j x).
  Proof. intros Hq. destruct Hq; cbn; try destruct c; cbn; auto 6. Qed.
  Lemma exit_in a q i h j c (p : node_id) :
    In (mkEdge (EAt a c q i h j) EFinal (Fin 0) (Some ((pre p, ShouldEarlyExit), DTrue)) (Some (mkInfo (Some (pre p)) None ActEarlyExit (Some c))))
      (advance P a q i h j (LExit p : L)).
  Proof. destruct c; cbn; auto 6. Qed.
  Lemma both_in (f : conf -> list eedge) c e : In e (f c) -> In e (both f).
  Proof. intros H. unfold both. apply in_or_app. destruct c; auto. Qed.
  Lemma go_quiet a q i h j c (x : L) e c' tr t : quiet P c x e c' -> incl (advance P a q i h j x) E ->
    goes (EAt a c' q (S i) h j) tr t -> goes (EAt a c q i h j) (e :: tr) t.
  Proof. intros Hq Hi Hg. eapply goes_cons; [apply Hi; eapply quiet_in; eauto|reflexivity|now destruct e as [[? ?] ?]|exact Hg]. Qed.
  Lemma go_exit a q i h j c (p : node_id) : incl (advance P a q i h j (LExit p : L)) E ->
    goes (EAt a c q i h j) [leaving p c] EFinal.
  Proof. intros Hi. eapply goes_cons; [apply Hi; eapply exit_in|reflexivity|reflexivity|apply goes_nil]. Qed.
  (** The rest of the nodes [advance] handles are the ones [remove] hands to it. *)
  Lemma quiet_remove c (x : L) e c' a q i h j : quiet P c x e c' -> remove P a q i h j x = advance P a q i h j x.
  Proof. intros Hq. now destruct Hq. Qed.
  Definition dgoal (r : option conf) (q : Z) (k : nat) (h : Z) (j : nat) : estate :=
    match r with Some c => EAt RDELETE c q k h j | None => EFinal end.
  Ltac incl_app H := apply incl_app_inv in H; let A := fresh "A" in destruct H as [A H].
  Lemma dels_goes c (l : list L) tr r : dels P c l tr r -> forall q k h j, incl (remove_list P q k h j l) E ->
    goes (EAt RDELETE c q k h j) tr (dgoal r q (k + length l) h j).
  Proof.
    assert (Nx : forall k (x : L) l, k + length (x :: l) = S k + length l) by (intros; cbn; lia).
    induction 1 as [c|c x e c' l tr r Hq Hd IH|c p l|c p t m l tr r Hd IH|c p cs m l tr c' tr' r Hd IH Hd' IH'|c p cs m l tr Hd IH];
      intros q k h j Hi; rewrite ?Nx; cbn [remove_list] in Hi; try (apply incl_app_inv in Hi as [Hx Hi]).
    - cbn [length]. rewrite Nat.add_0_r. apply goes_nil.
    - rewrite (quiet_remove _ _ _ _ _ _ _ _ _ Hq) in Hx. eapply go_quiet; eauto.
    - apply go_exit. exact Hx.
    - eapply goes_cons; [apply Hx; cbn [remove]; apply (both_in _ c); now left|reflexivity|reflexivity|]. now apply IH.
    - rewrite remove_group in Hx. apply incl_app_inv in Hx as [H1 Hx]. apply incl_app_inv in Hx as [H2 H3].
      eapply goes_cons; [apply H1; apply (both_in _ c); now left|reflexivity|reflexivity|]. cbn [dest].
      eapply goes_app; [apply IH; exact H2|]. cbn [dgoal Nat.add].
      eapply goes_cons; [apply H3; apply (both_in _ c'); now left|reflexivity|reflexivity|]. now apply IH'.
    - rewrite remove_group in Hx. apply incl_app_inv in Hx as [H1 Hx]. apply incl_app_inv in Hx as [H2 H3].
      eapply goes_cons; [apply H1; apply (both_in _ c); now left|reflexivity|reflexivity|]. cbn [dest].
      apply (IH (Z.of_nat (pre p)) 0 h j H2).
  Qed.
  Lemma inserts_goes c (l : list L) tr : inserts P c l tr -> forall q i h k, incl (add_list P q i h k l) E ->
    goes (EAt RINSERT c q i h k) tr (EAt RINSERT c q i h (k + length l)).
  Proof.
    assert (Nx : forall k (x : L) l, k + length (x :: l) = S k + length l) by (intros; cbn; lia).
    induction 1 as [c|c p t l tr Hd IH|c p t m l tr Hd IH|c p ds m l tr tr' Hd IH Hd' IH'];
      intros q i h k Hi; rewrite ?Nx; cbn [add_list] in Hi; try (apply incl_app_inv in Hi as [Hx Hi]).
    - cbn [length]. rewrite Nat.add_0_r. apply goes_nil.
    - eapply goes_cons; [apply Hx; cbn [add skip]; apply (both_in _ c); now left|reflexivity|reflexivity|]. now apply IH.
    - eapply goes_cons; [apply Hx; cbn [add]; apply (both_in _ c); now left|reflexivity|reflexivity|]. now apply IH.
    - rewrite add_group in Hx. apply incl_app_inv in Hx as [H1 Hx]. apply incl_app_inv in Hx as [H2 H3].
      eapply goes_cons; [apply H1; apply (both_in _ c); now left|reflexivity|reflexivity|]. cbn [dest].
      eapply goes_app; [apply IH; exact H2|]. cbn [Nat.add].
      eapply goes_cons; [apply H3; apply (both_in _ c); now left|reflexivity|reflexivity|]. now apply IH'.
  Qed.

  (** ** The loops. *)
  Definition covered (q h : Z) (i : nat) (ps : list L) (j : nat) (ts : list L) : Prop :=
    forall a b, a <= length ps -> b <= length ts ->
      incl (here P q (i + a) h (j + b) (nth_error ps a) (nth_error ts b)) E /\
      match nth_error ps a, nth_error ts b with
      | Some x, Some y => incl (pair P q (i + a) h (j + b) x y) E
      | _, _ => True
      end.
  Lemma row_incl base sub (ts : list L) : forall j, incl (row base sub j ts) E -> forall b, b <= length ts ->
    incl (base (j + b) (nth_error ts b)) E /\ match nth_error ts b with Some y => incl (sub (j + b) y) E | None => True end.
  Proof.
    induction ts as [|y ts IH]; intros j Hi b Hb; cbn [row] in Hi.
    - assert (b = 0) by (cbn in Hb; lia). subst. cbn. rewrite Nat.add_0_r. auto.
    - apply incl_app_inv in Hi as [H1 Hi]. apply incl_app_inv in Hi as [H2 H3]. destruct b as [|b]; cbn [nth_error].
      + rewrite Nat.add_0_r. auto.
      + replace (j + S b) with (S j + b) by lia. apply IH; auto. cbn in Hb. lia.
  Qed.
  Lemma rows_covered (ps : list L) : forall q h i ts, incl (rows P q h i ps ts) E -> covered q h i ps 0 ts.
  Proof.
    induction ps as [|x ps IH]; intros q h i ts Hi a b Ha Hb; cbn [rows] in Hi.
    - assert (a = 0) by (cbn in Ha; lia). subst. cbn [nth_error]. rewrite Nat.add_0_r.
      destruct (row_incl _ _ _ _ Hi b Hb) as [H1 _]. auto.
    - apply incl_app_inv in Hi as [H1 H2]. destruct a as [|a]; cbn [nth_error].
      + rewrite Nat.add_0_r. rewrite node_row_eq in H1. exact (row_incl _ _ _ _ H1 b Hb).
      + replace (i + S a) with (S i + a) by lia. apply IH; auto. cbn in Ha. lia.
  Qed.
  Lemma covered_p q h i x ps j ts : covered q h i (x :: ps) j ts -> covered q h (S i) ps j ts.
  Proof. intros C a b Ha Hb. replace (S i + a) with (i + S a) by lia. apply (C (S a) b); cbn; lia. Qed.
  Lemma covered_t q h i ps j y ts : covered q h i ps j (y :: ts) -> covered q h i ps (S j) ts.
  Proof. intros C a b Ha Hb. replace (S j + b) with (j + S b) by lia. apply (C a (S b)); cbn; lia. Qed.
  Lemma covered_here q h i ps j ts : covered q h i ps j ts -> incl (here P q i h j (nth_error ps 0) (nth_error ts 0)) E.
  Proof. intros C. destruct (C 0 0) as [H _]; [lia|lia|]. now rewrite !Nat.add_0_r in H. Qed.
  Lemma covered_pair q h i x ps j y ts : covered q h i (x :: ps) j (y :: ts) -> incl (pair P q i h j x y) E.
  Proof. intros C. destruct (C 0 0) as [_ H]; [lia|lia|]. cbn in H. now rewrite !Nat.add_0_r in H. Qed.
  Lemma here_incl q i h j (x y : option L) : incl (here P q i h j x y) E ->
    incl (on (advance P PROCESS q i h j) x) E /\
    (forall c, In (mkEdge (EAt PROCESS c q i h j) (EAt DELETE c q i h j) (Fin (start_cost P c)) None (Some (mkInfo None None StartEditing (Some c)))) E) /\
    (forall c, In (mkEdge (EAt PROCESS c q i h j) (EAt MATCH c q i h j) (Fin 0) None None) E) /\
    incl (on (remove P DELETE q i h j) x) E /\
    (forall c, In (mkEdge (EAt DELETE c q i h j) (EAt INSERT c q i h j) (Fin 0) None None) E) /\
    incl (on (add P INSERT q i h j) y) E /\
    (forall c, In (mkEdge (EAt INSERT c q i h j) (EAt MATCH c q i h j) (Fin 0) None None) E) /\
    incl (on (skip MATCH q i h j) y) E /\
    match x, y with Some x, Some y => incl (keep P q i h j x y) E | _, _ => True end.
  Proof.
    intros Hi. unfold here in Hi. apply incl_app_inv in Hi as [H1 Hi]. apply incl_app_inv in Hi as [H2 Hi].
    apply incl_app_inv in Hi as [H3 Hi]. apply incl_app_inv in Hi as [H4 Hi]. apply incl_app_inv in Hi as [H5 Hi].
    apply incl_app_inv in Hi as [H6 Hi]. apply incl_app_inv in Hi as [H7 H8]. splits; auto.
    - intros c. apply H2. apply (both_in _ c). now left.
    - intros c. apply H2. apply (both_in _ c). right. now left.
    - intros c. apply H4. apply (both_in _ c). now left.
    - intros c. apply H6. apply (both_in _ c). now left.
    - destruct x; auto. destruct y; auto.
  Qed.
  Definition sgoal (r : option conf) (q : Z) (i : nat) (h : Z) (j : nat) : estate :=
    match r with Some c => EAt MATCH c q i h j | None => EFinal end.
  Lemma sc_goes a c (ps ts : list L) tr r : sc P a c ps ts tr r -> forall q h i j, covered q h i ps j ts ->
    goes (EAt a c q i h j) tr (sgoal r q (i + length ps) h (j + length ts)).
  Proof.
    assert (Nx : forall k (x : L) l, k + length (x :: l) = S k + length l) by (intros; cbn; lia).
    induction 1; intros q h i j C; rewrite ?Nx;
      destruct (here_incl _ _ _ _ _ _ (covered_here _ _ _ _ _ _ C)) as (X1&X2&X3&X4&X5&X6&X7&X8&X9); cbn [nth_error on] in *.
    - cbn [length]. rewrite !Nat.add_0_r. apply goes_nil.
    - match goal with H : quiet _ _ _ _ _ |- _ => rename H into Hq end.
      assert (HI : incl (advance P a q i h j x) E).
      { match goal with H : a = PROCESS \/ a = DELETE |- _ => destruct H as [->| ->] end; auto.
        now rewrite <- (quiet_remove _ _ _ _ DELETE q i h j Hq). }
      eapply go_quiet; eauto. apply IHsc. eapply covered_p; eauto.
    - apply go_exit. match goal with H : a = PROCESS \/ a = DELETE |- _ => destruct H as [->| ->] end; auto.
    - eapply goes_cons; [apply (X2 c)|reflexivity|reflexivity|]. now apply IHsc.
    - eapply goes_cons; [apply (X3 c)|reflexivity|reflexivity|]. now apply IHsc.
    - eapply goes_cons; [apply X4; cbn [remove]; apply (both_in _ c); now left|reflexivity|reflexivity|]. apply IHsc. eapply covered_p; eauto.
    - rewrite remove_group in X4. apply incl_app_inv in X4 as [R1 R2]. apply incl_app_inv in R2 as [R2 R3].
      eapply goes_cons; [apply R1; apply (both_in _ c); now left|reflexivity|reflexivity|]. cbn [dest].
      eapply goes_app; [eapply dels_goes; eauto|]. cbn [dgoal Nat.add].
      eapply goes_cons; [apply R3; apply (both_in _ c'); now left|reflexivity|reflexivity|]. apply IHsc. eapply covered_p; eauto.
    - rewrite remove_group in X4. apply incl_app_inv in X4 as [R1 R2]. apply incl_app_inv in R2 as [R2 R3].
      eapply goes_cons; [apply R1; apply (both_in _ c); now left|reflexivity|reflexivity|]. cbn [dest].
      eapply (dels_goes _ _ _ _ H _ 0); eauto.
    - eapply goes_cons; [apply (X5 c)|reflexivity|reflexivity|]. now apply IHsc.
    - match goal with H : a = INSERT \/ a = MATCH |- _ => destruct H as [->| ->] end.
      + eapply goes_cons; [apply X6; cbn [add skip]; apply (both_in _ c); now left|reflexivity|reflexivity|]. apply IHsc. eapply covered_t; eauto.
      + eapply goes_cons; [apply X8; cbn [skip]; apply (both_in _ c); now left|reflexivity|reflexivity|]. apply IHsc. eapply covered_t; eauto.
    - eapply goes_cons; [apply X6; cbn [add]; apply (both_in _ c); now left|reflexivity|reflexivity|]. apply IHsc. eapply covered_t; eauto.
    - rewrite add_group in X6. apply incl_app_inv in X6 as [R1 R2]. apply incl_app_inv in R2 as [R2 R3].
      eapply goes_cons; [apply R1; apply (both_in _ c); now left|reflexivity|reflexivity|]. cbn [dest].
      eapply goes_app; [eapply inserts_goes; eauto|]. cbn [Nat.add].
      eapply goes_cons; [apply R3; apply (both_in _ c); now left|reflexivity|reflexivity|]. apply IHsc. eapply covered_t; eauto.
    - eapply goes_cons; [apply (X7 c)|reflexivity|reflexivity|]. now apply IHsc.
    - cbn [keep] in X9. rewrite !eqb_refl in X9. cbn [andb] in X9.
      eapply goes_cons; [apply X9; apply (both_in _ c); now left|reflexivity|reflexivity|]. apply IHsc.
      eapply covered_p. eapply covered_t; eauto.
    - pose proof (covered_pair _ _ _ _ _ _ _ _ C) as Hpr. cbn [pair] in Hpr. rewrite eqb_refl in Hpr.
      apply incl_app_inv in Hpr as [R1 R2]. apply incl_app_inv in R2 as [R2 R3].
      eapply goes_cons; [apply R1; apply (both_in _ c); now left|reflexivity|reflexivity|]. cbn [dest].
      eapply goes_app; [apply IHsc1; apply rows_covered; exact R2|]. cbn [sgoal Nat.add].
      eapply goes_cons; [apply R3; apply (both_in _ c'); now left|reflexivity|reflexivity|]. apply IHsc2.
      eapply covered_p. eapply covered_t; eauto.
    - pose proof (covered_pair _ _ _ _ _ _ _ _ C) as Hpr. cbn [pair] in Hpr. rewrite eqb_refl in Hpr.
      apply incl_app_inv in Hpr as [R1 R2]. apply incl_app_inv in R2 as [R2 R3].
      eapply goes_cons; [apply R1; apply (both_in _ c); now left|reflexivity|reflexivity|]. cbn [dest].
      apply (IHsc (Z.of_nat (pre p)) (Z.of_nat (pre p')) 0 0). apply rows_covered; exact R2.
  Qed.
End Complete.

Theorem script_path {M} {md : EqDec M} P (root troot : list (lnode M)) tr r :
  sc P PROCESS High root troot tr r -> (r = None \/ r = Some High) ->
  exists p, is_path (all_edges P root troot) (EAt PROCESS High ROOT_SEQ 0 ROOT_SEQ 0) p EFinal /\
    effects p = match r with None => tr | Some _ => tr ++ [silent] end.
Proof.
  intros Hs Hr.
  assert (C : covered P (all_edges P root troot) ROOT_SEQ ROOT_SEQ 0 root 0 troot).
  { apply rows_covered. unfold all_edges. apply incl_appl. apply incl_refl. }
  pose proof (sc_goes P _ _ _ _ _ _ _ Hs _ _ _ _ C) as G. destruct Hr as [->| ->]; [exact G|]. cbn [sgoal Nat.add] in G.
  destruct G as [p [Hp <-]]. set (last := mkEdge (EAt MATCH High ROOT_SEQ (length root) ROOT_SEQ (length troot)) EFinal (Fin 0) None None : eedge).
  exists (p ++ [last]). split.
  - eapply is_path_app; [exact Hp|]. apply (path_cons _ last); [|constructor]. unfold all_edges. apply in_or_app. right. left. reflexivity.
  - unfold effects. rewrite map_app. reflexivity.
Qed.
