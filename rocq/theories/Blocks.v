(** Paths through an ordered list of edges: in a topologically ordered list every
    path takes its edges in list order, so that lists built block by block can be
    analysed block by block. *)

From Coq Require Import List Bool Arith Lia.
From Verif Require Import Base Graph.
Import ListNotations.

Section Blocks.
  Context {St As In : Type} `{EqDec St}.
  Notation E := (edge St As In).

  Inductive opath : list E -> St -> list E -> St -> Prop :=
  | op_nil s : opath [] s [] s
  | op_skip e es s p t : opath es s p t -> opath (e :: es) s p t
  | op_take e es p t : opath es (dest e) p t -> opath (e :: es) (source e) (e :: p) t.

  Lemma opath_refl es s : opath es s [] s.
  Proof. induction es; constructor; auto. Qed.
  Lemma opath_is_path es s p t : opath es s p t -> is_path es s p t.
  Proof.
    induction 1 as [|e es s p t Hp IH|e es p t Hp IH]; [constructor| |constructor; [now left|]];
      (eapply is_path_incl; [|exact IH]); intros x Hx; right; eapply is_path_In; eauto.
  Qed.
  Lemma opath_sub es s p t : opath es s p t -> forall e, List.In e p -> List.In e es.
  Proof. intros Hp e. apply is_path_In with (1 := opath_is_path _ _ _ _ Hp). Qed.
  Lemma is_path_tail (e0 : E) (es p : list E) : forall s t, topological (e0 :: es) -> is_path (e0 :: es) s p t ->
    forall e p', p = e :: p' -> forall x, List.In x p' -> List.In x es.
  Proof.
    induction p as [|a p IH]; intros s t T Hp e p' [= <- <-] x Hx; [].
    apply is_path_cons_inv in Hp as [-> [Ha Hp]]. destruct p as [|b p]; [destruct Hx|].
    pose proof Hp as Hp0. apply is_path_cons_inv in Hp as [Hd [Hb Hp]].
    destruct Hx as [->|Hx]; [|eapply IH; eauto].
    destruct Hb as [->|Hb]; auto. exfalso. destruct T as [[T1 _] T2].
    destruct Ha as [->|Ha].
    - apply (T2 a); [now left|auto].
    - now apply (T1 a).
  Qed.
  Lemma is_path_opath es : forall s p t, topological es -> is_path es s p t -> opath es s p t.
  Proof.
    induction es as [|e0 es IH]; intros s p t T Hp.
    - destruct p as [|e p]; [apply is_path_nil_inv in Hp as ->; constructor|].
      apply is_path_cons_inv in Hp as [_ [[] _]].
    - assert (T' : topological es).
      { destruct T as [[_ T1] T2]. split; auto. intros e He. apply T2. now right. }
      destruct p as [|e p]; [apply is_path_nil_inv in Hp as ->; apply opath_refl|].
      pose proof (is_path_tail _ _ _ _ _ T Hp e p eq_refl) as Ht. pose proof Hp as Hp0.
      apply is_path_cons_inv in Hp as [-> [[<-|He] Hp]].
      + apply op_take. apply IH; auto. eapply is_path_incl; eauto.
      + apply op_skip. apply IH; auto. eapply is_path_incl; [|exact Hp0]. intros x [<-|Hx]; auto.
  Qed.
  Lemma opath_app A B s p t :
    opath (A ++ B) s p t <-> exists u p1 p2, p = p1 ++ p2 /\ opath A s p1 u /\ opath B u p2 t.
  Proof.
    split.
    - revert s p. induction A as [|a A IH]; intros s p Hp; cbn [app] in Hp.
      + exists s, [], p. splits; auto. constructor.
      + inversion Hp as [|? ? ? ? ? Hp'|? ? p' ? Hp']; subst.
        * apply IH in Hp' as [u [p1 [p2 [-> [H1 H2]]]]]. exists u, p1, p2. splits; auto. now constructor.
        * apply IH in Hp' as [u [p1 [p2 [-> [H1 H2]]]]]. exists u, (a :: p1), p2. splits; auto. now apply op_take.
    - intros [u [p1 [p2 [-> [H1 H2]]]]]. induction H1; cbn [app]; auto; [apply op_skip|apply op_take]; auto.
  Qed.
  Lemma opath_idle es s p t : (forall e, List.In e es -> source e <> s) -> opath es s p t -> p = [] /\ t = s.
  Proof.
    intros Hi Hp. induction Hp as [|e es s p t Hp IH|e es p t Hp IH]; auto.
    - apply IH. intros x Hx. apply Hi. now right.
    - exfalso. apply (Hi e); [now left|reflexivity].
  Qed.

  (** Paths that cannot be continued in the block. *)
  Definition ends (es : list E) (t : St) : Prop := forall e, List.In e es -> source e <> t.
  Definition runs (es : list E) (s : St) (p : list E) (t : St) : Prop := opath es s p t /\ ends es t.
  Lemma ends_app A B t : ends (A ++ B) t <-> ends A t /\ ends B t.
  Proof.
    unfold ends. split.
    - intros C. split; intros e He; apply C; apply in_or_app; auto.
    - intros [C1 C2] e He. apply in_app_or in He as [He|He]; auto.
  Qed.
  Lemma ends_cons a A t : ends (a :: A) t <-> source a <> t /\ ends A t.
  Proof.
    unfold ends. split.
    - intros C. split; [apply C; now left|intros e He; apply C; now right].
    - intros [C1 C2] e [<-|He]; auto.
  Qed.
  Lemma source_dec (es : list E) t : (exists e, List.In e es /\ source e = t) \/ ends es t.
  Proof.
    induction es as [|e es IH]; [right; intros e []|].
    destruct (eq_dec (source e) t) as [Ht|Ht]; [left; exists e; split; [now left|auto]|].
    destruct IH as [[x [Hx Ex]]|IH]; [left; exists x; split; [now right|auto]|right].
    intros x [<-|Hx]; auto.
  Qed.
  Definition apart (A B : list E) : Prop := forall e e', List.In e A -> List.In e' B -> source e <> source e'.
  Lemma runs_app A B s p t : apart A B ->
    (runs (A ++ B) s p t <->
     ends A t /\ exists u p1 p2, p = p1 ++ p2 /\ runs A s p1 u /\ runs B u p2 t).
  Proof.
    intros Hd. split.
    - intros [Hp He]. apply ends_app in He as [E1 E2]. split; auto.
      apply opath_app in Hp as [u [p1 [p2 [-> [H1 H2]]]]].
      exists u, p1, p2. splits; auto; [|split; auto]. split; auto.
      destruct (source_dec A u) as [[e [Ie Ee]]|]; auto. exfalso.
      apply opath_idle in H2 as [-> ->]; [now apply (E1 e)|].
      intros e' Ie' C. apply (Hd e e'); auto. congruence.
    - intros [E1 [u [p1 [p2 [-> [[H1 _] [H2 E2]]]]]]]. split; [|now apply ends_app].
      apply opath_app. exists u, p1, p2. auto.
  Qed.
  Lemma runs_idle es s p t : ends es s -> (runs es s p t <-> p = [] /\ t = s).
  Proof.
    intros He. split.
    - intros [Hp _]. now apply opath_idle in Hp.
    - intros [-> ->]. split; auto. apply opath_refl.
  Qed.

  Lemma runs_nil s p t : runs [] s p t -> p = [] /\ t = s.
  Proof. intros [Hp _]. inversion Hp; auto. Qed.
  Lemma runs_take e es p t : ends es (source e) -> runs (e :: es) (source e) p t ->
    exists p', p = e :: p' /\ runs es (dest e) p' t.
  Proof.
    intros Hn [Hp He]. apply ends_cons in He as [He1 He2].
    inversion Hp as [|? ? ? ? ? Hp' E1 E2|? ? p' ? Hp' E1 E2]; subst.
    - apply opath_idle in Hp' as [-> ->]; auto. now destruct He1.
    - exists p'. split; auto. split; auto.
  Qed.
  Lemma runs_pass e es s p t : source e <> s -> runs (e :: es) s p t -> runs es s p t.
  Proof.
    intros Hn [Hp He]. apply ends_cons in He as [He1 He2].
    inversion Hp as [|? ? ? ? ? Hp' E1 E2|? ? p' ? Hp' E1 E2]; subst; [|now destruct Hn]. split; auto.
  Qed.

  Lemma ordered_cons e (es : list E) : (forall e', List.In e' es -> dest e' <> source e) -> ordered es -> ordered (e :: es).
  Proof. intros A B. split; auto. Qed.
  Lemma topological_app (A B : list E) : topological A -> topological B ->
    (forall e e', List.In e A -> List.In e' B -> dest e' <> source e) -> topological (A ++ B).
  Proof.
    intros [A1 A2] [B1 B2] C. split; [apply ordered_app; auto|].
    intros e He. apply in_app_or in He as [He|He]; auto.
  Qed.
  Lemma topological_nil : topological (@nil E).
  Proof. split; [exact I|intros e []]. Qed.
  Lemma topological_one (e : E) : source e <> dest e -> topological [e].
  Proof. intros C. split; [split; [intros e' []|exact I]|]. intros x [<-|[]]; auto. Qed.
  Lemma topological_cons (e : E) es : source e <> dest e -> topological es ->
    (forall e', List.In e' es -> dest e' <> source e) -> topological (e :: es).
  Proof.
    intros C T D. apply (topological_app [e] es); auto using topological_one.
    intros x e' [<-|[]]; auto.
  Qed.
End Blocks.
