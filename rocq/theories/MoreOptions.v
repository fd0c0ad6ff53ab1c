(** Adding decision nodes to a prototype: every choice and every edit of the smaller
    prototype is had by the larger one at the same cost, with the new options declined. *)

From Coq Require Import List Bool Arith ZArith Lia QArith Qcanon.
From Verif Require Import Base SeqNodes Transforms PackedSeq PackedSeqProofs Numbered Decisions ConstraintSpec ConstraintDag ConstraintProofs ConstraintPack EditDag EditSpec EditProofs EditTheorems SystemSpec.
Import ListNotations.
Close Scope Qc_scope. Close Scope Q_scope. Close Scope Z_scope. Open Scope nat_scope.

(** ** Specification.  A sequence is another one with more region starts, region ends and
    exits in it, at any depth. *)
Definition is_option {M} (n : node M) : Prop := match n with RegionStart | RegionEnd | EarlyExit => True | _ => False end.
Inductive fewer_options {M} : list (node M) -> list (node M) -> Prop :=
| fo_nil : fewer_options [] []
| fo_same n l l' : fewer_options l l' -> fewer_options (n :: l) (n :: l')
| fo_group cs cs' m l l' : fewer_options cs cs' -> fewer_options l l' -> fewer_options (Group cs m :: l) (Group cs' m :: l')
| fo_more n l l' : is_option n -> fewer_options l l' -> fewer_options l (n :: l').

Section Fewer.
  Context {M : Type}.
  Notation N := (node M).
  Lemma fewer_refl (l : list N) : fewer_options l l.
  Proof. induction l; constructor; auto. Qed.
  Lemma fewer_app (a a' b b' : list N) : fewer_options a a' -> fewer_options b b' -> fewer_options (a ++ b) (a' ++ b').
  Proof. induction 1; intros; cbn [app]; auto; constructor; auto. Qed.
  Lemma fewer_trans (b c : list N) : fewer_options b c -> forall a, fewer_options a b -> fewer_options a c.
  Proof.
    induction 1 as [|n l l' H IH|cs cs' m l l' H1 IH1 H2 IH2|n l l' Hn H IH]; intros a Ha; auto.
    - inversion Ha as [|n0 x x' Hx|k k' m x x' Hk Hx|n0 x x' Ho Hx]; subst; constructor; auto.
    - inversion Ha as [|n0 x x' Hx|k k' m0 x x' Hk Hx|n0 x x' Ho Hx]; subst; try (destruct Ho; fail); apply fo_group; auto.
    - apply fo_more; auto.
  Qed.
  Lemma fewer_flat (f : N -> list N) (l : list N) : Forall (fun n => fewer_options [n] (f n)) l -> fewer_options l (flat_map f l).
  Proof. induction 1 as [|n l Hn Hl IH]; [constructor|]. cbn [flat_map]. exact (fewer_app [n] _ l _ Hn IH). Qed.
  Lemma more_after (l l' : list N) n : fewer_options l l' -> is_option n -> fewer_options l (l' ++ [n]).
  Proof. intros H Hn. rewrite <- (app_nil_r l). apply fewer_app; auto. apply fo_more; auto. constructor. Qed.
  Lemma fewer_exit_node (n : N) : fewer_options [n] (early_exit_node true n).
  Proof.
    induction n as [t|t m| | | |cs m IH] using node_ind'; cbn [early_exit_node]; try (repeat constructor).
    now apply fewer_flat.
  Qed.
  Lemma fewer_exit (l : list N) at_start : fewer_options l (insert_early_exit l true at_start).
  Proof.
    assert (F : fewer_options l (flat_map (early_exit_node true) l)) by (apply fewer_flat, Forall_forall; intros; apply fewer_exit_node).
    unfold insert_early_exit. destruct at_start; cbn [app]; auto. apply fo_more; [exact I|exact F].
  Qed.
  Lemma fewer_region_node allow filt (n : N) : fewer_options [n] (region_subseq_node allow filt n).
  Proof.
    assert (A : forall e (x y : N), fewer_options [x] [y] -> fewer_options [x] (around allow e y)).
    { intros e x y H. unfold around. destruct e; auto. apply fo_more; [exact I|]. destruct allow; cbn [app]; [apply fo_more; [exact I|]|];
        exact (more_after [x] [y] RegionEnd H I). }
    induction n as [t|t m| | | |cs m IH] using node_ind'; cbn [region_subseq_node]; try (repeat constructor); try apply A; try (repeat constructor).
    pose proof (fewer_flat _ _ IH) as F. unfold trailing. destruct allow; [|now rewrite app_nil_r].
    change [RegionStart; RegionEnd] with ([RegionStart (M := M)] ++ [RegionEnd]). rewrite app_assoc. apply more_after; [|exact I]. apply more_after; [exact F|exact I].
  Qed.
  Lemma fewer_regions (l : list N) allow filt : fewer_options l (insert_regions l allow filt).
  Proof.
    assert (F : fewer_options l (flat_map (region_subseq_node allow filt) l)) by (apply fewer_flat, Forall_forall; intros; apply fewer_region_node).
    unfold insert_regions, trailing. destruct allow; [|now rewrite app_nil_r].
    change [RegionStart; RegionEnd] with ([RegionStart (M := M)] ++ [RegionEnd]). rewrite app_assoc. apply more_after; [|exact I]. apply more_after; [exact F|exact I].
  Qed.
  Lemma fewer_both (l l' : list N) : fewer_options l l' -> forall at_start, fewer_options (insert_early_exit l true at_start) (insert_early_exit l' true at_start).
  Proof.
    assert (G : forall l l' : list N, fewer_options l l' -> fewer_options (flat_map (early_exit_node true) l) (flat_map (early_exit_node true) l')).
    { induction 1 as [|n l0 l0' H IH|cs cs' m l0 l0' H1 IH1 H2 IH2|n l0 l0' Hn H IH]; cbn [flat_map]; [constructor| | |].
      - apply fewer_app; auto using fewer_refl.
      - cbn [early_exit_node app]. apply fo_group; auto. apply fo_same; auto.
      - destruct n; try destruct Hn; cbn [early_exit_node app]; (apply fo_more; [exact I|auto]). }
    intros H at_start. unfold insert_early_exit. apply fewer_app; auto using fewer_refl.
  Qed.
  Lemma fewer_trunc off (l l' : list N) : fewer_options l l' -> forall st,
    fst (trunc_list off st l) = fst (trunc_list off st l') /\ fewer_options (snd (trunc_list off st l)) (snd (trunc_list off st l')).
  Proof.
    induction 1 as [|n l l' H IH|cs cs' m l l' H1 IH1 H2 IH2|n l l' Hn H IH]; intros st; cbn [trunc_list].
    - split; [reflexivity|constructor].
    - destruct (trunc_node off st n) as [s1 o1]. specialize (IH s1). destruct (trunc_list off s1 l) as [s2 o2], (trunc_list off s1 l') as [s2' o2'].
      cbn [fst snd] in *. destruct IH. split; auto. apply fewer_app; auto using fewer_refl.
    - rewrite !trunc_node_group. specialize (IH1 st). destruct (trunc_list off st cs) as [s1 o1], (trunc_list off st cs') as [s1' o1']. cbn [fst snd] in IH1.
      destruct IH1 as [-> IH1]. destruct s1' as [k|]; (specialize (IH2 (Some k)) || specialize (IH2 None)).
      + destruct (trunc_list off (Some k) l) as [s2 o2], (trunc_list off (Some k) l') as [s2' o2']. exact IH2.
      + destruct (trunc_list off None l) as [s2 o2], (trunc_list off None l') as [s2' o2']. cbn [fst snd app] in *. destruct IH2. split; auto. now apply fo_group.
    - assert (E : trunc_node off st n = (st, match st with None => [n] | Some _ => [] end)) by (destruct n; try destruct Hn; destruct st; reflexivity).
      rewrite E. specialize (IH st). destruct (trunc_list off st l) as [s2 o2], (trunc_list off st l') as [s2' o2']. cbn [fst snd] in *. destruct IH as [-> IH]. split; auto.
      destruct st; cbn [app]; auto. apply fo_more; auto.
  Qed.
  Lemma fewer_truncate (l l' : list N) off : fewer_options l l' -> fewer_options (truncate_prefix_at_offset l off) (truncate_prefix_at_offset l' off).
  Proof. intros H. unfold truncate_prefix_at_offset. apply fewer_trunc. exact H. Qed.
End Fewer.

(** ** Two labelled trees side by side. *)
Section Joint.
  Context {M : Type}.
  Notation N := (node M).
  Notation L := (lnode M).
  Inductive joint :=
  | JDeco (i j : node_id) (t : text) | JToken (i j : node_id) (t : text) (m : M)
  | JStart (i j : node_id) | JEnd (i j : node_id) | JExit (i j : node_id)
  | JGroup (i j : node_id) (ks : list joint) (m : M)
  | XStart (j : node_id) | XEnd (j : node_id) | XExit (j : node_id).
  Section Ind.
    Context (Q : joint -> Prop) (H1 : forall i j t, Q (JDeco i j t)) (H2 : forall i j t m, Q (JToken i j t m)) (H3 : forall i j, Q (JStart i j))
      (H4 : forall i j, Q (JEnd i j)) (H5 : forall i j, Q (JExit i j)) (H6 : forall i j ks m, Forall Q ks -> Q (JGroup i j ks m))
      (H7 : forall j, Q (XStart j)) (H8 : forall j, Q (XEnd j)) (H9 : forall j, Q (XExit j)).
    Fixpoint joint_ind' (x : joint) : Q x :=
      match x with
      | JDeco i j t => H1 i j t | JToken i j t m => H2 i j t m | JStart i j => H3 i j | JEnd i j => H4 i j | JExit i j => H5 i j
      | JGroup i j ks m => H6 i j ks m ((fix go l := match l return Forall Q l with [] => Forall_nil Q | c :: l' => Forall_cons c (joint_ind' c) (go l') end) ks)
      | XStart j => H7 j | XEnd j => H8 j | XExit j => H9 j
      end.
  End Ind.
  Fixpoint left1 (x : joint) : list L :=
    match x with
    | JDeco i _ t => [LDeco i t] | JToken i _ t m => [LToken i t m] | JStart i _ => [LStart i] | JEnd i _ => [LEnd i] | JExit i _ => [LExit i]
    | JGroup i _ ks m => [LGroup i (flat_map left1 ks) m]
    | _ => []
    end.
  Fixpoint right1 (x : joint) : L :=
    match x with
    | JDeco _ j t => LDeco j t | JToken _ j t m => LToken j t m | JStart _ j => LStart j | JEnd _ j => LEnd j | JExit _ j => LExit j
    | JGroup _ j ks m => LGroup j (map right1 ks) m
    | XStart j => LStart j | XEnd j => LEnd j | XExit j => LExit j
    end.
  Definition lefts (J : list joint) : list L := flat_map left1 J.
  Definition rights (J : list joint) : list L := map right1 J.
  Lemma same_joint (n : N) : forall p d t g p' d' t' g', exists x, left1 x = [lab p d t g n] /\ right1 x = lab p' d' t' g' n.
  Proof.
    induction n as [u|u m| | | |cs m IH] using node_ind'; intros.
    - eexists (JDeco _ _ _). split; reflexivity.
    - eexists (JToken _ _ _ _). split; reflexivity.
    - eexists (JStart _ _). split; reflexivity.
    - eexists (JEnd _ _). split; reflexivity.
    - eexists (JExit _ _). split; reflexivity.
    - rewrite !lab_group.
      assert (X : forall p d t g p' d' t' g', exists J, lefts J = labs p d t g cs /\ rights J = labs p' d' t' g' cs).
      { clear -IH. induction IH as [|c cs Hc Hcs IH]; intros; [exists []; split; reflexivity|]. cbn [labs].
        destruct (Hc p d t g p' d' t' g') as [x [E1 E2]]. 
        destruct (IH (p + size c) (d + n_decos c) (t + n_tokens c) (g + n_groups c) (p' + size c) (d' + n_decos c) (t' + n_tokens c) (g' + n_groups c)) as [J [E3 E4]].
        exists (x :: J). unfold lefts, rights in *. cbn [flat_map map]. rewrite E1, E2, E3, E4. split; reflexivity. }
      destruct (X (S p) d t (S g) (S p') d' t' (S g')) as [J [E1 E2]].
      exists (JGroup (mkId p CGroup (Some g)) (mkId p' CGroup (Some g')) J m). cbn [left1 right1]. fold (lefts J) (rights J). rewrite E1, E2. split; reflexivity.
  Qed.
  Lemma joint_of (l l' : list N) : fewer_options l l' -> forall p d t g p' d' t' g', exists J, lefts J = labs p d t g l /\ rights J = labs p' d' t' g' l'.
  Proof.
    induction 1 as [|n l l' H IH|cs cs' m l l' H1 IH1 H2 IH2|n l l' Hn H IH]; intros.
    - exists []. split; reflexivity.
    - destruct (same_joint n p d t g p' d' t' g') as [x [E1 E2]].
      destruct (IH (p + size n) (d + n_decos n) (t + n_tokens n) (g + n_groups n) (p' + size n) (d' + n_decos n) (t' + n_tokens n) (g' + n_groups n)) as [J [E3 E4]].
      exists (x :: J). unfold lefts, rights in *. cbn [flat_map map labs]. rewrite E1, E2, E3, E4. split; reflexivity.
    - destruct (IH1 (S p) d t (S g) (S p') d' t' (S g')) as [ks [K1 K2]].
      set (n := Group cs m). set (n' := Group cs' m).
      destruct (IH2 (p + size n) (d + n_decos n) (t + n_tokens n) (g + n_groups n) (p' + size n') (d' + n_decos n') (t' + n_tokens n') (g' + n_groups n')) as [J [E3 E4]].
      exists (JGroup (mkId p CGroup (Some g)) (mkId p' CGroup (Some g')) ks m :: J). unfold lefts, rights in *. cbn [flat_map map labs left1 right1].
      rewrite K1, K2, E3, E4. split; reflexivity.
    - destruct (IH p d t g (p' + size n) (d' + n_decos n) (t' + n_tokens n) (g' + n_groups n)) as [J [E3 E4]].
      destruct n as [u|u m| | | |cs m]; try destruct Hn.
      + exists (XStart (mkId p' CStart None) :: J). unfold lefts, rights in *. cbn [flat_map map labs left1 right1 app]. rewrite E3, E4. split; reflexivity.
      + exists (XEnd (mkId p' CEnd None) :: J). unfold lefts, rights in *. cbn [flat_map map labs left1 right1 app]. rewrite E3, E4. split; reflexivity.
      + exists (XExit (mkId p' CExit None) :: J). unfold lefts, rights in *. cbn [flat_map map labs left1 right1 app]. rewrite E3, E4. split; reflexivity.
  Qed.
  Definition new (x : joint) : Prop := match x with XStart _ | XEnd _ | XExit _ => True | _ => False end.
  Definition settled (J : list joint) : Prop := match J with x :: _ => ~ new x | [] => True end.
  Lemma settle (J : list joint) : exists xs J0, J = xs ++ J0 /\ Forall new xs /\ settled J0 /\ lefts J = lefts J0.
  Proof.
    induction J as [|x J (xs & J0 & E1 & E2 & E3 & E4)]; [exists [], []; splits; auto; constructor|].
    destruct x; try (match goal with |- context [?x :: J] => exists [], (x :: J) end; splits; [reflexivity|exact (Forall_nil _)|cbn; intros F; exact F|reflexivity]; fail);
      (match goal with |- context [?x :: J] => exists (x :: xs), J0 end; splits; [cbn; f_equal; exact E1|apply Forall_cons; [exact I|exact E2]|exact E3|exact E4]).
  Qed.

  (** ** The decisions for the larger tree. *)
  Section Fill.
    Context (val : dkey -> dvalue).
    Fixpoint fill1 (x : joint) (c : conf) : list decision * option conf :=
      match x with
      | JDeco _ _ _ => ([], Some c)
      | JToken i j _ _ => ([((pre j, NodeInRegion), val (pre i, NodeInRegion))], Some c)
      | JStart i j => ([((pre j, RegionShouldStart), val (pre i, RegionShouldStart))], Some (match val (pre i, RegionShouldStart) with DTrue => Low | _ => c end))
      | JEnd i j => ([((pre j, RegionShouldEnd), val (pre i, RegionShouldEnd))], Some (match val (pre i, RegionShouldEnd) with DTrue => High | _ => c end))
      | JExit i j => ([((pre j, ShouldEarlyExit), val (pre i, ShouldEarlyExit))], match val (pre i, ShouldEarlyExit) with DTrue => None | _ => Some c end)
      | JGroup i j ks _ =>
          let '(o, r) := (fix go (l : list joint) (c : conf) : list decision * option conf :=
             match l with
             | [] => ([], Some c)
             | y :: l' => let '(o1, r1) := fill1 y c in
                          match r1 with None => (o1, None) | Some c1 => let '(o2, r2) := go l' c1 in (o1 ++ o2, r2) end
             end) ks c in
          (((pre j, NodeInRegion), val (pre i, NodeInRegion)) :: o, r)
      | XStart j => ([((pre j, RegionShouldStart), match c with High => DFalse | Low => DNA end)], Some c)
      | XEnd j => ([((pre j, RegionShouldEnd), match c with High => DNA | Low => DFalse end)], Some c)
      | XExit j => ([((pre j, ShouldEarlyExit), DFalse)], Some c)
      end.
    Fixpoint fill (l : list joint) (c : conf) : list decision * option conf :=
      match l with
      | [] => ([], Some c)
      | y :: l' => let '(o1, r1) := fill1 y c in
                   match r1 with None => (o1, None) | Some c1 => let '(o2, r2) := fill l' c1 in (o1 ++ o2, r2) end
      end.
    Lemma fill_group i j ks m c : fill1 (JGroup i j ks m) c = (((pre j, NodeInRegion), val (pre i, NodeInRegion)) :: fst (fill ks c), snd (fill ks c)).
    Proof. cbn [fill1]. fold fill. destruct (fill ks c). reflexivity. Qed.
    Definition agrees (ds : list decision) : Prop := Forall (fun d => val (fst d) = snd d) ds.
    Lemma agrees_app a b : agrees (a ++ b) <-> agrees a /\ agrees b.
    Proof. apply Forall_app. Qed.
    Lemma agrees_cons d b : agrees (d :: b) <-> val (fst d) = snd d /\ agrees b.
    Proof. apply Forall_cons_iff. Qed.
    Lemma fill_cons x J c o c1 : fill1 x c = (o, Some c1) -> fill (x :: J) c = (o ++ fst (fill J c1), snd (fill J c1)).
    Proof. intros E. cbn [fill]. rewrite E. destruct (fill J c1). reflexivity. Qed.
    Lemma fill_stop x J c o : fill1 x c = (o, None) -> fill (x :: J) c = (o, None).
    Proof. intros E. cbn [fill]. now rewrite E. Qed.
    (** New options are declined and change nothing. *)
    Lemma fill_new x c : new x -> exists d, fill1 x c = ([d], Some c) /\ forall P, passes P c (right1 x) 0%Qc [d] c.
    Proof. destruct x; intros []; cbn [fill1 right1]; eexists; (split; [reflexivity|]); intros P; destruct c; constructor. Qed.

    Section Edits.
      Context (P : parameters).
      Lemma zero_plus k : (0 + k)%Qc = k.
      Proof. ring. Qed.
      Lemma removed_new xs J c k r : Forall new xs -> removed P c (rights J) k (fst (fill J c)) r -> snd (fill J c) = r ->
        removed P c (rights (xs ++ J)) k (fst (fill (xs ++ J) c)) r /\ snd (fill (xs ++ J) c) = r.
      Proof.
        induction 1 as [|x xs Hx Hxs IH]; intros H E; [split; auto|]. destruct (IH H E) as [H1 H2].
        destruct (fill_new x c Hx) as [d [F Hp]]. cbn [app]. rewrite (fill_cons x (xs ++ J) c [d] c F). cbn [fst snd]. split; auto.
        unfold rights. cbn [map]. rewrite <- (zero_plus k). apply (rm_pass P c (right1 x) 0%Qc [d] c); auto.
      Qed.
      Lemma edited_new g xs J c ts k r : g <> Adding -> Forall new xs -> edited P g c (rights J) ts k (fst (fill J c)) r -> snd (fill J c) = r ->
        edited P g c (rights (xs ++ J)) ts k (fst (fill (xs ++ J) c)) r /\ snd (fill (xs ++ J) c) = r.
      Proof.
        intros Hg. induction 1 as [|x xs Hx Hxs IH]; intros H E; [split; auto|]. destruct (IH H E) as [H1 H2].
        destruct (fill_new x c Hx) as [d [F Hp]]. cbn [app]. rewrite (fill_cons x (xs ++ J) c [d] c F). cbn [fst snd]. split; auto.
        unfold rights. cbn [map]. rewrite <- (zero_plus k). apply (ed_pass P g c (right1 x) 0%Qc [d] c); auto.
      Qed.
      Lemma left_cons x J y l : ~ new x -> lefts (x :: J) = y :: l -> left1 x = [y] /\ lefts J = l.
      Proof. intros N E. unfold lefts in E. cbn [flat_map] in E. destruct x; cbn [left1 app] in E; try (destruct (N I)); injection E as <- <-; split; reflexivity. Qed.
      Lemma lefts_nil J : settled J -> lefts J = [] -> J = [].
      Proof. destruct J as [|x J]; auto. intros S E. destruct x; cbn in S; try (destruct (S I)); discriminate. Qed.
      Lemma lefts_settled J y l : settled J -> lefts J = y :: l -> exists x J', J = x :: J' /\ left1 x = [y] /\ lefts J' = l.
      Proof. destruct J as [|x J]; [discriminate|]. intros S E. exists x, J. split; auto. now apply left_cons. Qed.
      Lemma passes_joint c y k ds c' x : passes P c y k ds c' -> left1 x = [y] -> agrees ds ->
        passes P c (right1 x) k (fst (fill1 x c)) c' /\ snd (fill1 x c) = Some c'.
      Proof.
        intros H E A. destruct H; destruct x; try discriminate; cbn [left1] in E; injection E; intros; subst; cbn [fill1 right1 fst snd];
          try (apply agrees_cons in A as [A _]; cbn [fst snd] in A; rewrite A); split; try constructor; reflexivity.
      Qed.

      Lemma removed_joint c l k ds r : removed P c l k ds r -> forall J, lefts J = l -> agrees ds ->
        removed P c (rights J) k (fst (fill J c)) r /\ snd (fill J c) = r.
      Proof.
        intros H. assert (G : forall J, settled J -> lefts J = l -> agrees ds -> removed P c (rights J) k (fst (fill J c)) r /\ snd (fill J c) = r).
        2: { intros J E A. destruct (settle J) as (xs & J0 & -> & Hn & Hs & E'). rewrite E' in E. destruct (G J0 Hs E A). now apply removed_new. }
        assert (X : forall c l k ds r, (forall J, settled J -> lefts J = l -> agrees ds -> removed P c (rights J) k (fst (fill J c)) r /\ snd (fill J c) = r) ->
                    forall J, lefts J = l -> agrees ds -> removed P c (rights J) k (fst (fill J c)) r /\ snd (fill J c) = r).
        { intros c0 l0 k0 ds0 r0 G J E A. destruct (settle J) as (xs & J0 & -> & Hn & Hs & E'). rewrite E' in E. destruct (G J0 Hs E A). now apply removed_new. }
        induction H as [c|c x k ds c' l k' ds' r Hp H IH|c i l|c i t m l k ds r H IH|c i cs m l k ds c' k' ds' r H1 IH1 H2 IH2|c i cs m l k ds H IH]; intros J S E A.
        - rewrite (lefts_nil J S E). split; [apply rm_nil|reflexivity].
        - destruct (lefts_settled J x l S E) as (y & J' & -> & E1 & E2). apply agrees_app in A as [A1 A2].
          destruct (passes_joint _ _ _ _ _ y Hp E1 A1) as [P1 P2]. destruct (X _ _ _ _ _ IH J' E2 A2) as [R1 R2].
          rewrite (fill_cons y J' c (fst (fill1 y c)) c') by (destruct (fill1 y c); cbn in *; congruence). cbn [fst snd]. split; auto.
          unfold rights. cbn [map]. eapply rm_pass; eauto.
        - destruct (lefts_settled J _ l S E) as (y & J' & -> & E1 & E2). destruct y; try discriminate. injection E1 as ->.
          apply agrees_cons in A as [A _]. cbn [fst snd] in A. rewrite (fill_stop _ J' c [((pre j, ShouldEarlyExit), DTrue)]) by (cbn [fill1]; now rewrite A).
          split; [apply rm_exit|reflexivity].
        - destruct (lefts_settled J _ l S E) as (y & J' & -> & E1 & E2). destruct y; try discriminate. injection E1 as -> -> ->.
          apply agrees_cons in A as [A1 A2]. cbn [fst snd] in A1. destruct (X _ _ _ _ _ IH J' E2 A2) as [R1 R2].
          rewrite (fill_cons _ J' c [((pre j, NodeInRegion), marked c)] c) by (cbn [fill1]; now rewrite A1). cbn [fst snd app]. split; auto.
          unfold rights. cbn [map right1]. now apply rm_token.
        - destruct (lefts_settled J _ l S E) as (y & J' & -> & E1 & E2). destruct y as [| | | | |i' j ks m'| | |]; try discriminate. cbn [left1] in E1. injection E1 as -> E1 ->.
          apply agrees_cons in A as [A1 A2]. cbn [fst snd] in A1. apply agrees_app in A2 as [A2 A3].
          destruct (X _ _ _ _ _ IH1 ks E1 A2) as [K1 K2]. destruct (X _ _ _ _ _ IH2 J' E2 A3) as [R1 R2].
          rewrite (fill_cons _ J' c (((pre j, NodeInRegion), marked c) :: fst (fill ks c)) c') by (rewrite fill_group, A1, K2; reflexivity).
          cbn [fst snd app]. split; auto. unfold rights. cbn [map right1]. eapply rm_group; eauto.
        - destruct (lefts_settled J _ l S E) as (y & J' & -> & E1 & E2). destruct y as [| | | | |i' j ks m'| | |]; try discriminate. cbn [left1] in E1. injection E1 as -> E1 ->.
          apply agrees_cons in A as [A1 A2]. cbn [fst snd] in A1. destruct (X _ _ _ _ _ IH ks E1 A2) as [K1 K2].
          rewrite (fill_stop _ J' c (((pre j, NodeInRegion), marked c) :: fst (fill ks c))) by (rewrite fill_group, A1, K2; reflexivity).
          split; [|reflexivity]. unfold rights. cbn [map right1 fst]. now apply rm_group_exit.
      Qed.
      Lemma NU : Untouched <> Adding. Proof. discriminate. Qed.
      Lemma NR : Removing <> Adding. Proof. discriminate. Qed.
      Lemma edited_joint g c l ts k ds r : edited P g c l ts k ds r -> forall J, settled J -> lefts J = l -> agrees ds ->
        edited P g c (rights J) ts k (fst (fill J c)) r /\ snd (fill J c) = r.
      Proof.
        intros H.
        assert (X : forall g c l ts k ds r, g <> Adding -> (forall J, settled J -> lefts J = l -> agrees ds -> edited P g c (rights J) ts k (fst (fill J c)) r /\ snd (fill J c) = r) ->
                    forall J, lefts J = l -> agrees ds -> edited P g c (rights J) ts k (fst (fill J c)) r /\ snd (fill J c) = r).
        { intros g0 c0 l0 ts0 k0 ds0 r0 Hg G J E A. destruct (settle J) as (xs & J0 & -> & Hn & Hs & E'). rewrite E' in E. destruct (G J0 Hs E A). now apply edited_new. }
        induction H as [g c|g c x k ds c' ps ts k' ds' r Hg Hp H IH|g c i ps ts Hg|c ps ts k ds r H IH|c x ps ts k ds c' k' ds' r Hr H IH|c x ps ts k ds Hr|g c y ps ts k ds r Hg Ht H IH|g c ps i t ts k ds r H IH|g c i i' t m ps ts k ds r H IH|g c i cs i' cs' m ps ts k ds c' k' ds' r H1 IH1 H2 IH2|g c i cs i' cs' m ps ts k ds H IH]; intros J S E A.
        - rewrite (lefts_nil J S E). split; [apply ed_end|reflexivity].
        - destruct (lefts_settled J x ps S E) as (y & J' & -> & E1 & E2). apply agrees_app in A as [A1 A2].
          destruct (passes_joint _ _ _ _ _ y Hp E1 A1) as [P1 P2]. destruct (X _ _ _ _ _ _ _ Hg IH J' E2 A2) as [R1 R2].
          rewrite (fill_cons y J' c (fst (fill1 y c)) c') by (destruct (fill1 y c); cbn in *; congruence). cbn [fst snd]. split; auto.
          unfold rights. cbn [map]. eapply ed_pass; eauto.
        - destruct (lefts_settled J _ ps S E) as (y & J' & -> & E1 & E2). destruct y; try discriminate. injection E1 as ->.
          apply agrees_cons in A as [A _]. cbn [fst snd] in A. rewrite (fill_stop _ J' c [((pre j, ShouldEarlyExit), DTrue)]) by (cbn [fill1]; now rewrite A).
          split; [now apply ed_exit|reflexivity].
        - destruct (IH J S E A). split; auto. now apply ed_begin.
        - destruct (lefts_settled J x ps S E) as (y & J' & -> & E1 & E2). apply agrees_app in A as [A1 A2].
          destruct (X _ _ _ _ _ _ _ NR IH J' E2 A2) as [R1 R2].
          destruct (removed_joint _ _ _ _ _ Hr [y] ltac:(unfold lefts; cbn [flat_map]; now rewrite app_nil_r) A1) as [Q1 Q2].
          assert (F : fill1 y c = (fst (fill [y] c), Some c')).
          { cbn [fill] in Q2 |- *. destruct (fill1 y c) as [o [c1|]]; cbn in *; [|discriminate]. rewrite app_nil_r. congruence. }
          rewrite (fill_cons y J' c _ c' F). cbn [fst snd]. split; auto. unfold rights. cbn [map]. eapply ed_remove; eauto.
        - destruct (lefts_settled J x ps S E) as (y & J' & -> & E1 & E2).
          destruct (removed_joint _ _ _ _ _ Hr [y] ltac:(unfold lefts; cbn [flat_map]; now rewrite app_nil_r) A) as [Q1 Q2].
          assert (F : fill1 y c = (fst (fill [y] c), None)).
          { cbn [fill] in Q2 |- *. destruct (fill1 y c) as [o [c1|]]; cbn in *; [discriminate|reflexivity]. }
          rewrite (fill_stop y J' c _ F). cbn [fst snd]. split; auto. unfold rights. cbn [map]. now apply ed_remove_exit.
        - destruct (IH J S E A). split; auto. now apply ed_add.
        - destruct (IH J S E A). split; auto. now apply ed_deco.
        - destruct (lefts_settled J _ ps S E) as (y & J' & -> & E1 & E2). destruct y; try discriminate. injection E1 as -> -> ->.
          apply agrees_cons in A as [A1 A2]. cbn [fst snd] in A1. destruct (X _ _ _ _ _ _ _ NU IH J' E2 A2) as [R1 R2].
          rewrite (fill_cons _ J' c [((pre j, NodeInRegion), marked c)] c) by (cbn [fill1]; now rewrite A1). cbn [fst snd app]. split; auto.
          unfold rights. cbn [map right1]. now apply ed_keep.
        - destruct (lefts_settled J _ ps S E) as (y & J' & -> & E1 & E2). destruct y as [| | | | |i0 j ks m'| | |]; try discriminate. cbn [left1] in E1. injection E1 as -> E1 ->.
          apply agrees_cons in A as [A1 A2]. cbn [fst snd] in A1. apply agrees_app in A2 as [A2 A3].
          destruct (X _ _ _ _ _ _ _ NU IH1 ks E1 A2) as [K1 K2]. destruct (X _ _ _ _ _ _ _ NU IH2 J' E2 A3) as [R1 R2].
          rewrite (fill_cons _ J' c (((pre j, NodeInRegion), marked c) :: fst (fill ks c)) c') by (rewrite fill_group, A1, K2; reflexivity).
          cbn [fst snd app]. split; auto. unfold rights. cbn [map right1]. eapply ed_group; eauto.
        - destruct (lefts_settled J _ ps S E) as (y & J' & -> & E1 & E2). destruct y as [| | | | |i0 j ks m'| | |]; try discriminate. cbn [left1] in E1. injection E1 as -> E1 ->.
          apply agrees_cons in A as [A1 A2]. cbn [fst snd] in A1. destruct (X _ _ _ _ _ _ _ NU IH ks E1 A2) as [K1 K2].
          rewrite (fill_stop _ J' c (((pre j, NodeInRegion), marked c) :: fst (fill ks c))) by (rewrite fill_group, A1, K2; reflexivity).
          split; [|reflexivity]. unfold rights. cbn [map right1 fst]. now apply ed_group_exit.
      Qed.
      Lemma edit_joint J ts k ds : edit P (lefts J) ts k ds -> agrees ds -> edit P (rights J) ts k (fst (fill J High)).
      Proof.
        destruct (settle J) as (xs & J0 & -> & Hn & Hs & E'). rewrite E'. intros [H|H] A; [left|right];
          destruct (edited_joint _ _ _ _ _ _ _ H J0 Hs eq_refl A); apply edited_new; auto; discriminate.
      Qed.
    End Edits.

    (** ** Choices. *)
    Lemma inside_joint J : agrees (flat_map inside (lefts J)) -> fill J Low = (flat_map inside (rights J), Some Low).
    Proof.
      assert (N : forall x, agrees (flat_map inside (left1 x)) -> fill1 x Low = (inside (right1 x), Some Low)).
      { induction x as [i j t|i j t m|i j|i j|i j|i j ks m IH|j|j|j] using joint_ind'; intros A; cbn [left1 flat_map inside app] in A; try rewrite app_nil_r in A;
          try (apply agrees_cons in A as [A A']; cbn [fst snd] in A); try (cbn [fill1 right1 inside]; rewrite ?A; reflexivity).
        rewrite fill_group, A. cbn [right1 inside].
        assert (X : fill ks Low = (flat_map inside (map right1 ks), Some Low)).
        { clear A. induction IH as [|y ks Hy Hks IH]; auto. cbn [flat_map] in A'. rewrite flat_map_app in A'. apply agrees_app in A' as [A1 A2].
          rewrite (fill_cons y ks Low _ Low (Hy A1)), (IH A2). reflexivity. }
        rewrite X. reflexivity. }
      induction J as [|x J IH]; intros A; auto. unfold lefts in A. cbn [flat_map] in A. rewrite flat_map_app in A. apply agrees_app in A as [A1 A2].
      rewrite (fill_cons x J Low _ Low (N x A1)), (IH A2). reflexivity.
    Qed.
    Lemma new_inside xs : Forall new xs -> fill xs Low = (flat_map inside (rights xs), Some Low).
    Proof. intros F. apply inside_joint. assert (E : lefts xs = []) by (induction F as [|x xs Hx F IH]; auto; destruct x; destruct Hx; auto). rewrite E. constructor. Qed.
    Lemma fill_app J J' c c' o : fill J c = (o, Some c') -> fill (J ++ J') c = (o ++ fst (fill J' c'), snd (fill J' c')).
    Proof.
      revert c o. induction J as [|x J IH]; intros c o E; cbn [fill app] in *.
      - injection E as <- <-. now destruct (fill J' c).
      - destruct (fill1 x c) as [o1 [c1|]]; [|discriminate]. destruct (fill J c1) as [o2 r2] eqn:E2. injection E as <- ->. rewrite (IH c1 o2 E2). cbn [fst snd]. now rewrite app_assoc.
    Qed.
    Lemma inside_exits_app (xs : list L) l a : inside_exits l a -> inside_exits (xs ++ l) (flat_map inside xs ++ a).
    Proof. intros H. induction xs as [|x xs IH]; auto. cbn [app flat_map]. rewrite <- app_assoc. now apply ie_skip. Qed.
    Lemma inside_exits_joint l a : inside_exits l a -> forall J, lefts J = l -> agrees a -> inside_exits (rights J) (fst (fill J Low)) /\ snd (fill J Low) = None.
    Proof.
      induction 1 as [i l|i cs m l a H IH|x l a H IH]; intros J E A; destruct (settle J) as (xs & J0 & -> & Hn & Hs & E'); rewrite E' in E;
        destruct (lefts_settled J0 _ l Hs E) as (y & J' & -> & E1 & E2); rewrite (fill_app xs (y :: J') Low Low _ (new_inside xs Hn)); cbn [fst snd];
        unfold rights; rewrite map_app; fold (rights xs).
      - destruct y; try discriminate. injection E1 as ->. apply agrees_cons in A as [A _]. cbn [fst snd] in A.
        rewrite (fill_stop _ J' Low [((pre j, ShouldEarlyExit), DTrue)]) by (cbn [fill1]; now rewrite A). split; [|reflexivity].
        apply inside_exits_app. cbn [map right1 fst]. apply ie_here.
      - destruct y as [| | | | |i0 j ks m'| | |]; try discriminate. cbn [left1] in E1. injection E1 as -> E1 ->. apply agrees_cons in A as [A1 A2]. cbn [fst snd] in A1.
        destruct (IH ks E1 A2) as [K1 K2]. rewrite (fill_stop _ J' Low (((pre j, NodeInRegion), DTrue) :: fst (fill ks Low))) by (rewrite fill_group, A1, K2; reflexivity).
        split; [|reflexivity]. apply inside_exits_app. cbn [map right1 fst]. now apply ie_group.
      - apply agrees_app in A as [A1 A2]. destruct (IH J' E2 A2) as [K1 K2].
        assert (F : fill [y] Low = (inside (right1 y), Some Low)).
        { rewrite inside_joint; [cbn; now rewrite app_nil_r|]. unfold lefts. cbn [flat_map]. rewrite app_nil_r, E1. cbn [flat_map]. now rewrite app_nil_r. }
        change (y :: J') with ([y] ++ J'). rewrite (fill_app [y] J' Low Low _ F). cbn [fst snd]. split; auto.
        apply inside_exits_app. cbn [app map]. now apply ie_skip.
    Qed.
    Lemma crun_new xs J b r : Forall new xs -> crun b (rights J) (fst (fill J (at_ b))) r -> snd (fill J (at_ b)) = option_map at_ r ->
      crun b (rights (xs ++ J)) (fst (fill (xs ++ J) (at_ b))) r /\ snd (fill (xs ++ J) (at_ b)) = option_map at_ r.
    Proof.
      induction 1 as [|x xs Hx Hxs IH]; intros H E; [split; auto|]. destruct (IH H E) as [H1 H2].
      destruct (fill_new x (at_ b) Hx) as [d [F _]]. cbn [app]. rewrite (fill_cons x (xs ++ J) (at_ b) [d] (at_ b) F). cbn [fst snd app]. split; auto.
      unfold rights. cbn [map]. destruct x; destruct Hx; cbn [fill1] in F; injection F as <-; destruct b; cbn [at_ right1] in *; constructor; auto.
    Qed.
    Lemma crun_joint b l a r : crun b l a r -> forall J, lefts J = l -> agrees a ->
      crun b (rights J) (fst (fill J (at_ b))) r /\ snd (fill J (at_ b)) = option_map at_ r.
    Proof.
      intros H. assert (X : forall b l a r, (forall J, settled J -> lefts J = l -> agrees a -> crun b (rights J) (fst (fill J (at_ b))) r /\ snd (fill J (at_ b)) = option_map at_ r) ->
                  forall J, lefts J = l -> agrees a -> crun b (rights J) (fst (fill J (at_ b))) r /\ snd (fill J (at_ b)) = option_map at_ r).
      { intros b0 l0 a0 r0 G J E A. destruct (settle J) as (xs & J0 & -> & Hn & Hs & E'). rewrite E' in E. destruct (G J0 Hs E A). now apply crun_new. }
      apply X.
      induction H as [b|b i t l a r H IH|b i t m l a r H IH|i cs m l a a' r H1 IH1 H2 IH2|i cs m l a H IH|i cs m l a r H IH|i cs m l a H|i l a r H IH|i l a r H IH|i l a r H IH|i l a r H IH|i l a r H IH|i l a r H IH|b i l|b i l a r H IH]; intros J S E A;
        try (rewrite (lefts_nil J S E); split; [apply cr_nil|reflexivity]);
        destruct (lefts_settled J _ l S E) as (y & J' & -> & E1 & E2); destruct y as [i0 j u|i0 j u m'|i0 j|i0 j|i0 j|i0 j ks m'|j|j|j]; try discriminate; cbn [left1] in E1;
        try (injection E1; intros; subst); try (apply agrees_cons in A as [A1 A2]; cbn [fst snd] in A1); unfold rights; cbn [map right1]; fold (rights J').
      - destruct (X _ _ _ _ IH J' eq_refl A) as [R1 R2]. rewrite (fill_cons _ J' (at_ b) [] (at_ b)) by reflexivity. cbn [fst snd app]. split; auto. now apply cr_deco.
      - destruct (X _ _ _ _ IH J' eq_refl A2) as [R1 R2].
        rewrite (fill_cons _ J' (at_ b) [((pre j, NodeInRegion), if b then DTrue else DFalse)] (at_ b)) by (cbn [fill1]; now rewrite A1). cbn [fst snd app]. split; auto. now apply cr_token.
      - apply agrees_app in A2 as [A2 A3]. destruct (X _ _ _ _ IH1 ks eq_refl A2) as [K1 K2]. destruct (X _ _ _ _ IH2 J' eq_refl A3) as [R1 R2]. cbn [at_ option_map] in *.
        rewrite (fill_cons _ J' High (((pre j, NodeInRegion), DFalse) :: fst (fill ks High)) High) by (rewrite fill_group, A1, K2; reflexivity).
        cbn [fst snd app]. split; auto. now apply cr_group.
      - destruct (X _ _ _ _ IH ks eq_refl A2) as [K1 K2]. cbn [at_ option_map] in *.
        rewrite (fill_stop _ J' High (((pre j, NodeInRegion), DFalse) :: fst (fill ks High))) by (rewrite fill_group, A1, K2; reflexivity).
        split; [|reflexivity]. cbn [fst]. now apply cr_group_exit.
      - apply agrees_app in A2 as [A2 A3]. pose proof (inside_joint ks A2) as K. destruct (X _ _ _ _ IH J' eq_refl A3) as [R1 R2]. cbn [at_] in *.
        rewrite (fill_cons _ J' Low (((pre j, NodeInRegion), DTrue) :: flat_map inside (rights ks)) Low) by (rewrite fill_group, A1, K; reflexivity).
        cbn [fst snd app]. split; auto. now apply cr_group_in.
      - destruct (inside_exits_joint _ _ H ks eq_refl A2) as [K1 K2]. cbn [at_] in *.
        rewrite (fill_stop _ J' Low (((pre j, NodeInRegion), DTrue) :: fst (fill ks Low))) by (rewrite fill_group, A1, K2; reflexivity).
        split; [|reflexivity]. cbn [fst]. now apply cr_group_in_exit.
      - destruct (X _ _ _ _ IH J' eq_refl A2) as [R1 R2]. cbn [at_] in *.
        rewrite (fill_cons _ J' High [((pre j, RegionShouldStart), DFalse)] High) by (cbn [fill1]; now rewrite A1). cbn [fst snd app]. split; auto. now apply cr_no_start.
      - destruct (X _ _ _ _ IH J' eq_refl A2) as [R1 R2]. cbn [at_] in *.
        rewrite (fill_cons _ J' High [((pre j, RegionShouldStart), DTrue)] Low) by (cbn [fill1]; now rewrite A1). cbn [fst snd app]. split; auto. now apply cr_start.
      - destruct (X _ _ _ _ IH J' eq_refl A2) as [R1 R2]. cbn [at_] in *.
        rewrite (fill_cons _ J' Low [((pre j, RegionShouldStart), DNA)] Low) by (cbn [fill1]; now rewrite A1). cbn [fst snd app]. split; auto. now apply cr_start_in.
      - destruct (X _ _ _ _ IH J' eq_refl A2) as [R1 R2]. cbn [at_] in *.
        rewrite (fill_cons _ J' Low [((pre j, RegionShouldEnd), DFalse)] Low) by (cbn [fill1]; now rewrite A1). cbn [fst snd app]. split; auto. now apply cr_no_end.
      - destruct (X _ _ _ _ IH J' eq_refl A2) as [R1 R2]. cbn [at_] in *.
        rewrite (fill_cons _ J' Low [((pre j, RegionShouldEnd), DTrue)] High) by (cbn [fill1]; now rewrite A1). cbn [fst snd app]. split; auto. now apply cr_end.
      - destruct (X _ _ _ _ IH J' eq_refl A2) as [R1 R2]. cbn [at_] in *.
        rewrite (fill_cons _ J' High [((pre j, RegionShouldEnd), DNA)] High) by (cbn [fill1]; now rewrite A1). cbn [fst snd app]. split; auto. now apply cr_end_out.
      - rewrite (fill_stop _ J' (at_ b) [((pre j, ShouldEarlyExit), DTrue)]) by (cbn [fill1]; now rewrite A1). split; [apply cr_exit|reflexivity].
      - destruct (X _ _ _ _ IH J' eq_refl A2) as [R1 R2].
        rewrite (fill_cons _ J' (at_ b) [((pre j, ShouldEarlyExit), DFalse)] (at_ b)) by (cbn [fill1]; now rewrite A1). cbn [fst snd app]. split; auto. now apply cr_no_exit.
    Qed.
    Lemma choice_joint J a : region_choice (lefts J) a -> agrees a -> region_choice (rights J) (fst (fill J High)).
    Proof.
      rewrite !crun_region_choice. intros [H|H] A; [left|right]; apply (crun_joint _ _ _ _ H J eq_refl A).
    Qed.
  End Fill.
End Joint.
