(** The baselines of the call-sequence wrapper: they fit one choice of regions and
    show what CallSpec.v says. *)

From Coq Require Import String.
From Coq Require Import List Bool Arith Lia ZArith Sorting.Sorted.
From Verif Require Import Base SeqNodes Transforms PackedSeq PackedSeqProofs Numbered Decisions ConstraintSpec ConstraintProofs ConstraintPack
  RegionDecisions RegionProofs PrefixBaselines PrefixProofs PrefixTheorems Html CallSequence CallSpec CallProofs.
Import ListNotations.
Close Scope string_scope. Close Scope Z_scope. Open Scope nat_scope. Open Scope list_scope.

Notation L := (lnode text).

Definition is_regional (d : decision) : bool :=
  match snd (fst d) with RegionShouldStart | RegionShouldEnd => true | _ => false end.
Definition regional (ds : list decision) : list decision := filter is_regional ds.
Lemma regional_app a b : regional (a ++ b) = regional a ++ regional b.
Proof. unfold regional. apply filter_app. Qed.
Lemma regional_cons d l : regional (d :: l) = if is_regional d then d :: regional l else regional l.
Proof. reflexivity. Qed.
Definition put_all (asg : assignments) (ds : list decision) : assignments := fold_left (fun a d => put (fst d) (snd d) a) ds asg.
Lemma regional_rs k v l : regional (((k, RegionShouldStart), v) :: l) = ((k, RegionShouldStart), v) :: regional l.
Proof. reflexivity. Qed.
Lemma regional_re k v l : regional (((k, RegionShouldEnd), v) :: l) = ((k, RegionShouldEnd), v) :: regional l.
Proof. reflexivity. Qed.
Lemma put_all_cons asg k v ds : put_all asg ((k, v) :: ds) = put_all (put k v asg) ds.
Proof. reflexivity. Qed.
Lemma put_all_app asg a b : put_all asg (a ++ b) = put_all (put_all asg a) b.
Proof. apply fold_left_app. Qed.
Lemma put_all_new ds : forall asg, NoDup (map fst (asg ++ ds)) -> put_all asg ds = asg ++ ds.
Proof.
  induction ds as [|[k v] ds IH]; intros asg H; cbn; [now rewrite app_nil_r|]. rewrite put_new.
  - fold (put_all (asg ++ [(k, v)]) ds). rewrite IH; rewrite <- app_assoc; auto.
  - rewrite map_app in H. apply NoDup_remove_2 in H. rewrite in_app_iff in H. auto.
Qed.

Definition flat (x : L) : Prop := match x with LGroup _ _ _ | LExit _ => False | _ => True end.
Definition flags (l : list L) : list nat := flat_map (fun x => match x with LStart i | LEnd i => [pre i] | _ => [] end) l.
Definition quiet (I : list nat) (l : list L) : Prop := forall k, In k (flags l) -> ~ In k I.
Lemma flags_cons x l : flags (x :: l) = match x with LStart i | LEnd i => [pre i] | _ => [] end ++ flags l.
Proof. reflexivity. Qed.
Lemma flags_app a b : flags (a ++ b) = flags a ++ flags b.
Proof. apply flat_map_app. Qed.
Lemma quiet_app I a b : quiet I (a ++ b) <-> quiet I a /\ quiet I b.
Proof.
  unfold quiet. rewrite flags_app. split; [intros H; split; intros k Hk; apply H, in_or_app; auto|].
  intros [A B] k Hk. apply in_app_iff in Hk as [Hk|Hk]; auto.
Qed.
Lemma quiet_cons I x l : quiet I (x :: l) <-> quiet I [x] /\ quiet I l.
Proof. apply (quiet_app I [x] l). Qed.

Definition shown_part (b : bool) (x : L) : list part := match text_in x with Some t => [(t, b)] | None => [] end.
Definition parts (b : bool) (l : list L) : list part := flat_map (shown_part b) l.

(** A tree of depth two in which exactly the region starts and ends in [I] are
    taken, with its decisions and what it shows. *)
Inductive picked (I : list nat) : list L -> list decision -> list part -> Prop :=
| pk_nil : picked I [] [] []
| pk_deco i t l ds ps : picked I l ds ps -> picked I (LDeco i t :: l) ds ((t, false) :: ps)
| pk_none i cs m l ds ps : Forall flat cs -> quiet I cs -> picked I l ds ps ->
    picked I (LGroup i cs m :: l) (((pre i, NodeInRegion), DFalse) :: stop_at cs ++ ds) (parts false cs ++ ps)
| pk_some i a s mid e z m l ds ps : Forall flat a -> Forall flat mid -> Forall flat z ->
    quiet I a -> quiet I mid -> quiet I z -> In (pre s) I -> In (pre e) I -> parts true mid <> [] -> picked I l ds ps ->
    picked I (LGroup i (a ++ LStart s :: mid ++ LEnd e :: z) m :: l)
      (((pre i, NodeInRegion), DFalse) ::
       (stop_at a ++ ((pre s, RegionShouldStart), DTrue) :: flat_map inside mid ++ ((pre e, RegionShouldEnd), DTrue) :: stop_at z) ++ ds)
      ((parts false a ++ parts true mid ++ parts false z) ++ ps).

Lemma flat_nodes l : Forall flat l -> flat_map nodes l = l.
Proof.
  induction 1 as [|x l Hx HF IH]; auto. cbn [flat_map]. rewrite IH. destruct x; auto. destruct Hx.
Qed.
Lemma flat_chosen l : Forall flat l -> chosen l (stop_at l).
Proof. intros H. rewrite <- (flat_nodes l H) at 2. rewrite stop_at_none. apply no_regions_chosen. Qed.
Lemma picked_chosen I l ds ps : picked I l ds ps -> chosen l ds.
Proof.
  induction 1; try (constructor; auto; fail).
  - constructor; auto. now apply flat_chosen.
  - constructor; auto. apply chosen_app; [now apply flat_chosen|]. constructor. now apply flat_chosen.
Qed.

Section Loop.
  Variable S : storage text.
  Variable I : list nat.
  Lemma mem_no k : ~ In k I -> mem k I = false.
  Proof. apply mem_false_iff. Qed.
  Lemma mem_yes k : In k I -> mem k I = true.
  Proof. apply mem_true_iff. Qed.
  Lemma loop_quiet (b : bool) l : Forall flat l -> quiet I l -> Forall (placed S) l -> forall seen asg ids,
    suggestion_loop I b seen asg (map label l ++ ids) =
    suggestion_loop I b (rev (flags l) ++ seen) (put_all asg (regional (if b then flat_map inside l else stop_at l))) ids.
  Proof.
    induction 1 as [|x l Hx HF IH]; intros Hq Hp seen asg ids; [now destruct b|].
    apply quiet_cons in Hq as [Hq1 Hq2]. inversion Hp as [|? ? Px Pl]; subst. specialize (IH Hq2 Pl).
    apply placed_inv in Px. cbn [map app suggestion_loop].
    destruct x as [i t|i t m|i|i|i|i cs m]; try contradiction; cbn [label].
    - destruct Px as [-> _]. rewrite IH. destruct b; reflexivity.
    - destruct Px as [-> _]. rewrite IH. destruct b; reflexivity.
    - rewrite Px, (mem_no (pre i)) by (apply Hq1; now left). rewrite IH, flags_cons. cbn [app rev].
      rewrite <- app_assoc. destruct b; reflexivity.
    - rewrite Px, (mem_no (pre i)) by (apply Hq1; now left). rewrite IH, flags_cons. cbn [app rev].
      rewrite <- app_assoc. destruct b; reflexivity.
  Qed.
  Lemma loop_picked l ds ps : picked I l ds ps -> Forall (placed S) l -> forall seen asg ids,
    suggestion_loop I false seen asg (map label (flat_map nodes l) ++ ids) =
    suggestion_loop I false (rev (flags (flat_map nodes l)) ++ seen) (put_all asg (regional ds)) ids.
  Proof.
    induction 1 as [|i t l ds ps H IH|i cs m l ds ps F Q H IH|i a s mid e z m l ds ps F1 F2 F3 Q1 Q2 Q3 I1 I2 Ne H IH];
      intros Hp seen asg ids; auto; inversion Hp as [|? ? Px Pl]; subst; specialize (IH Pl); apply placed_inv in Px.
    - destruct Px as [C _]. cbn [flat_map nodes map app label suggestion_loop]. rewrite C. apply IH.
    - destruct Px as (C & _ & Pc). cbn [flat_map nodes]. rewrite (flat_nodes cs F). cbn [map app label suggestion_loop]. rewrite C.
      rewrite map_app, <- app_assoc, (loop_quiet false cs F Q Pc), IH.
      rewrite flags_cons. cbn [app]. rewrite flags_app, rev_app_distr, <- app_assoc.
      change (regional (_ :: stop_at cs ++ ds)) with (regional (stop_at cs ++ ds)). now rewrite regional_app, put_all_app.
    - destruct Px as (C & _ & Pc). apply Forall_app in Pc as [P1 Pc]. inversion Pc as [|? ? Ps Pc']; subst.
      apply Forall_app in Pc' as [P2 Pc']. inversion Pc' as [|? ? Pe P3]; subst. apply placed_inv in Ps, Pe.
      assert (F : Forall flat (a ++ LStart s :: mid ++ LEnd e :: z)).
      { apply Forall_app. split; auto. constructor; [exact Logic.I|]. apply Forall_app. split; auto. constructor; [exact Logic.I|auto]. }
      cbn [flat_map nodes]. rewrite (flat_nodes _ F). cbn [map app label suggestion_loop]. rewrite C.
      rewrite !map_app, <- !app_assoc. rewrite (loop_quiet false a F1 Q1 P1). cbn [map app label suggestion_loop].
      rewrite Ps, (mem_yes _ I1). cbn [negb check bind]. rewrite !map_app, <- !app_assoc. rewrite (loop_quiet true mid F2 Q2 P2).
      cbn [map app label suggestion_loop]. rewrite Pe, (mem_yes _ I2). cbn [check bind].
      rewrite (loop_quiet false z F3 Q3 P3), IH.
      rewrite flags_cons. cbn [app]. rewrite ?flags_app, ?flags_cons. cbn [app]. rewrite ?flags_app, ?flags_cons. cbn [app].
      f_equal.
      + repeat (rewrite flags_app || rewrite rev_app_distr || rewrite <- app_assoc || cbn [rev app]). reflexivity.
      + rewrite regional_cons. cbn [is_regional fst snd].
        repeat (rewrite <- app_assoc || rewrite regional_app || rewrite regional_rs || rewrite regional_re || rewrite put_all_app || rewrite put_all_cons || cbn [app]).
        reflexivity.
  Qed.
End Loop.

(** ** What is shown. *)
Section Shown.
  Variables (asg : assignments) (marker : text).
  Notation go := (go asg marker).
  Lemma parts_cons b x l : parts b (x :: l) = shown_part b x ++ parts b l.
  Proof. reflexivity. Qed.
  Lemma go_quiet (b : bool) l : Forall flat l -> respects asg (regional (if b then flat_map inside l else stop_at l)) -> forall emp rest,
    go b emp (l ++ rest) = prepend (parts b l) (go b (match parts b l with [] => emp | _ => false end) rest).
  Proof.
    induction 1 as [|x l Hx HF IH]; intros Hr emp rest; [now rewrite prepend_nil|].
    assert (Hr2 : respects asg (regional (if b then flat_map inside l else stop_at l))).
    { destruct b; destruct x; try contradiction; cbn [flat_map inside stop_at app] in Hr; auto;
        rewrite regional_cons in Hr; cbn [is_regional fst snd] in Hr; auto; now apply respects_cons in Hr as [_ Hr]. }
    specialize (IH Hr2). rewrite parts_cons. destruct x as [i t|i t m|i|i|i|i cs m]; try contradiction; cbn [app RegionDecisions.go shown_part text_in].
    - rewrite IH, prepend_prepend. cbn [app]. now destruct (parts b l).
    - rewrite IH, prepend_prepend. cbn [app]. now destruct (parts b l).
    - assert (A : assoc (pre i, RegionShouldStart) asg = Some (if b then DNA else DFalse)).
      { apply Hr. destruct b; cbn; now left. }
      rewrite A, <- IH. now destruct b.
    - assert (A : assoc (pre i, RegionShouldEnd) asg = Some (if b then DFalse else DNA)).
      { apply Hr. destruct b; cbn; now left. }
      rewrite A, <- IH. now destruct b.
  Qed.
  Lemma go_picked I l ds ps : picked I l ds ps -> respects asg (regional ds) -> forall emp, go false emp (flat_map nodes l) = (ps, None).
  Proof.
    induction 1 as [|i t l ds ps H IH|i cs m l ds ps F Q H IH|i a s mid e z m l ds ps F1 F2 F3 Q1 Q2 Q3 I1 I2 Ne H IH]; intros Hr emp; auto.
    - cbn [flat_map nodes app RegionDecisions.go]. rewrite (IH Hr). reflexivity.
    - rewrite regional_cons in Hr. cbn [is_regional fst snd] in Hr. rewrite regional_app in Hr. apply respects_app in Hr as [R1 R2].
      cbn [flat_map nodes]. rewrite (flat_nodes cs F). cbn [app RegionDecisions.go]. rewrite (go_quiet false cs F R1), (IH R2). reflexivity.
    - rewrite regional_cons in Hr. cbn [is_regional fst snd] in Hr. rewrite regional_app in Hr. apply respects_app in Hr as [R1 R2].
      rewrite regional_app, regional_cons in R1. cbn [is_regional fst snd] in R1. rewrite regional_app, regional_cons in R1. cbn [is_regional fst snd] in R1.
      apply respects_app in R1 as [Ra R1]. apply respects_cons in R1 as [Rs R1]. apply respects_app in R1 as [Rm R1]. apply respects_cons in R1 as [Re Rz].
      assert (F : Forall flat (a ++ LStart s :: mid ++ LEnd e :: z)).
      { apply Forall_app. split; auto. constructor; [exact Logic.I|]. apply Forall_app. split; auto. constructor; [exact Logic.I|auto]. }
      cbn [flat_map nodes]. rewrite (flat_nodes _ F). cbn [app RegionDecisions.go]. rewrite <- !app_assoc. rewrite (go_quiet false a F1 Ra).
      cbn [app RegionDecisions.go]. match goal with |- context [assoc ?k asg] => replace (assoc k asg) with (Some DTrue) by (symmetry; exact Rs) end.
      rewrite <- !app_assoc, (go_quiet true mid F2 Rm). cbn [app RegionDecisions.go].
      match goal with |- context [assoc ?k asg] => replace (assoc k asg) with (Some DTrue) by (symmetry; exact Re) end. cbn [negb].
      destruct (parts true mid) as [|p pl] eqn:Ep; [now destruct Ne|]. rewrite (go_quiet false z F3 Rz), (IH R2).
      unfold prepend. cbn [fst snd app]. rewrite <- ?app_assoc. reflexivity.
  Qed.
End Shown.

(** ** One call after the other. *)
Inductive plan : list L -> list nat -> list decision -> list part -> Prop :=
| pl_nil : plan [] [] [] []
| pl_deco i t l I ds ps : plan l I ds ps -> plan (LDeco i t :: l) I ds ((t, false) :: ps)
| pl_none i cs m l I ds ps : Forall flat cs -> plan l I ds ps ->
    plan (LGroup i cs m :: l) I (((pre i, NodeInRegion), DFalse) :: stop_at cs ++ ds) (parts false cs ++ ps)
| pl_some i a s mid e z m l here I ds ps : Forall flat a -> Forall flat mid -> Forall flat z ->
    (forall k, In k here <-> k = pre s \/ k = pre e) -> parts true mid <> [] -> plan l I ds ps ->
    plan (LGroup i (a ++ LStart s :: mid ++ LEnd e :: z) m :: l) (here ++ I)
      (((pre i, NodeInRegion), DFalse) ::
       (stop_at a ++ ((pre s, RegionShouldStart), DTrue) :: flat_map inside mid ++ ((pre e, RegionShouldEnd), DTrue) :: stop_at z) ++ ds)
      ((parts false a ++ parts true mid ++ parts false z) ++ ps).

Lemma flat_lsizes l : Forall flat l -> lsizes l = length l.
Proof. induction 1 as [|x l H HF IH]; auto. rewrite lsizes_cons, IH. destruct x; auto; contradiction. Qed.
Lemma flat_numbered l : Forall flat l -> forall p, numbered p l -> forall k, In k (flags l) -> p <= k < p + length l.
Proof.
  induction 1 as [|x l H HF IH]; intros p Hn k Hk; [destruct Hk|].
  inversion Hn as [|? ? ? E1 E2 E3|? i cs m ? E1 E2 E3]; subst; [|contradiction].
  rewrite flags_cons in Hk. apply in_app_iff in Hk as [Hk|Hk].
  - destruct x; cbn in *; try contradiction; destruct Hk as [<-|[]]; unfold number; cbn; lia.
  - apply (IH _ E3) in Hk. cbn [length]. lia.
Qed.
Lemma plan_bound l I ds ps : plan l I ds ps -> forall p, numbered p l -> forall k, In k I -> p <= k.
Proof.
  induction 1 as [|i t l I ds ps H IH|i cs m l I ds ps F H IH|i a s mid e z m l here I ds ps F1 F2 F3 Hh Ne H IH];
    intros p Hn k Hk.
  - destruct Hk.
  - inversion Hn as [|? ? ? E1 E2 E3|]; subst. specialize (IH _ E3 k Hk). lia.
  - inversion Hn as [|? ? ? E1 E2 E3|? ? ? ? ? E1 E2 E3]; subst; [now destruct (E2 i cs m)|]. specialize (IH _ E3 k Hk). lia.
  - inversion Hn as [|? ? ? E1 E2 E3|? ? ? ? ? E1 E2 E3]; subst; [now destruct (E2 i (a ++ LStart s :: mid ++ LEnd e :: z) m)|].
    apply in_app_iff in Hk as [Hk|Hk]; [|specialize (IH _ E3 k Hk); lia].
    assert (F : Forall flat (a ++ LStart s :: mid ++ LEnd e :: z)).
    { apply Forall_app. split; auto. constructor; [exact Logic.I|]. apply Forall_app. split; auto. constructor; [exact Logic.I|auto]. }
    assert (K : In k (flags (a ++ LStart s :: mid ++ LEnd e :: z))).
    { rewrite flags_app, flags_cons, flags_app, flags_cons, !in_app_iff. apply Hh in Hk as [->| ->]; cbn; auto 12. }
    apply (flat_numbered _ F _ E2) in K. lia.
Qed.
Lemma plan_picked l I ds ps : plan l I ds ps -> forall p, numbered p l -> forall J, (forall k, p <= k -> (In k J <-> In k I)) -> picked J l ds ps.
Proof.
  induction 1 as [|i t l I ds ps H IH|i cs m l I ds ps F H IH|i a s mid e z m l here I ds ps F1 F2 F3 Hh Ne H IH];
    intros p Hn J HJ.
  - constructor.
  - inversion Hn as [|? ? ? E1 E2 E3|]; subst. constructor. apply (IH _ E3). intros k Hk. apply HJ. lia.
  - inversion Hn as [|? ? ? E1 E2 E3|? ? ? ? ? E1 E2 E3]; subst; [now destruct (E2 i cs m)|]. constructor; auto.
    + intros k Hk Hj. apply (flat_numbered _ F _ E2) in Hk. apply HJ in Hj; [|lia]. apply (plan_bound _ _ _ _ H _ E3) in Hj.
      rewrite (flat_lsizes _ F) in Hj. lia.
    + apply (IH _ E3). intros k Hk. apply HJ. lia.
  - inversion Hn as [|? ? ? E1 E2 E3|? ? ? ? ? E1 E2 E3]; subst; [now destruct (E2 i (a ++ LStart s :: mid ++ LEnd e :: z) m)|].
    assert (F : Forall flat (a ++ LStart s :: mid ++ LEnd e :: z)).
    { apply Forall_app. split; auto. constructor; [exact Logic.I|]. apply Forall_app. split; auto. constructor; [exact Logic.I|auto]. }
    rewrite (flat_lsizes _ F) in E3. rewrite !app_length in E3. cbn [length] in E3. rewrite app_length in E3. cbn [length] in E3.
    apply numbered_app in E2 as [Na E2]. inversion E2 as [|? ? ? Es _ E2'|]; subst.
    apply numbered_app in E2' as [Nm E2']. inversion E2' as [|? ? ? Ee _ Nz|]; subst. unfold number in Es, Ee. cbn in Es, Ee.
    rewrite (flat_lsizes _ F1) in *. rewrite (flat_lsizes _ F2) in *. unfold number in *. cbn [label pre] in *.
    assert (Q : forall l', Forall flat l' -> (forall k, In k (flags l') -> pre i < k <= pre i + (length a + S (length mid + S (length z))) /\ k <> pre s /\ k <> pre e) -> quiet J l').
    { intros l' _ Hl k Hk Hj. apply Hl in Hk as (K1 & K2 & K3). apply HJ in Hj; [|lia]. apply in_app_iff in Hj as [Hj|Hj].
      - apply Hh in Hj. lia.
      - apply (plan_bound _ _ _ _ H _ E3) in Hj. lia. }
    constructor; auto.
    + apply Q; auto. intros k Hk. apply (flat_numbered _ F1 _ Na) in Hk. lia.
    + apply Q; auto. intros k Hk. apply (flat_numbered _ F2 _ Nm) in Hk. lia.
    + apply Q; auto. intros k Hk. apply (flat_numbered _ F3 _ Nz) in Hk. lia.
    + apply HJ; [lia|]. apply in_app_iff. left. apply Hh. lia.
    + apply HJ; [lia|]. apply in_app_iff. left. apply Hh. lia.
    + apply (IH _ E3). intros k Hk. rewrite (HJ k) by lia. rewrite in_app_iff. split; auto. intros [Hj|Hj]; auto.
      apply Hh in Hj. lia.
Qed.
Lemma plan_flags l I ds ps : plan l I ds ps -> forall k, In k I -> In k (flags (flat_map nodes l)).
Proof.
  induction 1 as [|i t l I ds ps H IH|i cs m l I ds ps F H IH|i a s mid e z m l here I ds ps F1 F2 F3 Hh Ne H IH]; intros k Hk; auto.
  - cbn [flat_map]. rewrite flags_app, in_app_iff. auto.
  - cbn [flat_map]. rewrite flags_app, in_app_iff. apply in_app_iff in Hk as [Hk|Hk]; auto. left.
    assert (F : Forall flat (a ++ LStart s :: mid ++ LEnd e :: z)).
    { apply Forall_app. split; auto. constructor; [exact Logic.I|]. apply Forall_app. split; auto. constructor; [exact Logic.I|auto]. }
    cbn [nodes]. rewrite (flat_nodes _ F). rewrite flags_cons, flags_app, flags_cons, flags_app, flags_cons, !in_app_iff.
    apply Hh in Hk as [->| ->]; cbn; auto 12.
Qed.

(** The suggestion made from such indices. *)
Lemma positions_nodup (ds : list decision) : StronglySorted lt (positions ds) -> NoDup (map fst ds).
Proof.
  unfold positions. induction ds as [|d ds IH]; intros Sd; cbn in *; [constructor|]. inversion Sd as [|? ? S1 F]; subst. constructor; auto.
  intros Hi. apply in_map_iff in Hi as (d' & E & Hd). rewrite Forall_forall in F.
  assert (Hp : In (fst (fst d')) (map (fun a : decision => fst (fst a)) ds)) by (apply in_map_iff; eauto). apply F in Hp. rewrite E in Hp. exact (Nat.lt_irrefl _ Hp).
Qed.
Lemma nodup_filter {A B} (f : A -> B) p l : NoDup (map f l) -> NoDup (map f (filter p l)).
Proof.
  induction l as [|x l IH]; intros H; cbn; auto. inversion H as [|? ? H1 H2]; subst. destruct (p x); cbn; auto. constructor; auto.
  intros Hi. apply H1. apply in_map_iff in Hi as (y & E & Hy). apply filter_In in Hy as [Hy _]. apply in_map_iff. eauto.
Qed.
Lemma nodup_assoc (ds : list decision) : NoDup (map fst ds) -> forall k v, In (k, v) ds -> assoc k ds = Some v.
Proof.
  induction ds as [|[k' v'] ds IH]; intros H k v Hi; [destruct Hi|]. inversion H as [|? ? H1 H2]; subst. cbn [assoc].
  destruct Hi as [Hi|Hi]; [injection Hi as -> ->; now rewrite eqb_refl|]. destruct (eqb k k') eqn:E; auto.
  apply eqb_eq in E. subst k'. destruct H1. apply in_map_iff. exists (k, v). auto.
Qed.
Theorem suggestion_plan (P : list N) I ds ps : plan (labelled P) I ds ps ->
  exists asg, make_suggestion (pack P) I = Ok asg /\
    (exists ds, region_choice (labelled P) ds /\ satisfies_constraints asg ds) /\
    (forall marker, extract_sequence_with_regions (pack P) asg marker = (ps, None)).
Proof.
  intros H. pose proof (labelled_numbered P) as Hn.
  assert (Hp : picked I (labelled P) ds ps) by (eapply plan_picked; eauto; intros; reflexivity).
  pose proof (picked_chosen _ _ _ _ Hp) as Hc. pose proof (choice_increasing _ _ Hn (or_introl Hc)) as Sd.
  exists (regional ds). splits.
  - unfold make_suggestion. rewrite preorder_labels. pose proof (loop_picked (pack P) I _ _ _ Hp (pack_placed P) [] [] []) as E.
    rewrite !app_nil_r in E. rewrite E. cbn [suggestion_loop bind snd fst].
    rewrite put_all_new by (apply nodup_filter, positions_nodup, Sd). cbn [app].
    replace (forallb (fun k : nat => mem k (rev (flags (flat_map nodes (labelled P))))) I) with true; [reflexivity|].
    symmetry. apply forallb_forall. intros k Hk. apply mem_true_iff. apply -> in_rev. eapply plan_flags; eauto.
  - exists ds. split; [now left|]. intros k v Hk. apply filter_In in Hk as [Hk _]. unfold ConvertPaths.value_of.
    now rewrite (sorted_assoc _ Sd k v Hk).
  - intros marker. rewrite extract_pack. eapply go_picked; [exact Hp|]. intros k v Hk.
    apply nodup_assoc; auto. apply nodup_filter, positions_nodup, Sd.
Qed.

(** ** Which indices one call contributes. *)
Definition no_deco (l : list L) : Prop := forall i t, ~ In (LDeco i t) l.
Definition no_start (l : list L) : Prop := forall i, ~ In (LStart i) l.
Definition novel_in (l : list L) : Prop := exists i t, In (LToken i t NOVEL) l.
Definition first_start (prev : option nat) (q : list L) : Prop :=
  match prev with
  | None => no_start q
  | Some s => exists q1 i q2, q = q1 ++ LStart i :: q2 /\ no_start q1 /\ pre i = s
  end.
Lemma first_start_head prev i q : first_start prev (LStart i :: q) -> prev = Some (pre i).
Proof.
  destruct prev as [s|]; cbn.
  - intros (q1 & j & q2 & E & H & <-). destruct q1 as [|y q1]; cbn in E; inversion E; subst; auto. now destruct (H i (or_introl eq_refl)).
  - intros H. now destruct (H i (or_introl eq_refl)).
Qed.
Lemma first_start_skip prev x q : (forall i, x <> LStart i) -> first_start prev q -> first_start prev (x :: q).
Proof.
  intros Hx. destruct prev as [s|]; cbn.
  - intros (q1 & j & q2 & -> & H & E). exists (x :: q1), j, q2. splits; auto. intros i [Hi|Hi]; [now apply (Hx i)|now apply (H i)].
  - intros H i [Hi|Hi]; [now apply (Hx i)|now apply (H i)].
Qed.
Lemma shorter_spec S (p : list L) : forall q prev (saw : bool), Forall (placed S) p ->
  (forall a i t b, p ++ q = a ++ LDeco i t :: b -> exists j b', b = LStart j :: b') ->
  (exists j b', p ++ q = LStart j :: b') -> no_deco q -> (saw = true <-> novel_in q) -> first_start prev q ->
  exists a i m saw', p ++ q = a ++ LStart i :: m /\ no_deco m /\ (a = [] \/ exists a' j t, a = a' ++ [LDeco j t]) /\
    (saw' = true <-> novel_in m) /\ shorter_loop S prev saw (map label (rev p)) = Ok (pre i, saw').
Proof.
  induction p as [|x p IH] using rev_ind; intros q prev saw Hp Hd Hs Nd Hsaw Hf.
  - destruct Hs as (j & b' & E). cbn in E. subst q. apply first_start_head in Hf. subst prev.
    exists [], j, b', saw. splits; auto.
    + intros i t Hi. apply (Nd i t). now right.
    + rewrite Hsaw. unfold novel_in. split; intros (i & t & Hi); exists i, t; [destruct Hi; [discriminate|auto]|now right].
  - apply Forall_app in Hp as [Hp Hx]. inversion Hx as [|? ? Px _]; subst. rewrite <- app_assoc in *. cbn [app] in *.
    rewrite rev_app_distr. cbn [rev app map shorter_loop]. apply placed_inv in Px.
    destruct x as [i t|i t m|i|i|i|i cs m]; cbn [label].
    + destruct Px as [-> _]. destruct (Hd p i t q eq_refl) as (j & b' & ->). apply first_start_head in Hf. subst prev.
      exists (p ++ [LDeco i t]), j, b', saw. rewrite <- app_assoc. splits; auto.
      * intros i' t' Hi. apply (Nd i' t'). now right.
      * right. exists p, i, t. auto.
      * rewrite Hsaw. unfold novel_in. split; intros (i' & t' & Hi); exists i', t'; [destruct Hi; [discriminate|auto]|now right].
    + destruct Px as [-> ->]. cbn [bind snd]. apply IH; auto.
      * intros i' t' [Hi|Hi]; [discriminate|now apply (Nd i' t')].
      * destruct (eqb m NOVEL) eqn:E.
        -- apply eqb_eq in E. subst m. split; auto. intros _. exists i, t. now left.
        -- rewrite Hsaw. unfold novel_in. split; intros (i' & t' & Hi); exists i', t'; [now right|]. destruct Hi as [Hi|Hi]; auto.
           inversion Hi; subst. rewrite eqb_refl in E. discriminate.
      * apply first_start_skip; auto. discriminate.
    + rewrite Px. apply IH; auto.
      * intros i' t' [Hi|Hi]; [discriminate|now apply (Nd i' t')].
      * rewrite Hsaw. unfold novel_in. split; intros (i' & t' & Hi); exists i', t'; [now right|]. destruct Hi as [Hi|Hi]; auto. discriminate.
      * exists [], i, q. splits; auto. intros i' [].
    + rewrite Px. apply IH; auto.
      * intros i' t' [Hi|Hi]; [discriminate|now apply (Nd i' t')].
      * rewrite Hsaw. unfold novel_in. split; intros (i' & t' & Hi); exists i', t'; [now right|]. destruct Hi as [Hi|Hi]; auto. discriminate.
      * apply first_start_skip; auto. discriminate.
    + rewrite Px. apply IH; auto.
      * intros i' t' [Hi|Hi]; [discriminate|now apply (Nd i' t')].
      * rewrite Hsaw. unfold novel_in. split; intros (i' & t' & Hi); exists i', t'; [now right|]. destruct Hi as [Hi|Hi]; auto. discriminate.
      * apply first_start_skip; auto. discriminate.
    + destruct Px as [-> _]. apply IH; auto.
      * intros i' t' [Hi|Hi]; [discriminate|now apply (Nd i' t')].
      * rewrite Hsaw. unfold novel_in. split; intros (i' & t' & Hi); exists i', t'; [now right|]. destruct Hi as [Hi|Hi]; auto. discriminate.
      * apply first_start_skip; auto. discriminate.
Qed.

Section Calls.
  Variables (isspace : nat -> bool) (expected : list text).
  (** The decorations of a call are white space. *)
  Definition white_decos (k : call) : Prop := forall t, In (Deco t) (callee k) -> white isspace t.
  Notation marked := (marked isspace expected).
  Notation marked_call := (marked_call isspace expected).

  Lemma marked_followed l o : marked l o -> (forall t, In (Deco t) l -> white isspace t) -> forall tail, (forall t, ~ In (Deco t) tail) ->
    forall a t b, o ++ tail = a ++ Deco t :: b -> exists b', b = RegionStart :: b'.
  Proof.
    assert (K : forall (n : N) o a t b, (forall t, n <> Deco t) -> n :: o = a ++ Deco t :: b -> exists a', o = a' ++ Deco t :: b).
    { intros n o' a t b Hn E. destruct a as [|n' a]; inversion E; subst; eauto. now destruct (Hn t). }
    induction 1; intros Hw tail Ht a t' b E; cbn [app] in E.
    - exfalso. apply (Ht t'). rewrite E. apply in_or_app. right. now left.
    - apply K in E as (a' & E); [|discriminate]. apply K in E as (a'' & E); [|discriminate].
      eapply IHmarked; eauto. intros t Hi. apply Hw. now right.
    - apply K in E as (a' & E); [|discriminate]. eapply IHmarked; eauto. intros t0 Hi. apply Hw. now right.
    - apply K in E as (a' & E); [|discriminate]. eapply IHmarked; eauto. intros t0 Hi. apply Hw. now right.
    - destruct a as [|n a]; inversion E; subst; [eauto|]. match goal with X : RegionStart :: _ = _ |- _ => apply K in X as (a' & X); [|discriminate]; eapply IHmarked; eauto end.
      intros t0 Hi. apply Hw. now right.
    - destruct H. apply Hw. now left.
    - eapply IHmarked; eauto. intros t0 Hi. apply Hw. now right.
    - eapply IHmarked; eauto. intros t0 Hi. apply Hw. now right.
    - eapply IHmarked; eauto. intros t0 Hi. apply Hw. now right.
  Qed.
  Definition flat_node (n : N) : Prop := match n with Group _ _ | EarlyExit => False | _ => True end.
  Lemma marked_flat l o : marked l o -> Forall flat_node o.
  Proof. induction 1; repeat constructor; auto. Qed.
  Lemma erase_flat l : Forall flat_node (map erase l) -> Forall flat l.
  Proof.
    induction l as [|x l IH]; cbn; intros H; constructor; inversion H; subst; auto. destruct x; auto.
  Qed.
  Lemma parts_erase b l : parts b l = flat_map (part_of b) (map erase l).
  Proof.
    induction l as [|x l IH]; auto. cbn [map flat_map]. rewrite parts_cons, IH. f_equal. destruct x; reflexivity.
  Qed.
  Lemma parts_app b l l' : parts b (l ++ l') = parts b l ++ parts b l'.
  Proof. apply flat_map_app. Qed.

  (** What a call contributes to a list of indices. *)
  Definition contributes (cs : list L) (here : list nat) (ps : list part) : Prop :=
    (exists a s mid e z, cs = a ++ LStart s :: mid ++ LEnd e :: z /\ (forall k, In k here <-> k = pre s \/ k = pre e) /\
       parts true mid <> [] /\ ps = parts false a ++ parts true mid ++ parts false z) \/
    (here = [] /\ ps = parts false cs).
  Lemma contributes_plan cs here ps i m l I ds out : Forall flat cs -> contributes cs here ps -> plan l I ds out ->
    exists ds', plan (LGroup i cs m :: l) (here ++ I) ds' (ps ++ out).
  Proof.
    intros F [(a & s & mid & e & z & -> & Hh & Ne & ->)|[-> ->]] Hp.
    - apply Forall_app in F as [F1 F]. inversion F as [|? ? _ F']; subst. apply Forall_app in F' as [F2 F']. inversion F' as [|? ? _ F3]; subst.
      eexists. apply pl_some; eauto.
    - eexists. cbn [app]. eapply pl_none; eauto.
  Qed.

  Lemma mark_call_spec S (cs : list L) k seq : map erase cs = seq -> marked_call k seq -> white_decos k -> Forall (placed S) cs ->
    Forall flat cs /\ exists marks p1 p2 p3, mark_call S (map label cs) = Ok marks /\
      contributes cs (cm_full marks) p1 /\ shows_full seq p1 /\
      contributes cs (cm_shorter marks) p2 /\ shows_short seq p2 /\
      contributes cs (cm_novel marks) p3 /\ shows_novel seq p3.
  Proof.
    intros Ecs (body & at' & Hm & Eseq & _) Hw Hp.
    assert (F : Forall flat cs).
    { apply erase_flat. rewrite Ecs, Eseq. constructor; [exact I|]. apply Forall_app. split; [now apply marked_flat in Hm|]. repeat constructor. }
    split; auto. pose proof Ecs as Ecs'. rewrite Eseq in Ecs. destruct cs as [|x0 cs]; [discriminate|]. cbn [map] in Ecs. injection Ecs as E0 Ecs.
    apply map_eq_app in Ecs as (bl & tl & -> & Eb & Et). destruct tl as [|k5 [|k4 [|k3 [|k2 [|k1 [|? ?]]]]]]; try discriminate Et.
    cbn [map] in Et. injection Et as E5 E4 E3 E2 E1.
    destruct x0 as [| |i0| | |]; try discriminate E0. destruct k5 as [|i5 t5 m5| | | |]; try discriminate E5.
    destruct k4 as [| | |i4| |]; try discriminate E4. destruct k3 as [|i3 t3 m3| | | |]; try discriminate E3.
    destruct k2 as [|i2 t2 m2| | | |]; try discriminate E2. destruct k1 as [| | |i1| |]; try discriminate E1. clear E0 E4 E1.
    cbn [erase] in E5, E3, E2.
    assert (X5 : t5 = chars "(" /\ m5 = chars "START_CALL") by now inversion E5. assert (X3 : t3 = render_node (arguments k) /\ m3 = at') by now inversion E3.
    assert (X2 : t2 = chars ")" /\ m2 = chars "END_CALL") by now inversion E2. clear E5 E3 E2.
    destruct X5 as [-> ->]. destruct X3 as [-> ->]. destruct X2 as [-> ->].
    assert (Hp0 := Hp). change (LStart i0 :: bl ++ ?r) with ((LStart i0 :: bl) ++ r) in Hp. apply Forall_app in Hp as [Pb Pt].
    inversion Pb as [|? ? P0 Pb']; subst. inversion Pt as [|? ? P5 Pt1]; subst. inversion Pt1 as [|? ? P4 Pt2]; subst.
    inversion Pt2 as [|? ? P3 Pt3]; subst. inversion Pt3 as [|? ? P2 Pt4]; subst. inversion Pt4 as [|? ? P1 _]; subst.
    pose proof (placed_inv _ _ P0) as C0. pose proof (placed_inv _ _ P4) as C4. pose proof (placed_inv _ _ P3) as [C3 _].
    pose proof (placed_inv _ _ P2) as [C2 _]. pose proof (placed_inv _ _ P1) as C1. cbn in C0, C4, C1.
    set (p := LStart i0 :: bl ++ [LToken i5 (chars "(") (chars "START_CALL")]).
    assert (Ep : LStart i0 :: bl ++ [LToken i5 (chars "(") (chars "START_CALL"); LEnd i4; LToken i3 (render_node (arguments k)) at'; LToken i2 (chars ")") (chars "END_CALL"); LEnd i1]
      = p ++ [LEnd i4; LToken i3 (render_node (arguments k)) at'; LToken i2 (chars ")") (chars "END_CALL"); LEnd i1]).
    { unfold p. cbn [app]. rewrite <- app_assoc. reflexivity. }
    assert (Pp : Forall (placed S) p).
    { unfold p. constructor; auto. apply Forall_app. split; auto. }
    destruct (shorter_spec S p [] None false) as (a & i & m & saw & Ea & Nd & Hend & Hsaw & Hloop); auto.
    { intros a i t b E. rewrite app_nil_r in E. unfold p in E. apply (f_equal (map erase)) in E. cbn [map] in E.
      rewrite !map_app in E. cbn [map erase] in E. destruct a as [|x a]; cbn [map app] in E; [discriminate|]. injection E as _ E.
      eapply marked_followed in E as (b' & E'); eauto.
      - destruct b as [|y b]; [discriminate|]. destruct y; try discriminate E'. eauto.
      - intros t' [X|[]]. discriminate. }
    { unfold p. eexists _, _. rewrite app_nil_r. reflexivity. }
    { intros ? ? []. }
    { split; [discriminate|]. intros (? & ? & []). }
    { intros ? []. }
    rewrite app_nil_r in Ea.
    assert (Hm' : exists m', m = m' ++ [LToken i5 (chars "(") (chars "START_CALL")]).
    { destruct m as [|y m _] using rev_ind.
      - unfold p in Ea. change (LStart i0 :: bl ++ ?r) with ((LStart i0 :: bl) ++ r) in Ea. apply app_inj_tail in Ea as [_ Ea]. discriminate.
      - exists m. unfold p in Ea. change (LStart i0 :: bl ++ ?r) with ((LStart i0 :: bl) ++ r) in Ea.
        change (LStart i :: m ++ [y]) with ((LStart i :: m) ++ [y]) in Ea. rewrite app_assoc in Ea. apply app_inj_tail in Ea as [_ ->]. reflexivity. }
    exists (mkMarks [pre i1; pre i0] [pre i; pre i4] (if saw then [pre i; pre i4] else [])).
    set (cs := LStart i0 :: bl ++ [LToken i5 (chars "(") (chars "START_CALL"); LEnd i4; LToken i3 (render_node (arguments k)) at'; LToken i2 (chars ")") (chars "END_CALL"); LEnd i1]) in *.
    set (z := [LToken i3 (render_node (arguments k)) at'; LToken i2 (chars ")") (chars "END_CALL"); LEnd i1]) in *.
    assert (Esplit : cs = a ++ LStart i :: m ++ LEnd i4 :: z).
    { rewrite Ep. unfold p in *. rewrite Ea, <- app_assoc. reflexivity. }
    assert (Hshort : short_region (map erase cs) (map erase a) (map erase m) (map erase z)).
    { unfold short_region. splits.
      - rewrite Esplit, map_app. cbn [map erase]. now rewrite map_app.
      - apply Forall_forall. intros n Hn (t & ->). apply in_map_iff in Hn as (y & Ey & Hy). destruct y; try discriminate Ey. now apply (Nd i6 t0).
      - destruct Hend as [->|(a' & j & t & ->)]; [now left|]. right. exists (map erase a'), t. now rewrite map_app.
      - destruct Hm' as (m' & ->). exists (map erase m'). now rewrite map_app.
      - reflexivity. }
    assert (Hnov : saw = true <-> has_novel (map erase m)).
    { rewrite Hsaw. unfold novel_in, has_novel. split.
      - intros (j & t & Hj). exists t. apply in_map_iff. eexists. split; [|exact Hj]. reflexivity.
      - intros (t & Hj). apply in_map_iff in Hj as (y & Ey & Hy). destruct y; try discriminate Ey. cbn in Ey. injection Ey as -> ->. eauto. }
    assert (Ne : parts true m <> []).
    { destruct Hm' as (m' & ->). rewrite parts_app. cbn. now destruct (parts true m'). }
    assert (Hc : contributes cs [pre i; pre i4] (parts false a ++ parts true m ++ parts false z)).
    { left. exists a, i, m, i4, z. splits; auto. intros k'. cbn. intuition. }
    match goal with |- context [shows_full ?X _] => replace X with (map erase cs) by exact Ecs' end.
    exists (parts true cs), (parts false a ++ parts true m ++ parts false z), (if saw then parts false a ++ parts true m ++ parts false z else parts false cs).
    splits.
    - unfold mark_call, from_end. rewrite <- map_rev.
      assert (R : rev cs = [LEnd i1; LToken i2 (chars ")") (chars "END_CALL"); LToken i3 (render_node (arguments k)) at'; LEnd i4] ++ rev p).
      { rewrite Ep, rev_app_distr. reflexivity. }
      rewrite R. cbn [map app nth_error Nat.sub label skipn bind]. unfold category_is. rewrite C1, C2, C3, C4. cbn [check bind].
      rewrite Hloop. cbn [bind]. unfold cs. cbn [map label]. unfold category_is. rewrite C0. cbn [check bind]. reflexivity.
    - left. exists [], i0, (bl ++ [LToken i5 (chars "(") (chars "START_CALL"); LEnd i4; LToken i3 (render_node (arguments k)) at'; LToken i2 (chars ")") (chars "END_CALL")]), i1, [].
      splits.
      + unfold cs. cbn [app]. rewrite <- app_assoc. reflexivity.
      + intros k'. cbn. intuition.
      + rewrite parts_app. cbn. now destruct (parts true bl).
      + cbn [parts flat_map app]. rewrite app_nil_r. unfold cs. rewrite parts_cons. cbn [shown_part text_in app]. rewrite !parts_app. reflexivity.
    - unfold shows_full, highlighted. apply parts_erase.
    - exact Hc.
    - exists (map erase a), (map erase m), (map erase z). split; auto. unfold outside, highlighted. now rewrite !parts_erase.
    - destruct saw; [exact Hc|]. right. auto.
    - exists (map erase a), (map erase m), (map erase z). split; auto. destruct saw.
      + left. split; [now apply Hnov|]. unfold outside, highlighted. now rewrite !parts_erase.
      + right. split; [rewrite <- Hnov; discriminate|]. apply parts_erase.
  Qed.

  Definition good (seq : list N) : Prop := exists k, marked_call k seq /\ white_decos k.
  Definition lines (seqs : list (list N)) : list N := flat_map (fun seq => [Group seq API_CALL; Deco s_newline]) seqs.
  Lemma mark_calls_spec S seqs : Forall good seqs -> forall T, map erase T = lines seqs -> Forall (placed S) T ->
    exists marks d1 p1 d2 p2 d3 p3, mark_calls S (map label T) = Ok marks /\
      plan T (cm_full marks) d1 p1 /\ shows shows_full seqs p1 /\
      plan T (cm_shorter marks) d2 p2 /\ shows shows_short seqs p2 /\
      plan T (cm_novel marks) d3 p3 /\ shows shows_novel seqs p3.
  Proof.
    induction 1 as [|seq seqs (k & Hk & Hw) HF IH]; intros T ET HT.
    - destruct T; [|discriminate]. exists (mkMarks [] [] []), [], [], [], [], [], []. splits; try constructor.
    - cbn [lines flat_map app] in ET. destruct T as [|x [|y T]]; try discriminate ET. cbn [map] in ET. injection ET as Ex Ey ET.
      inversion HT as [|? ? Px HT1]; subst. inversion HT1 as [|? ? Py HT2]; subst.
      destruct (IH T ET HT2) as (r & d1 & p1 & d2 & p2 & d3 & p3 & R & A1 & B1 & A2 & B2 & A3 & B3).
      destruct x as [| | | | |i cs m]; try discriminate Ex. cbn in Ex. injection Ex as Ecs _. destruct y as [j t| | | | |]; try discriminate Ey. cbn in Ey. injection Ey as ->.
      apply placed_inv in Px as (Cx & Lx & Pc). apply placed_inv in Py as [Cy _].
      destruct (mark_call_spec S cs k seq Ecs Hk Hw Pc) as (Fc & mk & q1 & q2 & q3 & Em & K1 & S1 & K2 & S2 & K3 & S3).
      destruct (contributes_plan cs _ _ i m _ _ _ _ Fc K1 (pl_deco j s_newline _ _ _ _ A1)) as (e1 & G1).
      destruct (contributes_plan cs _ _ i m _ _ _ _ Fc K2 (pl_deco j s_newline _ _ _ _ A2)) as (e2 & G2).
      destruct (contributes_plan cs _ _ i m _ _ _ _ Fc K3 (pl_deco j s_newline _ _ _ _ A3)) as (e3 & G3).
      exists (mkMarks (cm_full mk ++ cm_full r) (cm_shorter mk ++ cm_shorter r) (cm_novel mk ++ cm_novel r)).
      exists e1, (q1 ++ (s_newline, false) :: p1), e2, (q2 ++ (s_newline, false) :: p2), e3, (q3 ++ (s_newline, false) :: p3).
      splits; auto; try (constructor; auto; fail).
      cbn [map label mark_calls]. rewrite Cx, Lx. cbn [bind fst]. rewrite Em. cbn [bind]. rewrite Cy, R. reflexivity.
  Qed.

  (** The baseline [asg] fits an allowed choice, and showing it gives what [pick] says. *)
  Definition baseline_ok (P : list N) (pick : list N -> list part -> Prop) (seqs : list (list N)) (asg : assignments) : Prop :=
    (exists ds, region_choice (labelled P) ds /\ satisfies_constraints asg ds) /\
    exists ps, shows pick seqs ps /\ forall marker, extract_sequence_with_regions (pack P) asg marker = (ps, None).
  Theorem baselines_spec seqs : Forall good seqs -> let P := lines seqs in
    exists b, build_baseline_assignments (pack P) = Ok b /\
      baseline_ok P shows_full seqs (all_calls_full b) /\ baseline_ok P shows_short seqs (all_calls_shorter b) /\
      baseline_ok P shows_novel seqs (novel_calls_shorter b).
  Proof.
    intros H P.
    destruct (mark_calls_spec (pack P) seqs H (labelled P)) as (r & d1 & p1 & d2 & p2 & d3 & p3 & R & A1 & B1 & A2 & B2 & A3 & B3).
    { apply erase_labs. } { apply pack_placed. }
    apply suggestion_plan in A1 as (g1 & E1 & C1 & X1). apply suggestion_plan in A2 as (g2 & E2 & C2 & X2). apply suggestion_plan in A3 as (g3 & E3 & C3 & X3).
    exists (mkBaselines g1 g2 g3). splits; try (split; eauto; fail).
    unfold build_baseline_assignments. replace (root_sequence (pack P)) with (map label (labelled P)) by now rewrite pack_labelled.
    rewrite R. cbn [bind]. rewrite E1. cbn [bind]. rewrite E2. cbn [bind]. rewrite E3. reflexivity.
  Qed.
End Calls.
