(** C85: neither the order of the samples nor how often all of them are repeated
    matters.  Specification vocabulary: [Permutation] of the standard library;
    [copies n l] below. *)

From Coq Require Import String.
From Coq Require Import List Bool Arith Lia ZArith Sorted Permutation QArith Qcanon.
From Verif Require Import Base SeqNodes Transforms PackedSeq PackedSeqProofs Numbered Graph GatedDag Convert Decisions ConstraintSpec ConstraintDag ConstraintPack Html
  PseudoParse EditDag EditSpec EditProofs EditTheorems CostDerivation SelectionDag SelectionSpec SelectionTheorems Properties_Tree Properties_Edit SystemSpec BuildSystem BuildProofs Combine CombineSpec CombineProofs CombineStats CombineTheorems
  Properties_EndToEnd UtilityBounds Properties_Bounds.
Import ListNotations.
Close Scope string_scope. Close Scope Qc_scope. Close Scope Q_scope. Close Scope Z_scope. Open Scope nat_scope. Open Scope list_scope.

(** [n] copies of a list, one after the other. *)
Definition copies {A} (n : nat) (l : list A) : list A := concat (repeat l n).

Lemma forall2_perm {A B} (R : A -> B -> Prop) l l' : Permutation l l' -> forall ks, Forall2 R l ks -> exists ks', Forall2 R l' ks' /\ Permutation ks ks'.
Proof.
  induction 1 as [|x l l' H IH|x y l|l l1 l2 H1 IH1 H2 IH2]; intros ks F.
  - exists ks. split; auto.
  - inversion F as [|a b c d Ha Hc]; subst. destruct (IH d Hc) as [k [H1 H2]]. exists (b :: k). split; [now apply Forall2_cons|now constructor].
  - inversion F as [|a b c d Ha Hc]; subst. inversion Hc as [|a' b' c' d' Ha' Hc']; subst. exists (b' :: b :: d'). split; [apply Forall2_cons; auto|apply perm_swap].
  - destruct (IH1 ks F) as [k1 [A1 B1]]. destruct (IH2 k1 A1) as [k2 [A2 B2]]. exists k2. split; auto. eapply perm_trans; eauto.
Qed.
Lemma average_perm ks ks' : Permutation ks ks' -> average ks = average ks'.
Proof.
  intros H. unfold average. rewrite (Permutation_length H). f_equal. induction H; cbn [fold_right]; try congruence. ring.
Qed.
Lemma average_copies n ks : 1 <= n -> average (copies n ks) = average ks.
Proof.
  intros Hn. unfold average, copies.
  change (Q2Qc (inject_Z (Z.of_nat (length (concat (repeat ks n)))))) with (number (length (concat (repeat ks n)))). change (Q2Qc (inject_Z (Z.of_nat (length ks)))) with (number (length ks)).
  assert (A : forall a b : list Qc, fold_right Qcplus 0%Qc (a ++ b) = (fold_right Qcplus 0 a + fold_right Qcplus 0 b)%Qc).
  { induction a as [|x a IH]; intros b; cbn [app fold_right]; [|rewrite IH]; ring. }
  assert (S : fold_right Qcplus 0%Qc (concat (repeat ks n)) = (number n * fold_right Qcplus 0 ks)%Qc).
  { clear Hn. induction n as [|n IH]; cbn [repeat concat]; [change (number 0) with 0%Qc; cbn [fold_right]; ring|]. rewrite A, IH. change (S n) with (1 + n). rewrite number_add. change (number 1) with 1%Qc. ring. }
  assert (L : number (length (concat (repeat ks n))) = (number n * number (length ks))%Qc).
  { clear Hn S. induction n as [|n IH]; cbn [repeat concat]; [cbn [length]; change (number 0) with 0%Qc; ring|]. rewrite app_length, number_add, IH. change (S n) with (1 + n). rewrite number_add. change (number 1) with 1%Qc. ring. }
  assert (Nz : forall k, 1 <= k -> number k <> 0%Qc).
  { intros k Hk C. assert (Pos : (0 < number k)%Qc) by (unfold number, Qclt; rewrite !Q2Qc_this; unfold inject_Z, Qlt; cbn [Qnum Qden]; lia). rewrite C in Pos. discriminate. }
  rewrite S, L. destruct ks as [|k ks]; [cbn [fold_right length]; unfold Qcdiv; ring|]. field. split; apply Nz; auto. cbn [length]. lia.
Qed.
Lemma forall2_copies {A B} (R : A -> B -> Prop) n l ks : Forall2 R l ks -> Forall2 R (copies n l) (copies n ks).
Proof. intros F. unfold copies. induction n as [|n IH]; cbn [repeat concat]; [exact (Forall2_nil _)|]. now apply Forall2_app. Qed.
Lemma copies_forall2 {A B} (R : A -> B -> Prop) n l ks : (forall a b b', R a b -> R a b' -> b = b') -> 1 <= n -> Forall2 R (copies n l) ks ->
  exists k0, Forall2 R l k0 /\ ks = copies n k0.
Proof.
  intros U Hn F. destruct n as [|n]; [lia|]. unfold copies in *. cbn [repeat concat] in *. apply Forall2_app_inv_l in F as (k0 & k1 & F0 & F1 & ->). exists k0. split; auto. f_equal.
  assert (Q : forall (x : list A) a b, Forall2 R x a -> Forall2 R x b -> a = b).
  { induction x as [|y x IH]; intros a b Fa Fb; inversion Fa; inversion Fb; subst; auto. f_equal; eauto. }
  clear Hn. revert k1 F1. induction n as [|n IH]; intros k1 F1; cbn [repeat concat] in *; [now inversion F1|].
  apply Forall2_app_inv_l in F1 as (a & b & Fa & Fb & ->). f_equal; eauto.
Qed.
Lemma least_once rel asg k k' : SystemSpec.least_cost rel asg k -> SystemSpec.least_cost rel asg k' -> k = k'.
Proof. intros [[ds [H1 H2]] H3] [[ds' [H1' H2']] H3']. apply Qcle_antisym; eauto. Qed.

Section Same.
  Context {M St In : Type} (rels : text -> Qc -> list decision -> Prop) (tree : list (lnode M)) (samples samples' : list text) (n : nat) (r r' : combine_result M St In).
  Context (Hn : 1 <= n) (Hp : Permutation samples' (copies n samples)).
  Context (W : worth_reported rels tree samples r) (W' : worth_reported rels tree samples' r').
  Lemma same_worth asg asg' : assignment_map r = Some asg -> assignment_map r' = Some asg' ->
    exists v u v' u', solution_utility r = Fin v /\ utility_dual_bound r = Fin u /\ solution_utility r' = Fin v' /\ utility_dual_bound r' = Fin u' /\
      (v <= u')%Qc /\ (v' <= u)%Qc /\ (v = u -> v' = u' -> v = v').
  Proof.
    intros Ha Ha'. destruct (W asg Ha) as [[ds [Hc Hs]] [ks [u [F [Hv [Hu [Hle Ho]]]]]]]. destruct (W' asg' Ha') as [[ds' [Hc' Hs']] [ks' [u' [F' [Hv' [Hu' [Hle' Ho']]]]]]].
    assert (B1 : (- average ks <= u')%Qc).
    { pose proof (forall2_copies _ n _ _ F) as F1. destruct (forall2_perm _ _ _ (Permutation_sym Hp) _ F1) as [k1 [F2 P2]].
      rewrite <- (average_copies n ks Hn), (average_perm _ _ P2). apply (Ho' ds); auto. eapply chosen_bounded; eauto. }
    assert (B2 : (- average ks' <= u)%Qc).
    { destruct (forall2_perm _ _ _ Hp _ F') as [k1 [F2 P2]]. apply copies_forall2 in F2 as [k0 [F0 ->]]; auto; [|intros a b b'; apply least_once].
      rewrite (average_perm _ _ P2), (average_copies n k0 Hn). apply (Ho ds'); auto. eapply chosen_bounded; eauto. }
    exists (- average ks)%Qc, u, (- average ks')%Qc, u'. splits; auto. intros E1 E2. apply Qcle_antisym; [now rewrite E2|now rewrite E1].
  Qed.
End Same.

(** ** C85.  The samples in another order, or all of them repeated equally often: each
    reported utility is at most the other bound; optimal results are worth the same. *)
Theorem C85_edit_order :
  forall (P : parameters) (low exit : bool) parse (context : text) (samples samples' : list text) (n : nat) (index index' : Z) (sample : text) trees fuel fuel' clock clock' r r' asg asg',
    1 <= n -> Permutation samples' (copies n samples) -> designates samples index sample -> designates samples' index' sample ->
    (forall s, In s samples -> reads parse (context ++ s) (trees s)) ->
    combine_samples fuel clock (edit_wrapper P low exit) parse context samples index = Some (Ok r) -> assignment_map r = Some asg ->
    combine_samples fuel' clock' (edit_wrapper P low exit) parse context samples' index' = Some (Ok r') -> assignment_map r' = Some asg' ->
    exists v u v' u', solution_utility r = Fin v /\ utility_dual_bound r = Fin u /\ solution_utility r' = Fin v' /\ utility_dual_bound r' = Fin u' /\
      (v <= u')%Qc /\ (v' <= u)%Qc /\ (v = u -> v' = u' -> v = v').
Proof.
  intros P low exit parse context samples samples' n index index' sample trees fuel fuel' clock clock' r r' asg asg' Hn Hp Hs Hs' Hread H Ha H' Ha'.
  assert (Hread' : forall s, In s samples' -> reads parse (context ++ s) (trees s)).
  { intros s Hin. apply Hread. apply (Permutation_in s Hp) in Hin. unfold copies in Hin. apply in_concat in Hin as [l [Hl Hin]]. apply repeat_spec in Hl. now subst l. }
  eapply same_worth; eauto; [eapply (C60_edit_utility P low exit parse context samples index)|eapply (C60_edit_utility P low exit parse context samples' index')]; eauto.
Qed.
Theorem C85_call_order :
  forall (isspace : nat -> bool) (builtin : list text) (U : text -> text -> utilities) parse (context : text) (samples samples' : list text) (n : nat) (index index' : Z) (sample : text) trees
         fuel fuel' clock clock' r r' asg asg',
    1 <= n -> Permutation samples' (copies n samples) -> designates samples index sample -> designates samples' index' sample ->
    (forall s, In s samples -> reads parse (context ++ s) (trees s)) ->
    combine_samples fuel clock (call_wrapper isspace builtin U) parse context samples index = Some (Ok r) -> assignment_map r = Some asg ->
    combine_samples fuel' clock' (call_wrapper isspace builtin U) parse context samples' index' = Some (Ok r') -> assignment_map r' = Some asg' ->
    exists v u v' u', solution_utility r = Fin v /\ utility_dual_bound r = Fin u /\ solution_utility r' = Fin v' /\ utility_dual_bound r' = Fin u' /\
      (v <= u')%Qc /\ (v' <= u)%Qc /\ (v = u -> v' = u' -> v = v').
Proof.
  intros isspace builtin U parse context samples samples' n index index' sample trees fuel fuel' clock clock' r r' asg asg' Hn Hp Hs Hs' Hread H Ha H' Ha'.
  assert (Hread' : forall s, In s samples' -> reads parse (context ++ s) (trees s)).
  { intros s Hin. apply Hread. apply (Permutation_in s Hp) in Hin. unfold copies in Hin. apply in_concat in Hin as [l [Hl Hin]]. apply repeat_spec in Hl. now subst l. }
  eapply same_worth; eauto; [eapply (C60_call_utility isspace builtin U parse context samples index)|eapply (C60_call_utility isspace builtin U parse context samples' index')]; eauto.
Qed.

(** The samples "ab" and "ac", exchanged, and each of them twice. *)
Example C85_example :
  let run samples index := match combine_samples 100 (fun _ => false) (edit_wrapper ex_derived false false) letters (chars "x") samples index with
    | Some (Ok r) => match assignment_map r with Some _ => Some (solution_utility r, utility_dual_bound r) | None => None end | _ => None end in
  let v := Some (Fin (Q2Qc (-3 # 2)), Fin (Q2Qc (-3 # 2))) in
  run [chars "ab"; chars "ac"] 0%Z = v /\ run [chars "ac"; chars "ab"] 1%Z = v /\ run [chars "ab"; chars "ac"; chars "ac"; chars "ab"] (-1)%Z = v.
Proof. vm_compute. repeat split. Qed.
Example C85_hypotheses :
  Permutation [chars "ab"; chars "ac"; chars "ac"; chars "ab"] (copies 2 [chars "ab"; chars "ac"]) /\
  designates [chars "ab"; chars "ac"; chars "ac"; chars "ab"] (-1) (chars "ab") /\ designates [chars "ab"; chars "ac"] 0 (chars "ab") /\
  (forall s, In s [chars "ab"; chars "ac"] -> reads letters (chars "x" ++ s) (letter_tree (chars "x") s)).
Proof.
  splits.
  - cbn. do 2 apply perm_skip. apply perm_swap.
  - exists 3. split; auto.
  - exists 0. split; auto.
  - intros s Hs. cbn in Hs. destruct Hs as [<-|[<-|[]]]; repeat split; repeat constructor.
Qed.
Print Assumptions C85_edit_order.
Print Assumptions C85_call_order.
