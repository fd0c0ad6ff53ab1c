(** How much a selection of calls can be worth: nothing selected costs nothing, and a
    selection never gains more than all tokens on either side together. *)

From Coq Require Import String.
From Coq Require Import List Bool Arith Lia ZArith QArith Qcanon.
From Verif Require Import Base SeqNodes Transforms PackedSeq PackedSeqProofs Numbered Decisions ConstraintSpec ConstraintDag ConstraintProofs ConstraintPack EditSpec EditProofs SelectionDag SelectionSpec SelectionTheorems
  RegionDecisions Html CallSequence CallSpec CallProofs CallBaselines CallTheorems.
Import ListNotations.
Close Scope string_scope. Close Scope Qc_scope. Close Scope Q_scope. Close Scope Z_scope. Open Scope nat_scope. Open Scope list_scope.

(** ** Specification.  Tokens never lose by being found nor gain by being missed. *)
Definition tame {M} (U : text -> M -> utilities) : Prop := forall t m, (0 <= match_utility (U t m))%Qc /\ (0 <= delete_cost (U t m))%Qc.
(** What the tokens of a tree are worth when all are found, and what they cost when
    all are missed. *)
Fixpoint token_sum {M} (f : text -> M -> Qc) (n : node M) : Qc :=
  match n with
  | Token t m => f t m
  | Group cs _ => fold_right (fun c k => (token_sum f c + k)%Qc) 0%Qc cs
  | _ => 0%Qc
  end.
Definition tokens_sum {M} (f : text -> M -> Qc) (ns : list (node M)) : Qc := fold_right (fun c k => (token_sum f c + k)%Qc) 0%Qc ns.
Definition worth_if_found {M} (U : text -> M -> utilities) : list (node M) -> Qc := tokens_sum (fun t m => match_utility (U t m)).
Definition cost_if_missed {M} (U : text -> M -> utilities) : list (node M) -> Qc := tokens_sum (fun t m => delete_cost (U t m)).

Section Worth.
  Context {M : Type} (U : text -> M -> utilities).
  Notation L := (lnode M).
  Notation step := (@SelectionSpec.step M).
  Lemma total_app f (a b : list step) : total_of f (a ++ b) = (total_of f a + total_of f b)%Qc.
  Proof. unfold total_of. induction a as [|x a IH]; cbn [app fold_right]; [|rewrite IH]; ring. Qed.
  Section Sums.
    Context (f : text -> M -> Qc) (g : step -> Qc) (Hg : forall x, g x = match x with WToken _ t m => f t m | _ => 0%Qc end).
    Lemma walk_sum (x : L) : total_of g (walk x) = token_sum f (erase x).
    Proof.
      induction x as [i t|i t m|i|i|i|i cs m IH] using lnode_ind'; cbn [walk erase token_sum]; try (unfold total_of; cbn [fold_right]; rewrite ?Hg; ring).
      change (WOpen (pre i) m :: flat_map walk cs ++ [WClose (pre i) m]) with ([WOpen (pre i) m] ++ flat_map walk cs ++ [WClose (pre i) m]). rewrite !total_app.
      assert (E : total_of g (flat_map walk cs) = fold_right (fun c k => (token_sum f c + k)%Qc) 0%Qc (map erase cs)).
      { induction IH as [|c cs Hc Hcs IH]; [reflexivity|]. cbn [flat_map map fold_right]. rewrite total_app, Hc, IH. reflexivity. }
      rewrite E. unfold total_of. cbn [fold_right]. rewrite !Hg. ring.
    Qed.
    Lemma walks_sum (l : list L) : total_of g (walks l) = tokens_sum f (map erase l).
    Proof. unfold walks, tokens_sum. induction l as [|x l IH]; [reflexivity|]. cbn [flat_map map fold_right]. rewrite total_app, walk_sum, IH. reflexivity. Qed.
  End Sums.
  Lemma walks_found (l : list L) : total_of (gain U) (walks l) = worth_if_found U (map erase l).
  Proof. apply walks_sum. now intros []. Qed.
  Lemma walks_missed (l : list L) : total_of (penalty U) (walks l) = cost_if_missed U (map erase l).
  Proof. apply walks_sum. now intros []. Qed.
  Lemma tokens_sum_app f (a b : list (node M)) : tokens_sum f (a ++ b) = (tokens_sum f a + tokens_sum f b)%Qc.
  Proof. unfold tokens_sum. induction a as [|x a IH]; cbn [app fold_right]; [ring|]. rewrite IH. ring. Qed.
  Lemma strip_sum_node f (n : node M) : tokens_sum f (strip_node n) = token_sum f n.
  Proof.
    induction n as [t|t m| | | |cs m IH] using node_ind'; cbn [strip_node]; unfold tokens_sum; cbn [fold_right token_sum]; try ring.
    assert (E : tokens_sum f (flat_map strip_node cs) = tokens_sum f cs).
    { induction IH as [|c cs Hc Hcs IH]; [reflexivity|]. cbn [flat_map]. rewrite tokens_sum_app, IH, Hc. reflexivity. }
    unfold tokens_sum in E. rewrite E. ring.
  Qed.
  Lemma strip_sum f (ns : list (node M)) : tokens_sum f (strip_decision_nodes ns) = tokens_sum f ns.
  Proof.
    unfold strip_decision_nodes. induction ns as [|n ns IH]; [reflexivity|]. cbn [flat_map]. rewrite tokens_sum_app, IH, strip_sum_node. reflexivity.
  Qed.

  (** Nothing selected. *)
  Lemma leave_all (from to : list step) : Forall no_exit from -> selection U from to 0%Qc (flat_map left_out from).
  Proof. induction 1 as [|x l Hx Hl IH]; cbn [flat_map]; [apply sel_nothing|]. now apply sel_leave. Qed.
  Lemma left_out_walk (x : L) : Forall no_exit (walk x) -> flat_map left_out (walk x) = no_regions x.
  Proof.
    induction x as [i t|i t m|i|i|i|i cs m IH] using lnode_ind'; cbn [walk]; intros F; try reflexivity.
    - inversion F as [|? ? C ?]; subst. destruct C.
    - cbn [flat_map left_out no_regions app]. f_equal. inversion F as [|? ? _ F']; subst. apply Forall_app in F' as [F' _].
      rewrite flat_map_app. cbn [flat_map left_out app]. rewrite app_nil_r. clear F.
      induction IH as [|c cs Hc Hcs IH]; [reflexivity|]. cbn [flat_map] in *. apply Forall_app in F' as [F1 F2]. rewrite flat_map_app, Hc, IH; auto.
  Qed.
  Lemma left_out_walks (l : list L) : Forall no_exit (walks l) -> flat_map left_out (walks l) = flat_map no_regions l.
  Proof.
    unfold walks. induction l as [|x l IH]; intros F; [reflexivity|]. cbn [flat_map] in *. apply Forall_app in F as [F1 F2]. rewrite flat_map_app, IH, left_out_walk; auto.
  Qed.

  Section Bounds.
    Context (T : tame U).
    Lemma gain_nonneg (l : list step) : (0 <= total_of (gain U) l)%Qc.
    Proof.
      unfold total_of. induction l as [|x l IH]; cbn [fold_right]; [discriminate|].
      assert (G : (0 <= gain U x)%Qc) by (destruct x; cbn; try discriminate; apply T). qc_lra.
    Qed.
    Lemma penalty_nonneg (l : list step) : (0 <= total_of (penalty U) l)%Qc.
    Proof.
      unfold total_of. induction l as [|x l IH]; cbn [fold_right]; [discriminate|].
      assert (G : (0 <= penalty U x)%Qc) by (destruct x; cbn; try discriminate; apply T). qc_lra.
    Qed.
    Definition sight_gain (x : @sight M) : Qc := match x with Text t m => match_utility (U t m) | _ => 0%Qc end.
    Lemma gain_sights (l : list step) : total_of (gain U) l = fold_right (fun x s => (sight_gain x + s)%Qc) 0%Qc (flat_map sights l).
    Proof.
      unfold total_of. induction l as [|x l IH]; cbn [fold_right flat_map]; [reflexivity|]. rewrite IH. destruct x; cbn [gain sights app fold_right sight_gain]; ring.
    Qed.
    Lemma selection_bound (from to : list step) k ds : selection U from to k ds -> (- k <= total_of (gain U) from)%Qc /\ (- k <= total_of (gain U) to)%Qc.
    Proof.
      induction 1 as [to|x from to k ds Hx Hs [I1 I2]|i part j from gap run to k ds Hp Es Hs [I1 I2]|i part j from to k ds Hp Hs [I1 I2]].
      - pose proof (gain_nonneg to). split; [cbn; discriminate|]. qc_lra.
      - split; auto. change (x :: from) with ([x] ++ from). rewrite total_app. pose proof (gain_nonneg [x]). qc_lra.
      - change (WStart i :: part ++ WEnd j :: from) with ([WStart i] ++ part ++ [WEnd j] ++ from). rewrite !total_app.
        pose proof (gain_nonneg [WStart i]). pose proof (gain_nonneg [WEnd j]). pose proof (gain_nonneg gap).
        assert (E : total_of (gain U) part = total_of (gain U) run) by (rewrite !gain_sights; now rewrite Es).
        split; [qc_lra|]. rewrite <- E. qc_lra.
      - change (WStart i :: part ++ WEnd j :: from) with ([WStart i] ++ part ++ [WEnd j] ++ from). rewrite !total_app.
        pose proof (gain_nonneg [WStart i]). pose proof (gain_nonneg [WEnd j]). pose proof (gain_nonneg part). pose proof (penalty_nonneg part). split; qc_lra.
    Qed.
  End Bounds.
  (** More can be put in front of the target. *)
  Lemma selection_later extra (from to : list step) k ds : selection U from to k ds -> selection U from (extra ++ to) k ds.
  Proof.
    induction 1 as [to|x from to k ds Hx Hs IH|i part j from gap run to k ds Hp Es Hs IH|i part j from to k ds Hp Hs IH].
    - apply sel_nothing.
    - now apply sel_leave.
    - rewrite app_assoc. now apply sel_found.
    - now apply sel_lost.
  Qed.
  Lemma leaf_no_exit (l : list L) : Forall (fun x => match x with LGroup _ _ _ | LExit _ => False | _ => True end) l -> Forall no_exit (walks l).
  Proof. unfold walks. induction 1 as [|x l Hx Hl IH]; [constructor|]. cbn [flat_map]. apply Forall_app. split; auto. destruct x; try destruct Hx; repeat constructor. Qed.
End Worth.

(** All of every call is found when the calls are the same. *)
Section Full.
  Context (U : text -> text -> utilities).
  Notation L := (lnode text).
  Lemma flat_sights (l : list N) : Forall flat_node l -> forall T T' : list L, map erase T = l -> map erase T' = strip_decision_nodes l ->
    flat_map sights (walks T) = flat_map sights (walks T').
  Proof.
    induction 1 as [|n l Hn Hl IH]; intros T T' E E'.
    - destruct T; [|discriminate]. destruct T'; [|discriminate]. reflexivity.
    - destruct T as [|x T]; [discriminate|]. cbn [map] in E. injection E as E1 E. unfold strip_decision_nodes in E'. cbn [flat_map] in E'.
      unfold walks. cbn [flat_map]. rewrite flat_map_app. fold (walks T).
      destruct n as [t|t m| | | |cs m]; try destruct Hn; destruct x; try discriminate E1; cbn [strip_node app] in E'; cbn [walk flat_map sights app];
        try (destruct T' as [|y T']; [discriminate|]; cbn [map] in E'; injection E' as E2 E'; destruct y; try discriminate E2; cbn [flat_map walk app sights]; fold (walks T'));
        cbn [erase] in *; try (injection E1 as -> ->); try (injection E2 as -> ->); rewrite ?(IH T T' E E'); reflexivity.
  Qed.
  Definition whole_call (seq : list N) : Prop := exists mid, seq = RegionStart :: mid ++ [RegionEnd] /\ Forall flat_node mid.
  Lemma flat_walks (l : list N) (T : list L) : Forall flat_node l -> map erase T = l -> Forall no_exit (walks T).
  Proof.
    intros F <-. apply leaf_no_exit. rewrite Forall_map in F. eapply Forall_impl; [|exact F]. intros [i t|i t m|i|i|i|i cs m]; cbn; auto.
  Qed.
  Lemma full_selection seqs : Forall whole_call seqs -> forall T : list L, map erase T = lines seqs ->
    exists ds, chosen T ds /\
      (forall T' : list L, map erase T' = strip_decision_nodes (lines seqs) -> selection U (walks T) (walks T') (- total_of (gain U) (walks T))%Qc ds) /\
      (forall to, selection U (walks T) to (total_of (penalty U) (walks T)) ds).
  Proof.
    induction 1 as [|seq seqs [mid [-> Hm]] Hs IH]; intros T E.
    - destruct T; [|discriminate]. exists []. splits; [constructor| |]; intros; cbn; try replace (- 0)%Qc with 0%Qc by ring; apply sel_nothing.
    - cbn [lines flat_map app] in E. fold (lines seqs) in E.
      destruct T as [|x [|y T]]; try discriminate E. cbn [map] in E. injection E as Ex Ey E.
      destruct x as [| | | | |i cs m]; try discriminate Ex. cbn [erase] in Ex. injection Ex as Ec ->. destruct y as [iy ty| | | | |]; try discriminate Ey.
      destruct cs as [|c0 cs]; [discriminate|]. cbn [map] in Ec. injection Ec as E0 Ec. destruct c0 as [| |i0| | |]; try discriminate E0.
      apply map_eq_app in Ec as (M0 & M1 & -> & Em & E1). destruct M1 as [|c1 [|c2 M1]]; try discriminate E1. cbn [map] in E1. injection E1 as E1. destruct c1 as [| | |j| |]; try discriminate E1.
      destruct (IH T E) as [ds [C [S Lo]]]. pose proof (flat_walks mid M0 Hm Em) as Ne.
      pose proof (takens_inside M0 Ne) as Tk.
      assert (W : walks (LGroup i (LStart i0 :: M0 ++ [LEnd j]) API_CALL :: LDeco iy ty :: T) = WOpen (pre i) API_CALL :: WStart (pre i0) :: walks M0 ++ WEnd (pre j) :: WClose (pre i) API_CALL :: walks T).
      { unfold walks. cbn [flat_map walk app]. rewrite flat_map_app. cbn [flat_map walk app]. now rewrite <- !app_assoc. }
      assert (G : forall f, (forall z, match z with WToken _ _ _ => True | _ => f z = 0%Qc end) -> total_of f (WOpen (pre i) API_CALL :: WStart (pre i0) :: walks M0 ++ WEnd (pre j) :: WClose (pre i) API_CALL :: walks T) =
                  (total_of f (walks M0) + total_of f (walks T))%Qc).
      { intros f Hf. change (WOpen (pre i) API_CALL :: WStart (pre i0) :: walks M0 ++ WEnd (pre j) :: WClose (pre i) API_CALL :: walks T) with
          ([WOpen (pre i) API_CALL; WStart (pre i0)] ++ walks M0 ++ [WEnd (pre j); WClose (pre i) API_CALL] ++ walks T). rewrite !total_app. unfold total_of at 1 3. cbn [fold_right].
        rewrite (Hf (WOpen (pre i) API_CALL)), (Hf (WStart (pre i0))), (Hf (WEnd (pre j))), (Hf (WClose (pre i) API_CALL)). ring. }
      eexists. split; [apply ch_group; [apply (ch_region i0 M0 j [] []), ch_nil|apply ch_deco; exact C]|]. rewrite W, <- Tk. cbn [app]. rewrite <- app_assoc. cbn [app]. split.
      + intros T' E'. rewrite G by now intros [].
        unfold strip_decision_nodes in E'. cbn [lines flat_map strip_node app] in E'. fold (lines seqs) in E'. fold (strip_decision_nodes (lines seqs)) in E'.
        destruct T' as [|x' [|y' T']]; try discriminate E'. cbn [map] in E'. injection E' as Ex' Ey' E'.
        destruct x' as [| | | | |i' cs' m']; try discriminate Ex'. cbn [erase] in Ex'. injection Ex' as Ec' ->. destruct y' as [iy' ty'| | | | |]; try discriminate Ey'.
        rewrite flat_map_app in Ec'. cbn [flat_map strip_node] in Ec'. rewrite app_nil_r in Ec'.
        pose proof (flat_sights mid Hm M0 cs' Em Ec') as Sg.
        assert (W' : walks (LGroup i' cs' API_CALL :: LDeco iy' ty' :: T') = [WOpen (pre i') API_CALL] ++ walks cs' ++ [WClose (pre i') API_CALL] ++ walks T').
        { unfold walks. cbn [flat_map walk app]. now rewrite <- app_assoc. }
        rewrite W'. apply (sel_leave U (WOpen (pre i) API_CALL)); [exact I|].
        replace (- (total_of (gain U) (walks M0) + total_of (gain U) (walks T)))%Qc with (- total_of (gain U) (walks T) - total_of (gain U) (walks M0))%Qc by ring.
        apply (sel_found U (pre i0) (walks M0) (pre j) _ [WOpen (pre i') API_CALL] (walks cs')); auto.
        apply (sel_leave U (WClose (pre i) API_CALL)); [exact I|]. apply (selection_later U [WClose (pre i') API_CALL]). now apply S.
      + intros to. rewrite G by now intros []. apply (sel_leave U (WOpen (pre i) API_CALL)); [exact I|].
        apply (sel_lost U (pre i0) (walks M0) (pre j)); auto. apply (sel_leave U (WClose (pre i) API_CALL)); [exact I|]. apply Lo.
  Qed.
End Full.
