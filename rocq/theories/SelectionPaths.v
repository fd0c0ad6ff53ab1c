(** The paths of the selection DAG are the selections. *)

From Coq Require Import List Bool Arith ZArith Lia QArith Qcanon Sorting.Sorted.
From Verif Require Import Base Graph GatedDag SeqNodes PackedSeq PackedSeqProofs Numbered Decisions SelectionDag SelectionSpec SelectionProofs.
Import ListNotations.
Close Scope Qc_scope. Close Scope Q_scope. Close Scope Z_scope. Open Scope nat_scope.

Section Paths.
  Context {M : Type} {md : EqDec M} (U : text -> M -> utilities).
  Notation step := (@step M).

  (** ** Where the edges are. *)
  Lemma row_In b i w ts : forall j e, In e (row U b i j w ts) <-> exists m t, nth_error ts m = Some t /\ In e (blk U b i (j + m) w t).
  Proof.
    induction ts as [|t ts IH]; intros j e; cbn [row]; split.
    - intros [].
    - intros [m [t [H _]]]. destruct m; discriminate.
    - intros H. apply in_app_or in H as [H|H].
      + exists 0, t. rewrite Nat.add_0_r. auto.
      + apply IH in H as [m [t' [H1 H2]]]. exists (S m), t'. rewrite Nat.add_succ_r. auto.
    - intros [m [t' [H1 H2]]]. apply in_or_app. destruct m as [|m]; cbn in H1.
      + injection H1 as <-. rewrite Nat.add_0_r in H2. auto.
      + right. apply IH. exists m, t'. rewrite Nat.add_succ_r in H2. auto.
  Qed.
  Lemma blk_more b i j w t e : In e (blk U b i j w t) -> In e (blk U true i j w t).
  Proof.
    unfold blk. intros H. repeat (apply in_app_or in H as [H|H]; [apply in_or_app; left; exact H|apply in_or_app; right]).
    destruct w; auto. destruct b; auto. right. exact H.
  Qed.
  Lemma rows_In ts ws : forall b i e, In e (rows U b i ws ts) -> exists n w m t, nth_error ws n = Some w /\ nth_error ts m = Some t /\ In e (blk U true (i + n) m w t).
  Proof.
    induction ws as [|w ws IH]; intros b i e H; cbn [rows] in H; [destruct H|]. apply in_app_or in H as [H|H].
    - apply row_In in H as [m [t [H1 H2]]]. exists 0, w, m, t. rewrite Nat.add_0_r. splits; auto. eapply blk_more. exact H2.
    - apply IH in H as [n [w' [m [t [H1 [H2 H3]]]]]]. exists (S n), w', m, t. rewrite Nat.add_succ_r. auto.
  Qed.
  Lemma rows_In_back ts ws : Forall no_exit ws -> forall i e n w m t, nth_error ws n = Some w -> nth_error ts m = Some t -> In e (blk U true (i + n) m w t) ->
    In e (rows U true i ws ts).
  Proof.
    induction 1 as [|w ws Hw Hws IH]; intros i e n w' m t H1 H2 H3; [destruct n; discriminate|]. cbn [rows].
    assert (N : next_flag true w = true) by (destruct w; auto; destruct Hw). rewrite N. apply in_or_app. destruct n as [|n]; cbn in H1.
    - injection H1 as <-. left. apply row_In. exists m, t. rewrite Nat.add_0_r in H3. auto.
    - right. eapply IH; eauto. rewrite Nat.add_succ_r in H3. exact H3.
  Qed.

  (** ** Runs: paths by what they do. *)
  Definition seffect : Type := cost * option decision * option sinfo.
  Definition effect_of (e : sedge) : seffect := (ecost e, assignment e, info e).
  Definition effects (p : list sedge) : list seffect := map effect_of p.
  Inductive srun : scategory -> list step -> list step -> list seffect -> Prop :=
  | sr_done to : srun SkipUnselected [] to [(Fin 0, None, None)]
  | sr_skip w from to tr : no_exit w -> srun SkipUnselected from to tr ->
      srun SkipUnselected (w :: from) to ((Fin 0, opt (left_out w), Some (mkSInfo SkipUnselected (Some (number_of w)) None)) :: tr)
  | sr_seek k from to tr : srun SkipInTarget from to tr ->
      srun SkipUnselected (WStart k :: from) to ((Fin 0, Some ((k, RegionShouldStart), DTrue), None) :: tr)
  | sr_give_up k from to tr : srun SelectUnmatched from to tr ->
      srun SkipUnselected (WStart k :: from) to ((Fin 0, Some ((k, RegionShouldStart), DTrue), None) :: tr)
  | sr_pass w from t k to tr : visible (Some t) = Some k -> srun SkipInTarget (w :: from) to tr ->
      srun SkipInTarget (w :: from) (t :: to) ((Fin 0, None, Some (mkSInfo SkipInTarget None (Some k))) :: tr)
  | sr_begin w from t k to tr : visible (Some t) = Some k -> srun SelectMatched (w :: from) (t :: to) tr ->
      srun SkipInTarget (w :: from) (t :: to) ((Fin 0, None, None) :: tr)
  | sr_match w from t k c to tr : alike U w (Some t) = Some (k, c) -> srun SelectMatched from to tr ->
      srun SelectMatched (w :: from) (t :: to) ((Fin c, opt (taken w), Some (mkSInfo SelectMatched (Some (number_of w)) (Some k))) :: tr)
  | sr_matched_region w from to tr : (exists k, w = WStart k \/ w = WEnd k) -> srun SelectMatched from to tr ->
      srun SelectMatched (w :: from) to ((Fin 0, opt (taken w), Some (mkSInfo SelectMatched (Some (number_of w)) None)) :: tr)
  | sr_matched_end k from to tr : srun SkipUnselected from to tr ->
      srun SelectMatched (WEnd k :: from) to ((Fin 0, Some ((k, RegionShouldEnd), DTrue), None) :: tr)
  | sr_pay w from to tr : no_exit w -> srun SelectUnmatched from to tr ->
      srun SelectUnmatched (w :: from) to ((Fin (penalty U w), opt (taken w), Some (mkSInfo SelectUnmatched (Some (number_of w)) None)) :: tr)
  | sr_unmatched_end k from to tr : srun SkipUnselected from to tr ->
      srun SelectUnmatched (WEnd k :: from) to ((Fin 0, Some ((k, RegionShouldEnd), DTrue), None) :: tr).

  Lemma skipn_cons {A} (l : list A) n x : nth_error l n = Some x -> skipn n l = x :: skipn (S n) l.
  Proof. revert l. induction n as [|n IH]; intros [|y l] H; cbn in H; try discriminate; [now injection H as ->|]. cbn. now rewrite (IH _ H). Qed.
  Lemma skipn_nth {A} (l : list A) n x l' : skipn n l = x :: l' -> nth_error l n = Some x /\ skipn (S n) l = l'.
  Proof.
    revert l. induction n as [|n IH]; intros [|y l] H; cbn in H; try discriminate; [injection H as <- <-; auto|]. apply IH in H as [H1 H2]. auto.
  Qed.
  Section Walks.
    Context (ws ts : list step).
    Notation all := (all_edges U ws ts).
    Definition target_here (j : nat) (t : option step) : Prop :=
      match t with Some y => skipn j ts = y :: skipn (S j) ts | None => skipn j ts = [] end.
    Lemma target_at m t : nth_error (map Some ts ++ [None]) m = Some t -> target_here m t.
    Proof.
      intros H. destruct (Nat.lt_ge_cases m (length ts)) as [Hm|Hm].
      - rewrite nth_error_app1 in H by (rewrite map_length; auto). rewrite nth_error_map in H.
        destruct (nth_error ts m) as [y|] eqn:E; [|discriminate]. injection H as <-. now apply skipn_cons.
      - rewrite nth_error_app2 in H by (rewrite map_length; auto). rewrite map_length in H.
        destruct (m - length ts) as [|d] eqn:E; [|destruct d; discriminate]. injection H as <-. cbn. apply skipn_all2. lia.
    Qed.
    Lemma target_at_back m t : m <= length ts -> target_here m t -> nth_error (map Some ts ++ [None]) m = Some t.
    Proof.
      intros Hm H. destruct t as [y|]; cbn in H.
      - apply skipn_nth in H as [H _]. assert (Hl : m < length ts) by (apply nth_error_Some; congruence).
        rewrite nth_error_app1 by (rewrite map_length; auto). now rewrite nth_error_map, H.
      - assert (length (skipn m ts) = 0) by now rewrite H. rewrite skipn_length in *. assert (m = length ts) as -> by lia.
        rewrite nth_error_app2 by (rewrite map_length; auto). rewrite map_length, Nat.sub_diag. reflexivity.
    Qed.
    Lemma edge_cases e : In e all ->
      (exists n w m t, skipn n ws = w :: skipn (S n) ws /\ target_here m t /\ In e (blk U true n m w t)) \/
      (exists j, e = mkEdge (SAt SkipUnselected (length ws) j) SFinal (Fin 0) None None).
    Proof.
      unfold all_edges. intros H. apply in_app_or in H as [H|H].
      - left. apply rows_In in H as [n [w [m [t [H1 [H2 H3]]]]]]. exists n, w, m, t. splits; auto; [now apply skipn_cons|now apply target_at].
      - right. unfold finishing in H. apply in_map_iff in H as [j [<- _]]. now exists j.
    Qed.
    Lemma blk_source b i j w t e : In e (blk U b i j w t) -> exists c, source e = SAt c i j.
    Proof.
      unfold blk. intros He. repeat (apply in_app_or in He as [He|He]).
      - destruct w; cbn in He; repeat (destruct He as [<-|He]); try destruct He; eexists; reflexivity.
      - destruct w; cbn in He; repeat (destruct He as [<-|He]); try destruct He; eexists; reflexivity.
      - destruct (visible t); cbn in He; repeat (destruct He as [<-|He]); try destruct He; eexists; reflexivity.
      - destruct (alike U w t) as [[]|]; cbn in He; repeat (destruct He as [<-|He]); try destruct He; eexists; reflexivity.
      - destruct w; cbn in He; repeat (destruct He as [<-|He]); try destruct He; eexists; reflexivity.
      - destruct w; try destruct b; cbn in He; repeat (destruct He as [<-|He]); try destruct He; eexists; reflexivity.
    Qed.
    Lemma final_stays p : is_path all SFinal p SFinal -> p = [].
    Proof.
      destruct p as [|e p]; auto. intros H. apply is_path_cons_inv in H as [E [He _]]. exfalso.
      apply edge_cases in He as [[n [w [m [t [_ [_ He]]]]]]|[j ->]]; [|discriminate]. apply blk_source in He as [c Hc]. congruence.
    Qed.
    Ltac tidy := cbn [source dest effects map effect_of ecost assignment info] in *.
    Lemma path_run p : forall s, is_path all s p SFinal -> match s with SAt c i j => srun c (skipn i ws) (skipn j ts) (effects p) | SFinal => True end.
    Proof.
      induction p as [|e p IH]; intros s H.
      - apply is_path_nil_inv in H as ->. exact I.
      - apply is_path_cons_inv in H as [-> [He Hp0]]. pose proof (IH _ Hp0) as Hp. clear IH. apply edge_cases in He as [[n [w [m [t [E1 [E2 He]]]]]]|[j ->]].
        + unfold blk in He. repeat (apply in_app_or in He as [He|He]).
          * destruct w; cbn in He; try (now destruct He); (destruct He as [<-|[]]); tidy; rewrite E1; apply (sr_skip (WStart _)) || apply sr_skip; try exact I; exact Hp.
          * destruct w; cbn in He; try (now destruct He); (destruct He as [<-|[<-|[]]]); tidy; rewrite E1; [apply sr_seek; exact Hp|apply sr_give_up; exact Hp].
          * destruct (visible t) as [y|] eqn:Ev; [|destruct He]. destruct t as [t|]; [|discriminate]. cbn in E2.
            destruct He as [<-|[<-|[]]]; tidy; rewrite E1, E2 in *.
            -- eapply sr_pass; eauto.
            -- eapply sr_begin; eauto.
          * destruct (alike U w t) as [[y c]|] eqn:Ea; [|destruct He]. destruct t as [t|]; [|destruct w; discriminate]. cbn in E2.
            destruct He as [<-|[]]; tidy. rewrite E1, E2. apply sr_match; auto.
          * destruct w; cbn in He; try (now destruct He); repeat (destruct He as [<-|He]); try (now destruct He); tidy; rewrite E1;
              first [apply sr_matched_end; exact Hp|apply (sr_matched_region (WStart _)); eauto|apply (sr_matched_region (WEnd _)); eauto].
          * destruct w; cbn in He; try (now destruct He); repeat (destruct He as [<-|He]); try (now destruct He); tidy; rewrite E1;
              first [apply sr_unmatched_end; exact Hp|exact (sr_pay (WToken _ _ _) _ _ _ I Hp)|exact (sr_pay (WOpen _ _) _ _ _ I Hp)
                |exact (sr_pay (WClose _ _) _ _ _ I Hp)|exact (sr_pay (WStart _) _ _ _ I Hp)|exact (sr_pay (WEnd _) _ _ _ I Hp)].
        + tidy. apply final_stays in Hp0 as ->. rewrite skipn_all. apply sr_done.
    Qed.

    Hypothesis plain : Forall no_exit ws.
    Lemma here_at j : target_here j (hd_error (skipn j ts)).
    Proof. unfold target_here. destruct (skipn j ts) as [|y l] eqn:E; cbn [hd_error]; auto. now apply skipn_nth in E as [_ ->]. Qed.
    Lemma edge_in i j w from t e : skipn i ws = w :: from -> j <= length ts -> target_here j t -> In e (blk U true i j w t) -> In e all.
    Proof.
      intros E Hj Ht He. apply skipn_nth in E as [E _]. unfold all_edges. apply in_or_app. left.
      eapply rows_In_back; eauto. now apply target_at_back.
    Qed.
    Lemma skip_in i j w t : no_exit w ->
      In (mkEdge (SAt SkipUnselected i j) (SAt SkipUnselected (S i) j) (Fin 0) (opt (left_out w)) (Some (mkSInfo SkipUnselected (Some (number_of w)) None))) (blk U true i j w t).
    Proof. intros H. unfold blk. apply in_or_app. left. destruct w; try now left. destruct H. Qed.
    Lemma pay_in i j w t : no_exit w ->
      In (mkEdge (SAt SelectUnmatched i j) (SAt SelectUnmatched (S i) j) (Fin (penalty U w)) (opt (taken w)) (Some (mkSInfo SelectUnmatched (Some (number_of w)) None))) (blk U true i j w t).
    Proof. intros H. unfold blk. do 5 (apply in_or_app; right). destruct w; try now left. destruct H. Qed.
    Lemma go (e : sedge) p : In e all -> is_path all (dest e) p SFinal -> exists q, is_path all (source e) q SFinal /\ effects q = effect_of e :: effects p.
    Proof. intros He Hp. exists (e :: p). split; [now constructor|reflexivity]. Qed.
    Lemma tail_len {A} (l : list A) i x l' : skipn i l = x :: l' -> S i <= length l /\ skipn (S i) l = l'.
    Proof. intros E. apply skipn_nth in E as [E ->]. split; auto. apply nth_error_Some. congruence. Qed.
    Lemma run_path c from to tr : srun c from to tr -> forall i j, skipn i ws = from -> skipn j ts = to -> i <= length ws -> j <= length ts ->
      exists p, is_path all (SAt c i j) p SFinal /\ effects p = tr.
    Proof.
      induction 1 as [to|w from to tr Hw Hr IH|k from to tr Hr IH|k from to tr Hr IH|w from t k to tr Hv Hr IH|w from t k to tr Hv Hr IH
        |w from t k c to tr Ha Hr IH|w from to tr [k Hw] Hr IH|k from to tr Hr IH|w from to tr Hw Hr IH|k from to tr Hr IH]; intros i j Ei Ej Hi Hj.
      - assert (length (skipn i ws) = 0) by now rewrite Ei. rewrite skipn_length in *. assert (i = length ws) as -> by lia.
        apply (go (mkEdge (SAt SkipUnselected (length ws) j) SFinal (Fin 0) None None) []); [|constructor].
        unfold all_edges. apply in_or_app. right. unfold finishing. apply in_map_iff. exists j. split; auto. apply in_seq. lia.
      - destruct (tail_len _ _ _ _ Ei) as [Hi' Ei']. destruct (IH (S i) j Ei' Ej Hi' Hj) as [p [Hp <-]].
        refine (go (mkEdge (SAt SkipUnselected i j) (SAt SkipUnselected (S i) j) _ _ _) p _ Hp).
        eapply (edge_in i j w); eauto; [apply here_at|]. now apply skip_in.
      - destruct (tail_len _ _ _ _ Ei) as [Hi' Ei']. destruct (IH (S i) j Ei' Ej Hi' Hj) as [p [Hp <-]].
        refine (go (mkEdge (SAt SkipUnselected i j) (SAt SkipInTarget (S i) j) _ _ _) p _ Hp).
        eapply (edge_in i j (WStart k)); eauto; [apply here_at|]. unfold blk. apply in_or_app. right. apply in_or_app. left. now left.
      - destruct (tail_len _ _ _ _ Ei) as [Hi' Ei']. destruct (IH (S i) j Ei' Ej Hi' Hj) as [p [Hp <-]].
        refine (go (mkEdge (SAt SkipUnselected i j) (SAt SelectUnmatched (S i) j) _ _ _) p _ Hp).
        eapply (edge_in i j (WStart k)); eauto; [apply here_at|]. unfold blk. apply in_or_app. right. apply in_or_app. left. right. now left.
      - destruct (tail_len _ _ _ _ Ej) as [Hj' Ej']. destruct (IH i (S j) Ei Ej' Hi Hj') as [p [Hp <-]].
        refine (go (mkEdge (SAt SkipInTarget i j) (SAt SkipInTarget i (S j)) _ _ _) p _ Hp).
        eapply (edge_in i j w from (Some t)); eauto; [unfold target_here; rewrite Ej; rewrite ?Ej'; auto|]. unfold blk. do 2 (apply in_or_app; right). apply in_or_app. left. rewrite Hv. now left.
      - destruct (tail_len _ _ _ _ Ej) as [Hj' Ej']. destruct (IH i j Ei Ej Hi Hj) as [p [Hp <-]].
        refine (go (mkEdge (SAt SkipInTarget i j) (SAt SelectMatched i j) _ _ _) p _ Hp).
        eapply (edge_in i j w from (Some t)); eauto; [unfold target_here; rewrite Ej; rewrite ?Ej'; auto|]. unfold blk. do 2 (apply in_or_app; right). apply in_or_app. left. rewrite Hv. right. now left.
      - destruct (tail_len _ _ _ _ Ei) as [Hi' Ei']. destruct (tail_len _ _ _ _ Ej) as [Hj' Ej']. destruct (IH (S i) (S j) Ei' Ej' Hi' Hj') as [p [Hp <-]].
        refine (go (mkEdge (SAt SelectMatched i j) (SAt SelectMatched (S i) (S j)) _ _ _) p _ Hp).
        eapply (edge_in i j w from (Some t)); eauto; [unfold target_here; rewrite Ej; rewrite ?Ej'; auto|]. unfold blk. do 3 (apply in_or_app; right). apply in_or_app. left. rewrite Ha. now left.
      - destruct (tail_len _ _ _ _ Ei) as [Hi' Ei']. destruct (IH (S i) j Ei' Ej Hi' Hj) as [p [Hp <-]].
        refine (go (mkEdge (SAt SelectMatched i j) (SAt SelectMatched (S i) j) _ _ _) p _ Hp).
        eapply (edge_in i j w); eauto; [apply here_at|]. unfold blk. do 4 (apply in_or_app; right). apply in_or_app. left.
        destruct Hw as [-> | ->]; [now left|right; now left].
      - destruct (tail_len _ _ _ _ Ei) as [Hi' Ei']. destruct (IH (S i) j Ei' Ej Hi' Hj) as [p [Hp <-]].
        refine (go (mkEdge (SAt SelectMatched i j) (SAt SkipUnselected (S i) j) _ _ _) p _ Hp).
        eapply (edge_in i j (WEnd k)); eauto; [apply here_at|]. unfold blk. do 4 (apply in_or_app; right). apply in_or_app. left. now left.
      - destruct (tail_len _ _ _ _ Ei) as [Hi' Ei']. destruct (IH (S i) j Ei' Ej Hi' Hj) as [p [Hp <-]].
        refine (go (mkEdge (SAt SelectUnmatched i j) (SAt SelectUnmatched (S i) j) _ _ _) p _ Hp).
        eapply (edge_in i j w); eauto; [apply here_at|]. now apply pay_in.
      - destruct (tail_len _ _ _ _ Ei) as [Hi' Ei']. destruct (IH (S i) j Ei' Ej Hi' Hj) as [p [Hp <-]].
        refine (go (mkEdge (SAt SelectUnmatched i j) (SAt SkipUnselected (S i) j) _ _ _) p _ Hp).
        eapply (edge_in i j (WEnd k)); eauto; [apply here_at|]. unfold blk. do 5 (apply in_or_app; right). right. now left.
    Qed.
  End Walks.

  (** ** Runs and selections. *)
  Definition total (tr : list seffect) : cost := csum (map (fun e => fst (fst e)) tr).
  Definition decided (tr : list seffect) : list decision := flat_map (fun e => match snd (fst e) with Some a => [a] | None => [] end) tr.
  Lemma effects_total p : total (effects p) = path_cost p.
  Proof. unfold total, effects, path_cost. rewrite map_map. reflexivity. Qed.
  Lemma effects_decided p : decided (effects p) = path_assignments p.
  Proof. unfold decided, effects. induction p as [|e p IH]; [reflexivity|]. cbn [map flat_map path_assignments effect_of fst snd]. rewrite IH. now destruct (assignment e). Qed.
  Lemma total_cons e tr c k : fst (fst e) = Fin c -> total tr = Fin k -> total (e :: tr) = Fin (c + k)%Qc.
  Proof. unfold total. cbn [map]. unfold csum. cbn [fold_right]. intros -> E. fold (csum (map (fun e : seffect => fst (fst e)) tr)). now rewrite E. Qed.
  Lemma decided_cons e tr : decided (e :: tr) = match snd (fst e) with Some a => [a] | None => [] end ++ decided tr.
  Proof. reflexivity. Qed.
  Lemma opt_left_out (w : step) : match opt (left_out w) with Some a => [a] | None => [] end = left_out w.
  Proof. now destruct w. Qed.
  Lemma opt_taken (w : step) : match opt (taken w) with Some a => [a] | None => [] end = taken w.
  Proof. now destruct w. Qed.
  Lemma alike_spec w t k c : alike U w (Some t) = Some (k, c) -> no_exit w /\ sights w = sights t /\ c = (- gain U w)%Qc.
  Proof.
    destruct w as [a x m|a m|a m|a|a|a], t as [b y m'|b m'|b m'|b|b|b]; cbn; try discriminate.
    - destruct (eqb x y) eqn:E1, (eqb m m') eqn:E2; try discriminate. cbn. intros H. injection H as <- <-. apply eqb_eq in E1, E2. subst. auto.
    - destruct (eqb m m') eqn:E2; try discriminate. intros H. injection H as <- <-. apply eqb_eq in E2. subst. splits; auto.
    - destruct (eqb m m') eqn:E2; try discriminate. intros H. injection H as <- <-. apply eqb_eq in E2. subst. splits; auto.
  Qed.
  Lemma srun_selection c from to tr : srun c from to tr -> exists q, total tr = Fin q /\
    match c with
    | SkipUnselected => selection U from to q (decided tr)
    | SelectMatched => exists part k from' run to' q' ds, from = part ++ WEnd k :: from' /\ to = run ++ to' /\
        Forall no_exit part /\ flat_map sights part = flat_map sights run /\
        q = (q' - total_of (gain U) part)%Qc /\ decided tr = flat_map taken part ++ ((k, RegionShouldEnd), DTrue) :: ds /\ selection U from' to' q' ds
    | SkipInTarget => exists part k from' gap run to' q' ds, from = part ++ WEnd k :: from' /\ to = gap ++ run ++ to' /\
        Forall no_exit part /\ flat_map sights part = flat_map sights run /\
        q = (q' - total_of (gain U) part)%Qc /\ decided tr = flat_map taken part ++ ((k, RegionShouldEnd), DTrue) :: ds /\ selection U from' to' q' ds
    | SelectUnmatched => exists part k from' q' ds, from = part ++ WEnd k :: from' /\ Forall no_exit part /\
        q = (total_of (penalty U) part + q')%Qc /\ decided tr = flat_map taken part ++ ((k, RegionShouldEnd), DTrue) :: ds /\ selection U from' to q' ds
    end.
  Proof.
    induction 1 as [to|w from to tr Hw Hr IH|k from to tr Hr IH|k from to tr Hr IH|w from t k to tr Hv Hr IH|w from t k to tr Hv Hr IH
        |w from t k c to tr Ha Hr IH|w from to tr [k Hw] Hr IH|k from to tr Hr IH|w from to tr Hw Hr IH|k from to tr Hr IH];
      try (destruct IH as [q [Eq IH]]).
    - exists 0%Qc. split; [reflexivity|]. constructor.
    - eexists. split; [eapply total_cons; [reflexivity|exact Eq]|]. rewrite decided_cons. cbn [fst snd]. rewrite opt_left_out.
      replace (0 + q)%Qc with q by ring. now constructor.
    - eexists. split; [eapply total_cons; [reflexivity|exact Eq]|]. rewrite decided_cons. cbn [fst snd app].
      destruct IH as (part & j & from' & gap & run & to' & q' & ds & -> & -> & F & E & -> & -> & S). replace (0 + (q' - total_of (gain U) part))%Qc with (q' - total_of (gain U) part)%Qc by ring.
      now constructor.
    - eexists. split; [eapply total_cons; [reflexivity|exact Eq]|]. rewrite decided_cons. cbn [fst snd app].
      destruct IH as (part & j & from' & q' & ds & -> & F & -> & -> & S). replace (0 + (total_of (penalty U) part + q'))%Qc with (total_of (penalty U) part + q')%Qc by ring.
      now constructor.
    - eexists. split; [eapply total_cons; [reflexivity|exact Eq]|]. rewrite decided_cons. cbn [fst snd app].
      destruct IH as (part & j & from' & gap & run & to' & q' & ds & -> & -> & F & E & -> & -> & S). exists part, j, from', (t :: gap), run, to', q', ds. splits; auto. ring.
    - eexists. split; [eapply total_cons; [reflexivity|exact Eq]|]. rewrite decided_cons. cbn [fst snd app].
      destruct IH as (part & j & from' & run & to' & q' & ds & -> & -> & F & E & -> & -> & S). exists part, j, from', [], run, to', q', ds. splits; auto. ring.
    - eexists. split; [eapply total_cons; [reflexivity|exact Eq]|]. rewrite decided_cons. cbn [fst snd]. rewrite opt_taken.
      destruct IH as (part & j & from' & run & to' & q' & ds & -> & -> & F & E & -> & -> & S). apply alike_spec in Ha as [N [Es ->]].
      exists (w :: part), j, from', (t :: run), to', q', ds. splits; auto.
      + cbn [flat_map]. now rewrite Es, E.
      + cbn [total_of fold_right]. fold (total_of (gain U) part). ring.
      + cbn [flat_map]. now rewrite <- app_assoc.
    - eexists. split; [eapply total_cons; [reflexivity|exact Eq]|]. rewrite decided_cons. cbn [fst snd]. rewrite opt_taken.
      destruct IH as (part & j & from' & run & to' & q' & ds & -> & -> & F & E & -> & -> & S).
      exists (w :: part), j, from', run, to', q', ds. splits; auto.
      + constructor; auto. now destruct Hw as [-> | ->].
      + cbn [flat_map]. rewrite <- E. now destruct Hw as [-> | ->].
      + cbn [total_of fold_right]. fold (total_of (gain U) part). destruct Hw as [-> | ->]; cbn [gain]; ring.
      + cbn [flat_map]. now rewrite <- app_assoc.
    - eexists. split; [eapply total_cons; [reflexivity|exact Eq]|]. rewrite decided_cons. cbn [fst snd app].
      exists [], k, from, [], to, q, (decided tr). splits; auto; cbn [total_of fold_right]; ring.
    - eexists. split; [eapply total_cons; [reflexivity|exact Eq]|]. rewrite decided_cons. cbn [fst snd]. rewrite opt_taken.
      destruct IH as (part & j & from' & q' & ds & -> & F & -> & -> & S).
      exists (w :: part), j, from', q', ds. splits; auto.
      + cbn [total_of fold_right]. fold (total_of (penalty U) part). ring.
      + cbn [flat_map]. now rewrite <- app_assoc.
    - eexists. split; [eapply total_cons; [reflexivity|exact Eq]|]. rewrite decided_cons. cbn [fst snd app].
      exists [], k, from, q, (decided tr). splits; auto; cbn [total_of fold_right]; ring.
  Qed.

  Definition seen (t : step) : Prop := sights t <> [].
  Lemma seen_visible t : seen t -> exists k, visible (Some t) = Some k.
  Proof. destruct t; cbn; intros H; eauto; now destruct H. Qed.
  Lemma alike_back w t : seen w -> sights w = sights t -> exists k, alike U w (Some t) = Some (k, (- gain U w)%Qc).
  Proof.
    destruct w as [a x m|a m|a m|a|a|a], t as [b y m'|b m'|b m'|b|b|b]; cbn; intros S E; try discriminate; try (now destruct S); injection E as <-; try subst; rewrite ?eqb_refl; cbn; eauto.
    all: exists b; do 2 f_equal; ring.
  Qed.
  Lemma sights_cases (w : step) : no_exit w -> (exists s, sights w = [s]) \/ (exists k, w = WStart k \/ w = WEnd k).
  Proof. destruct w; cbn; eauto; intros []. Qed.
  Lemma unseen_gain w : sights w = [] -> gain U w = 0%Qc /\ penalty U w = 0%Qc.
  Proof. destruct w; cbn; auto; discriminate. Qed.
  Lemma seek_run w from t to tr : seen t -> srun SelectMatched (w :: from) (t :: to) tr -> forall gap, Forall seen gap ->
    exists tr', srun SkipInTarget (w :: from) (gap ++ t :: to) tr' /\ (forall k, total tr = Fin k -> total tr' = Fin k) /\ decided tr' = decided tr.
  Proof.
    intros St Hr gap. induction 1 as [|g gap Hg Hgap IH].
    - destruct (seen_visible _ St) as [k Hk]. eexists. splits; [eapply sr_begin; eauto| |reflexivity].
      intros q Hq. erewrite total_cons by (reflexivity || exact Hq). f_equal. ring.
    - destruct IH as [tr' [H1 [H2 H3]]]. destruct (seen_visible _ Hg) as [k Hk]. eexists. splits; [cbn [app]; eapply sr_pass; eauto| |exact H3].
      intros q Hq. erewrite total_cons by (reflexivity || exact (H2 _ Hq)). f_equal. ring.
  Qed.
  Lemma matched_run j from to tr k : srun SkipUnselected from to tr -> total tr = Fin k ->
    forall part, Forall no_exit part -> forall run, flat_map sights part = flat_map sights run -> Forall seen run ->
    exists tr', srun SelectMatched (part ++ WEnd j :: from) (run ++ to) tr' /\ total tr' = Fin (k - total_of (gain U) part)%Qc /\
      decided tr' = flat_map taken part ++ ((j, RegionShouldEnd), DTrue) :: decided tr.
  Proof.
    intros Hr Hk part. induction 1 as [|w part Hw Hpart IH]; intros run Es Hrun.
    - destruct run as [|t run]; [|inversion Hrun as [|? ? Ht ?]; subst; exfalso; apply Ht; cbn in Es; now destruct (sights t)].
      eexists. splits; [apply sr_matched_end; exact Hr| |reflexivity].
      erewrite total_cons by (reflexivity || exact Hk). f_equal. cbn [total_of fold_right]. ring.
    - destruct (sights_cases _ Hw) as [[s Hs]|[i Hi]].
      + destruct run as [|t run]; [cbn in Es; rewrite Hs in Es; discriminate|]. inversion Hrun as [|? ? Ht Hrun']; subst.
        cbn [flat_map] in Es. rewrite Hs in Es. assert (Et : sights t = [s]).
        { destruct t; cbn in Es |- *; cbn in Ht; try (now destruct Ht); injection Es as -> _; reflexivity. }
        rewrite Et in Es. injection Es as Es. destruct (IH run Es Hrun') as [tr' [H1 [H2 H3]]].
        destruct (alike_back w t) as [kk Hkk]; [unfold seen; now rewrite Hs|now rewrite Hs, Et|].
        eexists. splits; [cbn [app]; eapply sr_match; eauto| |].
        * erewrite total_cons by (reflexivity || exact H2). f_equal. cbn [total_of fold_right]. fold (total_of (gain U) part). ring.
        * rewrite decided_cons. cbn [fst snd]. rewrite opt_taken, H3. cbn [flat_map]. now rewrite <- app_assoc.
      + assert (Sw : sights w = []) by now destruct Hi as [-> | ->]. cbn [flat_map] in Es. rewrite Sw in Es.
        destruct (IH run Es Hrun) as [tr' [H1 [H2 H3]]]. destruct (unseen_gain _ Sw) as [G _].
        eexists. splits; [cbn [app]; apply sr_matched_region; [eauto|exact H1]| |].
        * erewrite total_cons by (reflexivity || exact H2). f_equal. cbn [total_of fold_right]. fold (total_of (gain U) part). rewrite G. ring.
        * rewrite decided_cons. cbn [fst snd]. rewrite opt_taken, H3. cbn [flat_map]. now rewrite <- app_assoc.
  Qed.
  Lemma paid_run j from to tr k : srun SkipUnselected from to tr -> total tr = Fin k -> forall part, Forall no_exit part ->
    exists tr', srun SelectUnmatched (part ++ WEnd j :: from) to tr' /\ total tr' = Fin (total_of (penalty U) part + k)%Qc /\
      decided tr' = flat_map taken part ++ ((j, RegionShouldEnd), DTrue) :: decided tr.
  Proof.
    intros Hr Hk part. induction 1 as [|w part Hw Hpart IH].
    - eexists. splits; [apply sr_unmatched_end; exact Hr| |reflexivity].
      erewrite total_cons by (reflexivity || exact Hk). f_equal.
    - destruct IH as [tr' [H1 [H2 H3]]]. eexists. splits; [cbn [app]; apply sr_pay; [exact Hw|exact H1]| |].
      + erewrite total_cons by (reflexivity || exact H2). f_equal. cbn [total_of fold_right]. fold (total_of (penalty U) part). ring.
      + rewrite decided_cons. cbn [fst snd]. rewrite opt_taken, H3. cbn [flat_map]. now rewrite <- app_assoc.
  Qed.
  Lemma unseen_totals part : flat_map sights part = [] -> total_of (gain U) part = 0%Qc /\ total_of (penalty U) part = 0%Qc.
  Proof.
    induction part as [|w part IH]; [auto|]. cbn [flat_map total_of fold_right]. intros E. apply app_eq_nil in E as [E1 E2].
    destruct (IH E2) as [G P]. fold (total_of (gain U) part) (total_of (penalty U) part). rewrite G, P. destruct (unseen_gain _ E1) as [-> ->]. split; ring.
  Qed.
  Lemma selection_srun from to k ds : selection U from to k ds -> forall pre, Forall seen (pre ++ to) ->
    exists tr, srun SkipUnselected from (pre ++ to) tr /\ total tr = Fin k /\ decided tr = ds.
  Proof.
    induction 1 as [to|x from to k ds Hx Hs IH|i part j from gap run to k ds Hp Es Hs IH|i part j from to k ds Hp Hs IH]; intros pre Hv.
    - eexists. splits; [apply sr_done|reflexivity|reflexivity].
    - destruct (IH pre Hv) as [tr [H1 [H2 H3]]]. eexists. splits; [now apply sr_skip; eauto| |].
      + erewrite total_cons by (reflexivity || exact H2). f_equal. ring.
      + rewrite decided_cons. cbn [fst snd]. now rewrite opt_left_out, H3.
    - destruct (run ++ to) as [|t rest] eqn:E.
      + apply app_eq_nil in E as [-> ->]. cbn in Es. destruct (unseen_totals _ Es) as [G P].
        destruct (IH (pre ++ gap)) as [tr [H1 [H2 H3]]]; [now rewrite <- app_assoc|]. rewrite <- app_assoc in H1.
        destruct (paid_run j _ _ _ _ H1 H2 _ Hp) as [tr' [K1 [K2 K3]]].
        eexists. splits; [apply sr_give_up; exact K1| |].
        * erewrite total_cons by (reflexivity || exact K2). f_equal. rewrite G, P. ring.
        * rewrite decided_cons. cbn [fst snd app]. now rewrite K3, H3.
      + rewrite <- E in Hv. assert (Hv' := Hv). rewrite app_assoc in Hv'. apply Forall_app in Hv' as [V1 V2]. apply Forall_app in V2 as [V2 V3].
        destruct (IH [] V3) as [tr [H1 [H2 H3]]]. cbn [app] in H1.
        destruct (matched_run j _ _ _ _ H1 H2 _ Hp _ Es V2) as [tr' [K1 [K2 K3]]].
        rewrite E in K1.
        assert (St : seen t). { assert (Forall seen (run ++ to)) by (apply Forall_app; auto). rewrite E in *. now inversion H. }
        destruct (part ++ WEnd j :: from) as [|w l] eqn:Ew; [now destruct part|].
        destruct (seek_run _ _ _ _ _ St K1 _ V1) as [tr'' [L1 [L2 L3]]].
        eexists. splits; [apply sr_seek; rewrite app_assoc; exact L1| |].
        * erewrite total_cons by (reflexivity || exact (L2 _ K2)). f_equal. ring.
        * rewrite decided_cons. cbn [fst snd app]. now rewrite L3, K3, H3.
    - destruct (IH pre Hv) as [tr [H1 [H2 H3]]]. destruct (paid_run j _ _ _ _ H1 H2 _ Hp) as [tr' [K1 [K2 K3]]].
      eexists. splits; [apply sr_give_up; exact K1| |].
      * erewrite total_cons by (reflexivity || exact K2). f_equal. ring.
      * rewrite decided_cons. cbn [fst snd app]. now rewrite K3, H3.
  Qed.

  (** ** The paths of the DAG are the selections. *)
  Lemma selection_paths ws ts q ds p : is_path (all_edges U ws ts) (SAt SkipUnselected 0 0) p SFinal -> path_cost p = Fin q -> path_assignments p = ds ->
    selection U ws ts q ds.
  Proof.
    intros Hp Hq <-. apply path_run in Hp. cbn [skipn] in Hp. apply srun_selection in Hp as [q' [E S]].
    rewrite effects_total in E. rewrite effects_decided in S. congruence.
  Qed.
  Lemma selection_path_finite ws ts p : is_path (all_edges U ws ts) (SAt SkipUnselected 0 0) p SFinal -> exists q, path_cost p = Fin q.
  Proof. intros Hp. apply path_run in Hp. apply srun_selection in Hp as [q' [E S]]. rewrite effects_total in E. eauto. Qed.
  Lemma selection_has_path ws ts q ds : Forall no_exit ws -> Forall seen ts -> selection U ws ts q ds ->
    exists p, is_path (all_edges U ws ts) (SAt SkipUnselected 0 0) p SFinal /\ path_cost p = Fin q /\ path_assignments p = ds.
  Proof.
    intros Hn Hs S. destruct (selection_srun _ _ _ _ S []) as [tr [H1 [H2 H3]]]; [exact Hs|]. cbn [app] in H1.
    destruct (run_path ws ts Hn _ _ _ _ H1 0 0) as [p [Hp <-]]; auto with arith. exists p. rewrite effects_total in H2. rewrite effects_decided in H3. auto.
  Qed.
End Paths.
