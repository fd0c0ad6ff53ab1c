(** Bracket matching, error correction and splitting: specification and proofs. *)

From Coq Require Import List Bool Arith Lia.
From Verif Require Import Base StackParser.
Import ListNotations.

Section Spec.
  Context {T : Type} `{EqDec T}.

  (** Bracket pairs that are really pairs: no token is used twice. *)
  Definition proper_pairs (pairs : list (T * T)) : Prop :=
    NoDup (openers pairs) /\ NoDup (closers pairs) /\
    forall t, In t (openers pairs) -> ~ In t (closers pairs).

  (** Matching brackets.  [ctx] is the innermost open bracket; a closer that does
      not belong to it counts as an ordinary token (but outside of all brackets
      there is no such excuse). *)
  Inductive balanced (pairs : list (T * T)) : option T -> list T -> Prop :=
  | bal_nil ctx : balanced pairs ctx []
  | bal_plain ctx t ts :
      ~ In t (openers pairs) -> ~ In t (closers pairs) ->
      balanced pairs ctx ts -> balanced pairs ctx (t :: ts)
  | bal_stray o t ts :
      In t (closers pairs) -> ~ In (o, t) pairs ->
      balanced pairs (Some o) ts -> balanced pairs (Some o) (t :: ts)
  | bal_pair ctx o c inner ts :
      In (o, c) pairs -> balanced pairs (Some o) inner -> balanced pairs ctx ts ->
      balanced pairs ctx (o :: inner ++ c :: ts).

  (** No closer counts as an ordinary token. *)
  Inductive strictly_balanced (pairs : list (T * T)) : list T -> Prop :=
  | sbal_nil : strictly_balanced pairs []
  | sbal_plain t ts :
      ~ In t (openers pairs) -> ~ In t (closers pairs) ->
      strictly_balanced pairs ts -> strictly_balanced pairs (t :: ts)
  | sbal_pair o c inner ts :
      In (o, c) pairs -> strictly_balanced pairs inner -> strictly_balanced pairs ts ->
      strictly_balanced pairs (o :: inner ++ c :: ts).

  (** The trees of a balanced sequence that starts at position [i]. *)
  Inductive forest (pairs : list (T * T)) : option T -> nat -> list T -> list pnode -> Prop :=
  | fo_nil ctx i : forest pairs ctx i [] []
  | fo_plain ctx i t ts ns :
      ~ In t (openers pairs) -> ~ In t (closers pairs) ->
      forest pairs ctx (S i) ts ns ->
      forest pairs ctx i (t :: ts) (PNode i (Some (S i)) ASibling [] :: ns)
  | fo_stray o i t ts ns :
      In t (closers pairs) -> ~ In (o, t) pairs ->
      forest pairs (Some o) (S i) ts ns ->
      forest pairs (Some o) i (t :: ts) (PNode i (Some (S i)) ASibling [] :: ns)
  | fo_pair ctx i o c inner ms ts ns (j := S i + length inner) :
      In (o, c) pairs -> forest pairs (Some o) (S i) inner ms -> forest pairs ctx (S j) ts ns ->
      forest pairs ctx i (o :: inner ++ c :: ts)
        (PNode i (Some (S j)) APaired
           [PNode i (Some (S i)) ALeft []; PNode (S i) (Some j) AMiddle ms; PNode j (Some (S j)) ARight []] :: ns).

  Lemma forest_balanced pairs ctx i ts ns : forest pairs ctx i ts ns -> balanced pairs ctx ts.
  Proof. induction 1; [apply bal_nil|apply bal_plain|apply bal_stray|apply bal_pair]; auto. Qed.

  Section Proper.
    Variable pairs : list (T * T).
    Hypothesis HP : proper_pairs pairs.

    Lemma assoc_NoDup {K V} `{EqDec K} (d : list (K * V)) k v :
      NoDup (map fst d) -> (assoc k d = Some v <-> In (k, v) d).
    Proof.
      intros Hn. split; [apply assoc_In|]. revert Hn. induction d as [|[k' v'] d IH]; intros Hn Hi; [destruct Hi|].
      cbn [map fst] in Hn. inversion Hn as [|? ? Hx Hn']; subst. destruct Hi as [[= -> ->]|Hi].
      - now apply assoc_cons_same.
      - rewrite assoc_cons_other; [now apply IH|]. intros ->. apply Hx. now apply (in_map fst) in Hi.
    Qed.
    Lemma c2o_iff c o : closer_to_opener pairs c = Some o <-> In (o, c) pairs.
    Proof using HP.
      unfold closer_to_opener. rewrite assoc_NoDup.
      - rewrite <- in_rev, in_map_iff. split.
        + intros [[a b] [[= <- <-] Hi]]. auto.
        + intros Hi. exists (o, c). auto.
      - rewrite map_rev, map_map. cbn. apply NoDup_rev. apply HP.
    Qed.
    Lemma o2c_iff c o : opener_to_closer pairs o = Some c <-> In (o, c) pairs.
    Proof using HP.
      unfold opener_to_closer. rewrite assoc_NoDup; [now rewrite <- in_rev|].
      rewrite map_rev. apply NoDup_rev. apply HP.
    Qed.
    Lemma pair_opener o c : In (o, c) pairs -> In o (openers pairs) /\ In c (closers pairs).
    Proof. intros Hi. split; [now apply (in_map fst) in Hi|now apply (in_map snd) in Hi]. Qed.
    Lemma opener_pair o : In o (openers pairs) -> exists c, In (o, c) pairs.
    Proof. intros Hi. apply in_map_iff in Hi as [[a b] [<- Hi]]. eauto. Qed.
    Lemma closer_pair c : In c (closers pairs) -> exists o, In (o, c) pairs.
    Proof. intros Hi. apply in_map_iff in Hi as [[a b] [<- Hi]]. eauto. Qed.
    Lemma closer_not_opener c : In c (closers pairs) -> ~ In c (openers pairs).
    Proof using HP. intros Hc Ho. now apply HP in Ho. Qed.

    (** What a token does to the stack of open brackets. *)
    Definition push (S : list T) (t : T) : option (list T) :=
      if mem t (openers pairs) then Some (t :: S)
      else if mem t (closers pairs) then
        match S with
        | [] => None
        | o :: S' => if eqb (closer_to_opener pairs t) (Some o) then Some S' else Some S
        end
      else Some S.
    Fixpoint run (S : list T) (ts : list T) : option (list T) :=
      match ts with
      | [] => Some S
      | t :: ts' => match push S t with Some S' => run S' ts' | None => None end
      end.
    Lemma run_app S a b : run S (a ++ b) = match run S a with Some S' => run S' b | None => None end.
    Proof. revert S. induction a as [|t a IH]; intros S; auto. cbn [app run]. destruct (push S t); auto. Qed.

    (** *** The grammar and the stack agree. *)
    Fixpoint unwinds (S : list T) (X : list T) : Prop :=
      match S with
      | [] => balanced pairs None X
      | o :: S' => exists inner c rest, X = inner ++ c :: rest /\ In (o, c) pairs /\
                     balanced pairs (Some o) inner /\ unwinds S' rest
      end.
    Lemma unwinds_pair S o c inner rest : In (o, c) pairs -> balanced pairs (Some o) inner ->
      unwinds S rest -> unwinds S (o :: inner ++ c :: rest).
    Proof.
      intros Hi Hb Hu. destruct S as [|o' S]; cbn [unwinds] in *; [now constructor|].
      destruct Hu as [inner' [c' [rest' [-> [Hi' [Hb' Hu']]]]]].
      exists (o :: inner ++ c :: inner'), c', rest'. splits; auto.
      - cbn. f_equal. rewrite <- app_assoc. reflexivity.
      - now constructor.
    Qed.
    Lemma run_unwinds X : forall S, run S X = Some [] -> unwinds S X.
    Proof using HP.
      induction X as [|t X IH]; intros S E; cbn [run] in E.
      - injection E as ->. constructor.
      - unfold push in E. destruct (mem t (openers pairs)) eqn:Mo.
        + apply IH in E. cbn [unwinds] in E. destruct E as [inner [c [rest [-> [Hi [Hb Hu]]]]]].
          now apply unwinds_pair.
        + apply mem_false_iff in Mo. destruct (mem t (closers pairs)) eqn:Mc.
          * apply mem_true_iff in Mc. destruct S as [|o S]; [discriminate|].
            destruct (eqb (closer_to_opener pairs t) (Some o)) eqn:Ec.
            -- apply eqb_eq, c2o_iff in Ec. apply IH in E. exists [], t, X. splits; auto. constructor.
            -- apply eqb_neq in Ec. apply IH in E. destruct E as [inner [c [rest [-> [Hi [Hb Hu]]]]]].
               exists (t :: inner), c, rest. splits; auto. apply bal_stray; auto.
               intros C. apply Ec. now apply c2o_iff.
          * apply mem_false_iff in Mc. apply IH in E. destruct S as [|o S]; cbn [unwinds] in *.
            -- now constructor.
            -- destruct E as [inner [c [rest [-> [Hi [Hb Hu]]]]]].
               exists (t :: inner), c, rest. splits; auto. now constructor.
    Qed.
    Definition top (S : list T) : option T := match S with [] => None | o :: _ => Some o end.
    Lemma balanced_run ctx X : balanced pairs ctx X -> forall S, top S = ctx -> run S X = Some S.
    Proof using HP.
      induction 1 as [ctx|ctx t ts Ho Hc Hb IH|o t ts Hc Hn Hb IH|ctx o c inner ts Hi Hb IH Hb2 IH2]; intros S Hs; auto.
      - cbn [run]. unfold push. apply mem_false_iff in Ho, Hc. rewrite Ho, Hc. auto.
      - cbn [run]. unfold push. pose proof (closer_not_opener _ Hc) as Ho.
        apply mem_false_iff in Ho. apply mem_true_iff in Hc. rewrite Ho, Hc.
        destruct S as [|o' S]; [discriminate|]. injection Hs as ->.
        destruct (eqb (closer_to_opener pairs t) (Some o)) eqn:E; [|apply IH; reflexivity].
        apply eqb_eq, c2o_iff in E. contradiction.
      - destruct (pair_opener _ _ Hi) as [Ho Hc]. pose proof (closer_not_opener _ Hc) as Hco.
        cbn [run]. unfold push at 1. apply mem_true_iff in Ho. rewrite Ho.
        rewrite run_app, IH by reflexivity. cbn [run]. unfold push.
        apply mem_false_iff in Hco. apply mem_true_iff in Hc. rewrite Hco, Hc.
        apply c2o_iff in Hi. rewrite Hi, eqb_refl. auto.
    Qed.
    Lemma balanced_iff_run X : balanced pairs None X <-> run [] X = Some [].
    Proof using HP.
      split; [intros Hb; now apply (balanced_run None)|intros E; now apply run_unwinds in E].
    Qed.

    (** *** Error correction. *)
    Lemma correct_loop ts : forall S P S' P',
      fold_left (correct_step pairs) ts (S, P) = (S', P') ->
      exists Q, P' = P ++ Q /\ run (S ++ Q) ts = Some S' /\ Forall (fun o => In o (openers pairs)) Q /\
        (Forall (fun o => In o (openers pairs)) S -> Forall (fun o => In o (openers pairs)) S').
    Proof using HP.
      induction ts as [|t ts IH]; intros S P S' P' E; cbn [fold_left] in E.
      - injection E as <- <-. exists []. rewrite !app_nil_r. splits; auto.
      - unfold correct_step at 2 in E. cbn [run]. unfold push.
        destruct (mem t (openers pairs)) eqn:Mo.
        + apply IH in E as [Q [-> [E1 [E2 E3]]]]. exists Q. splits; auto.
          intros HF. apply E3. constructor; auto. now apply mem_true_iff.
        + destruct (mem t (closers pairs)) eqn:Mc.
          * destruct S as [|o S].
            -- apply mem_true_iff, closer_pair in Mc as [o Ho]. pose proof Ho as Ho'. apply c2o_iff in Ho'. rewrite Ho' in E.
               apply IH in E as [Q [-> [E1 [E2 E3]]]]. exists (o :: Q). rewrite <- app_assoc. splits; auto.
               ++ cbn [app]. rewrite Ho', eqb_refl. exact E1.
               ++ constructor; auto. now apply pair_opener in Ho.
            -- destruct (eqb (closer_to_opener pairs t) (Some o)) eqn:Ec.
               ++ apply IH in E as [Q [-> [E1 [E2 E3]]]]. exists Q. cbn [app]. rewrite Ec. splits; auto.
                  intros HF. inversion HF; subst. auto.
               ++ apply IH in E as [Q [-> [E1 [E2 E3]]]]. exists Q. cbn [app]. rewrite Ec. splits; auto.
          * apply IH in E as [Q [-> [E1 [E2 E3]]]]. exists Q. splits; auto.
    Qed.
    Lemma run_openers Q : Forall (fun o => In o (openers pairs)) Q -> forall S, run S (rev Q) = Some (Q ++ S).
    Proof.
      induction 1 as [|o Q Ho HF IH]; intros S; auto. cbn [rev]. rewrite run_app, IH. cbn [run].
      unfold push. apply mem_true_iff in Ho. rewrite Ho. reflexivity.
    Qed.
    Lemma run_closers S : Forall (fun o => In o (openers pairs)) S ->
      run S (flat_map (fun o => match opener_to_closer pairs o with Some c => [c] | None => [] end) S) = Some [].
    Proof using HP.
      induction 1 as [|o S Ho HF IH]; auto. cbn [flat_map]. destruct (opener_pair _ Ho) as [c Hc].
      pose proof Hc as Hc'. apply o2c_iff in Hc'. rewrite Hc'. cbn [app run]. unfold push.
      destruct (pair_opener _ _ Hc) as [_ Hcc]. pose proof (closer_not_opener _ Hcc) as Hco.
      apply mem_false_iff in Hco. apply mem_true_iff in Hcc. rewrite Hco, Hcc.
      apply c2o_iff in Hc. now rewrite Hc, eqb_refl.
    Qed.
    Theorem correction_balances ts prefix suffix :
      error_correcting_prefix_and_suffix pairs ts = (prefix, suffix) ->
      balanced pairs None (prefix ++ ts ++ suffix).
    Proof using HP.
      unfold error_correcting_prefix_and_suffix.
      destruct (fold_left (correct_step pairs) ts ([], [])) as [S P] eqn:E. intros [= <- <-].
      apply correct_loop in E as [Q [-> [E1 [E2 E3]]]]. apply balanced_iff_run.
      cbn [app]. rewrite run_app, run_openers, app_nil_r by auto. rewrite run_app. cbn [app] in E1. rewrite E1.
      apply run_closers. apply E3. constructor.
    Qed.
    Lemma correct_balanced ctx ts : balanced pairs ctx ts -> forall S P, top S = ctx ->
      fold_left (correct_step pairs) ts (S, P) = (S, P).
    Proof using HP.
      induction 1 as [ctx|ctx t ts Ho Hc Hb IH|o t ts Hc Hn Hb IH|ctx o c inner ts Hi Hb IH Hb2 IH2]; intros S P Hs; auto.
      - cbn [fold_left]. unfold correct_step at 2. apply mem_false_iff in Ho, Hc. rewrite Ho, Hc. auto.
      - cbn [fold_left]. unfold correct_step at 2. pose proof (closer_not_opener _ Hc) as Ho.
        apply mem_false_iff in Ho. apply mem_true_iff in Hc. rewrite Ho, Hc.
        destruct S as [|o' S]; [discriminate|]. injection Hs as ->.
        destruct (eqb (closer_to_opener pairs t) (Some o)) eqn:E; [|apply IH; reflexivity].
        apply eqb_eq, c2o_iff in E. contradiction.
      - destruct (pair_opener _ _ Hi) as [Ho Hc]. pose proof (closer_not_opener _ Hc) as Hco.
        cbn [fold_left]. unfold correct_step at 2. apply mem_true_iff in Ho. rewrite Ho.
        rewrite fold_left_app, IH by reflexivity. cbn [fold_left]. unfold correct_step at 2.
        apply mem_false_iff in Hco. apply mem_true_iff in Hc. rewrite Hco, Hc.
        apply c2o_iff in Hi. rewrite Hi, eqb_refl. auto.
    Qed.
    Theorem correction_idle ts : balanced pairs None ts <-> error_correcting_prefix_and_suffix pairs ts = ([], []).
    Proof using HP.
      split.
      - intros Hb. unfold error_correcting_prefix_and_suffix. now rewrite (correct_balanced None).
      - intros E. apply correction_balances in E. now rewrite app_nil_r in E.
    Qed.

    (** *** Bracket matching builds the tree of the grammar. *)
    Definition top_of (s : list (T * nat * list pnode)) : option T :=
      match s with [] => None | (o, _, _) :: _ => Some o end.
    Lemma match_forest tol ctx ts : balanced pairs ctx ts -> (tol = true \/ strictly_balanced pairs ts) ->
      forall i, exists ns, forest pairs ctx i ts ns /\
      forall cur stk k, top_of stk = ctx ->
        match_loop pairs tol i (ts ++ k) (mkMatching cur stk) =
        match_loop pairs tol (i + length ts) k (mkMatching (cur ++ ns) stk).
    Proof using HP.
      intros Hb Ht.
      assert (Hb' : if tol then balanced pairs ctx ts else strictly_balanced pairs ts)
        by (destruct tol; [auto|destruct Ht as [C|Ht]; [discriminate|auto]]).
      clear Ht. destruct tol.
      - clear Hb'. induction Hb as [ctx|ctx t ts Ho Hc Hb IH|o t ts Hc Hn Hb IH|ctx o c inner ts Hi Hb IH Hb2 IH2]; intros i.
        + exists []. split; [constructor|]. intros. rewrite app_nil_r, Nat.add_0_r. reflexivity.
        + destruct (IH (S i)) as [ns [F E]]. eexists. split; [apply fo_plain; eauto|]. intros cur stk k Hk.
          cbn [app match_loop]. unfold match_step. apply mem_false_iff in Ho, Hc. rewrite Ho, Hc. cbn [bind current stack].
          rewrite E by auto. unfold sibling. rewrite <- app_assoc. cbn [app length].
          replace (i + 1) with (S i) by lia. f_equal. lia.
        + destruct (IH (S i)) as [ns [F E]]. eexists. split; [apply fo_stray; eauto|]. intros cur stk k Hk.
          cbn [app match_loop]. unfold match_step. pose proof (closer_not_opener _ Hc) as Ho.
          apply mem_false_iff in Ho. apply mem_true_iff in Hc. rewrite Ho, Hc. cbn [stack].
          destruct stk as [|[[o' j] before] stk]; [discriminate|]. injection Hk as ->.
          destruct (eqb (closer_to_opener pairs t) (Some o)) eqn:Ec; [apply eqb_eq, c2o_iff in Ec; contradiction|].
          cbn [bind current stack]. rewrite E by auto. unfold sibling. rewrite <- app_assoc. cbn [app length].
          replace (i + 1) with (S i) by lia. f_equal. lia.
        + destruct (IH (S i)) as [ms [F1 E1]]. destruct (IH2 (S (S i + length inner))) as [ns [F2 E2]].
          eexists. split; [apply fo_pair; eauto|]. intros cur stk k Hk.
          destruct (pair_opener _ _ Hi) as [Ho Hc]. pose proof (closer_not_opener _ Hc) as Hco.
          cbn [app match_loop]. unfold match_step at 1. apply mem_true_iff in Ho. rewrite Ho. cbn [bind current stack].
          rewrite <- app_assoc. rewrite E1 by reflexivity. cbn [app match_loop]. unfold match_step at 1.
          apply mem_false_iff in Hco. apply mem_true_iff in Hc. rewrite Hco, Hc. cbn [stack].
          apply c2o_iff in Hi. rewrite Hi, eqb_refl. cbn [bind current stack]. rewrite E2 by auto.
          unfold paired. rewrite <- app_assoc. cbn [app length]. rewrite app_length. cbn [length].
          rewrite !Nat.add_1_r. f_equal. lia.
      - clear Hb. revert ctx. induction Hb' as [|t ts Ho Hc Hb IH|o c inner ts Hi Hb IH Hb2 IH2]; intros ctx i.
        + exists []. split; [constructor|]. intros. rewrite app_nil_r, Nat.add_0_r. reflexivity.
        + destruct (IH ctx (S i)) as [ns [F E]]. eexists. split; [apply fo_plain; eauto|]. intros cur stk k Hk.
          cbn [app match_loop]. unfold match_step. apply mem_false_iff in Ho, Hc. rewrite Ho, Hc. cbn [bind current stack].
          rewrite E by auto. unfold sibling. rewrite <- app_assoc. cbn [app length].
          replace (i + 1) with (S i) by lia. f_equal. lia.
        + destruct (IH (Some o) (S i)) as [ms [F1 E1]]. destruct (IH2 ctx (S (S i + length inner))) as [ns [F2 E2]].
          eexists. split; [apply fo_pair; eauto|]. intros cur stk k Hk.
          destruct (pair_opener _ _ Hi) as [Ho Hc]. pose proof (closer_not_opener _ Hc) as Hco.
          cbn [app match_loop]. unfold match_step at 1. apply mem_true_iff in Ho. rewrite Ho. cbn [bind current stack].
          rewrite <- app_assoc. rewrite E1 by reflexivity. cbn [app match_loop]. unfold match_step at 1.
          apply mem_false_iff in Hco. apply mem_true_iff in Hc. rewrite Hco, Hc. cbn [stack].
          apply c2o_iff in Hi. rewrite Hi, eqb_refl. cbn [bind current stack]. rewrite E2 by auto.
          unfold paired. rewrite <- app_assoc. cbn [app length]. rewrite app_length. cbn [length].
          rewrite !Nat.add_1_r. f_equal. lia.
    Qed.
    Lemma strictly_balanced_balanced ts : strictly_balanced pairs ts -> forall ctx, balanced pairs ctx ts.
    Proof. induction 1; intros ctx; [apply bal_nil|apply bal_plain|apply bal_pair]; auto. Qed.
    Theorem match_tree tol ts : balanced pairs None ts -> (tol = true \/ strictly_balanced pairs ts) ->
      exists ns, forest pairs None 0 ts ns /\
        stack_based_bracket_match pairs tol ts = Ok (PNode 0 (Some (length ts)) ARoot ns).
    Proof using HP.
      intros Hb Ht. destruct (match_forest tol None ts Hb Ht 0) as [ns [F E]]. exists ns. split; auto.
      unfold stack_based_bracket_match. specialize (E [] [] [] eq_refl). rewrite app_nil_r in E. rewrite E.
      cbn [match_loop bind stack close_all fold_left current app]. destruct tol; reflexivity.
    Qed.
    (** Matching never fails in tolerant mode. *)
    Lemma match_loop_tolerant ts : forall i m, exists m', match_loop pairs true i ts m = Ok m'.
    Proof.
      induction ts as [|t ts IH]; intros i m; cbn [match_loop]; eauto. unfold match_step.
      destruct (mem t (openers pairs)); cbn [bind]; auto. destruct (mem t (closers pairs)); cbn [bind]; auto.
      destruct (stack m) as [|[[o j] before] rest]; cbn [bind]; auto.
      destruct (eqb (closer_to_opener pairs t) (Some o)); cbn [bind]; auto.
    Qed.
  End Proper.
End Spec.

(** ** Ranges. *)
Section Ranges.
  (** [cs] covers the range from [lo] to [hi] from left to right, without gaps
      or overlap, and so do the children of each of them. *)
  Inductive tiles : nat -> nat -> list pnode -> Prop :=
  | tiles_nil lo : tiles lo lo []
  | tiles_cons lo mid hi ann cs l :
      lo <= mid -> (cs = [] \/ tiles lo mid cs) -> tiles mid hi l ->
      tiles lo hi (PNode lo (Some mid) ann cs :: l).
  Definition valid_tree (n : pnode) (size : nat) : Prop :=
    exists ann cs, n = PNode 0 (Some size) ann cs /\ (cs = [] \/ tiles 0 size cs).

  Lemma tiles_le lo hi l : tiles lo hi l -> lo <= hi.
  Proof. induction 1; lia. Qed.
  Lemma tiles_app lo mid hi a b : tiles lo mid a -> tiles mid hi b -> tiles lo hi (a ++ b).
  Proof. intros Ha. revert b. induction Ha; intros b Hb; auto. cbn [app]. constructor; auto. Qed.
  Lemma tiles_app_inv a : forall lo hi b, tiles lo hi (a ++ b) -> exists mid, tiles lo mid a /\ tiles mid hi b.
  Proof.
    induction a as [|n a IH]; intros lo hi b Ht; [exists lo; split; auto; constructor|].
    cbn [app] in Ht. inversion Ht as [|? mid ? ann cs ? Hle Hc Hr]; subst.
    apply IH in Hr as [m2 [H1 H2]]. exists m2. split; auto. constructor; auto.
  Qed.

  (** The tokens a tree's leaves stand for, from left to right. *)
  Fixpoint leaf_tokens (n : pnode) : list nat :=
    match n with
    | PNode lo hi _ cs =>
        match cs with
        | [] => match hi with Some h => seq lo (h - lo) | None => [] end
        | _ => flat_map leaf_tokens cs
        end
    end.
  Lemma tiles_leaves lo hi l : tiles lo hi l -> flat_map leaf_tokens l = seq lo (hi - lo).
  Proof.
    revert lo hi. 
    assert (G : forall n, forall lo mid, p_lo n = lo -> p_hi n = Some mid -> lo <= mid ->
              (p_children n = [] \/ tiles lo mid (p_children n)) -> leaf_tokens n = seq lo (mid - lo)).
    { induction n as [l0 h0 ann cs IH] using pnode_ind'; cbn. intros lo mid -> -> Hle Hc.
      destruct cs as [|c cs]; auto. destruct Hc as [C|Hc]; [discriminate|].
      assert (E : forall cs lo mid, Forall (fun n => forall lo mid, p_lo n = lo -> p_hi n = Some mid -> lo <= mid ->
              (p_children n = [] \/ tiles lo mid (p_children n)) -> leaf_tokens n = seq lo (mid - lo)) cs ->
              tiles lo mid cs -> flat_map leaf_tokens cs = seq lo (mid - lo)).
      { clear. intros cs. induction cs as [|c cs IHc]; intros lo mid HF Ht.
        - inversion Ht; subst. now rewrite Nat.sub_diag.
        - inversion HF as [|? ? Hc HF']; subst. inversion Ht as [|? m ? ann cs0 ? Hle Hcs Hr]; subst.
          cbn [flat_map]. rewrite (Hc lo m), (IHc m mid) by auto.
          replace (mid - lo) with ((m - lo) + (mid - m)) by (apply tiles_le in Hr; lia).
          rewrite seq_app. do 2 f_equal. lia. }
      exact (E (c :: cs) lo mid IH Hc). }
    intros lo hi Ht. induction Ht as [lo|lo mid hi ann cs l Hle Hc Hr IH].
    - now rewrite Nat.sub_diag.
    - cbn [flat_map]. rewrite (G (PNode lo (Some mid) ann cs) lo mid), IH by auto.
      apply tiles_le in Hr. replace (hi - lo) with ((mid - lo) + (hi - mid)) by lia.
      rewrite seq_app. do 2 f_equal. lia.
  Qed.

  (** [valid_parse_ranges] accepts exactly the trees that tile their range,
      provided no range is reversed. *)
  Fixpoint forward_ranges (n : pnode) : Prop :=
    match n with
    | PNode lo hi _ cs => match hi with Some h => lo <= h | None => True end /\
                          fold_right (fun c P => forward_ranges c /\ P) True cs
    end.
  Lemma last_swap {A} (l : list A) d d' : l <> [] -> last l d = last l d'.
  Proof. induction l as [|a l IH]; intros Hl; [congruence|]. destruct l as [|b l]; auto. cbn [last] in *. apply IH. discriminate. Qed.
  Lemma check_children lo hi cs : cs <> [] ->
    ((lo =? p_lo (hd (PNode 0 None ARoot []) cs)) && eqb hi (p_hi (last cs (hd (PNode 0 None ARoot []) cs)))
      && (match hi with Some _ => true | None => false end)
      && eqb (map (fun c => Some (p_lo c)) (tl cs)) (map p_hi (removelast cs)) = true) ->
    fold_right (fun c P => forward_ranges c /\ P) True cs ->
    Forall (fun c => p_children c = [] \/ forall h, p_hi c = Some h -> tiles (p_lo c) h (p_children c)) cs ->
    exists h, hi = Some h /\ tiles lo h cs.
  Proof.
    revert lo. induction cs as [|c cs IH]; intros lo Hn E Hf HF; [congruence|]. clear Hn.
    rewrite !andb_true_iff in E. destruct E as [[[E1 E2] E3] E4]. cbn [hd] in E1, E2. apply Nat.eqb_eq in E1.
    apply eqb_eq in E2, E4. inversion HF as [|? ? Hc HF']; subst. cbn in Hf. destruct Hf as [Hf1 Hf2].
    destruct c as [clo chi cann ccs]. cbn [p_lo p_hi p_children] in *.
    destruct cs as [|c2 cs].
    - cbn in E3. destruct chi as [h|]; [|discriminate]. exists h. split; auto.
      constructor; [apply Hf1| |constructor]. destruct Hc as [->|Hc]; auto.
    - cbn [tl removelast map] in E4. injection E4 as E4 E5. cbn [p_hi] in E4. subst chi.
      destruct (IH (p_lo c2)) as [h [Eh Ht]]; auto; [discriminate| |].
      + rewrite !andb_true_iff. cbn [hd]. splits.
        * apply Nat.eqb_refl.
        * rewrite (last_swap (c2 :: cs) c2 (PNode clo (Some (p_lo c2)) cann ccs)) by discriminate. apply eqb_refl.
        * exact E3.
        * cbn [tl removelast]. rewrite E5. apply eqb_refl.
      + exists h. split; [exact Eh|]. constructor; auto; [apply Hf1|]. destruct Hc as [->|Hc]; auto.
  Qed.
End Ranges.

(** [valid_parse_ranges] decides [valid_tree]. *)
Lemma forward_In n c : forward_ranges n -> In c (p_children n) -> forward_ranges c.
Proof.
  destruct n as [lo hi ann cs]. cbn [forward_ranges p_children]. intros [_ Hf] Hi.
  induction cs as [|x cs IH]; [destruct Hi|]. cbn [fold_right] in Hf. destruct Hf as [H1 H2].
  destruct Hi as [->|Hi]; auto.
Qed.
Lemma check_ranges_sound n : forward_ranges n -> check_ranges n = true ->
  p_children n = [] \/ exists h, p_hi n = Some h /\ tiles (p_lo n) h (p_children n).
Proof.
  induction n as [lo hi ann cs IH] using pnode_ind'. intros Hf Hc. cbn [p_children p_hi p_lo].
  destruct cs as [|c0 cs]; auto. right. cbn [check_ranges] in Hc. apply andb_true_iff in Hc as [Hc1 Hc2].
  apply (check_children lo hi (c0 :: cs)); auto.
  - discriminate.
  - cbn [forward_ranges] in Hf. apply Hf.
  - rewrite Forall_forall in IH |- *. intros c Hi. rewrite forallb_forall in Hc2.
    destruct (IH c Hi) as [E|[h [E Ht]]]; auto.
    + eapply forward_In; eauto.
    + right. intros h' E'. congruence.
Qed.
Lemma tiles_check lo hi cs : tiles lo hi cs -> cs <> [] ->
  p_lo (hd (PNode 0 None ARoot []) cs) = lo /\ (forall d, p_hi (last cs d) = Some hi) /\
  map (fun c => Some (p_lo c)) (tl cs) = map p_hi (removelast cs).
Proof.
  induction 1 as [lo|lo mid hi ann cs l Hle Hc Hr IH]; intros Hn; [congruence|]. cbn [hd p_lo].
  destruct l as [|c l]; [inversion Hr; subst; auto|]. destruct IH as [I1 [I2 I3]]; [discriminate|].
  splits; auto. cbn [tl] in *. cbn [map] in *. change (removelast (PNode lo (Some mid) ann cs :: c :: l))
    with (PNode lo (Some mid) ann cs :: removelast (c :: l)). cbn [map p_hi]. cbn [hd] in I1. rewrite I1. f_equal. exact I3.
Qed.
Lemma tiles_In lo hi cs c : tiles lo hi cs -> In c cs ->
  exists h, p_hi c = Some h /\ lo <= p_lo c <= h /\ h <= hi /\ (p_children c = [] \/ tiles (p_lo c) h (p_children c)).
Proof.
  induction 1 as [lo|lo mid hi ann cs l Hle Hc Hr IH]; intros Hi; [destruct Hi|].
  pose proof (tiles_le _ _ _ Hr). destruct Hi as [<-|Hi].
  - exists mid. cbn. splits; auto.
  - destruct (IH Hi) as [h [E [H1 [H2 H3]]]]. exists h. splits; auto; lia.
Qed.
Lemma check_ranges_complete n : (p_children n = [] \/ exists h, p_hi n = Some h /\ tiles (p_lo n) h (p_children n)) ->
  check_ranges n = true.
Proof.
  induction n as [lo hi ann cs IH] using pnode_ind'. cbn [p_children p_hi p_lo]. intros [->|[h [-> Ht]]]; auto.
  destruct cs as [|c0 cs]; auto. cbn [check_ranges].
  destruct (tiles_check _ _ _ Ht) as [E1 [E2 E3]]; [discriminate|]. cbn [hd] in E1. rewrite E1, E2, E3, Nat.eqb_refl, !eqb_refl.
  cbn [andb]. apply forallb_forall. intros c Hi. rewrite Forall_forall in IH. apply IH; auto.
  destruct (tiles_In _ _ _ _ Ht Hi) as [hc [Ehc [_ [_ [E|Hc]]]]]; eauto.
Qed.
Theorem valid_parse_ranges_iff n size : forward_ranges n ->
  (valid_parse_ranges n size = true <-> valid_tree n size).
Proof.
  intros Hf. unfold valid_parse_ranges. rewrite !andb_true_iff. split.
  - intros [[E1 E2] E3]. apply Nat.eqb_eq in E1. apply eqb_eq in E2.
    pose proof (check_ranges_sound n Hf E3) as Hs. destruct n as [lo hi ann cs]. cbn in *. subst.
    exists ann, cs. split; auto. destruct Hs as [->|[h [[= <-] Ht]]]; auto.
  - intros [ann [cs [-> Hc]]]. cbn [p_lo p_hi]. splits; auto; [apply eqb_refl|].
    apply check_ranges_complete. cbn [p_children p_hi p_lo]. destruct Hc as [->|Hc]; eauto.
Qed.
Lemma valid_forward_children lo hi cs : tiles lo hi cs -> fold_right (fun c P => forward_ranges c /\ P) True cs.
Proof.
  assert (G : forall n, (forall h, p_hi n = Some h -> p_lo n <= h /\ (p_children n = [] \/ tiles (p_lo n) h (p_children n))) ->
              p_hi n <> None -> forward_ranges n).
  { induction n as [l0 h0 ann cs0 IH] using pnode_ind'. cbn [p_hi p_lo p_children forward_ranges]. intros Hh Hn.
    destruct h0 as [h0|]; [|congruence]. destruct (Hh h0 eq_refl) as [Hle Hc]. split; auto.
    destruct Hc as [->|Hc]; [exact I|].
    assert (F : forall c, In c cs0 -> forward_ranges c).
    { intros c Hi. rewrite Forall_forall in IH. destruct (tiles_In _ _ _ _ Hc Hi) as [h [E [H1 [H2 H3]]]].
      apply IH; auto; [|congruence]. intros h' E'. assert (h' = h) by congruence. subst. split; auto. lia. }
    clear - F. induction cs0 as [|c cs0 IHc]; cbn; auto. split; [apply F; now left|]. apply IHc. intros. apply F. now right. }
  induction 1 as [lo|lo mid hi ann cs l Hle Hc Hr IH]; cbn [fold_right]; auto. split; auto.
  apply G; cbn [p_hi p_lo p_children]; [|discriminate]. intros h [= <-]. auto.
Qed.
Lemma valid_tree_forward n size : valid_tree n size -> forward_ranges n.
Proof.
  intros [ann [cs [-> Hc]]]. cbn [forward_ranges]. split; [lia|].
  destruct Hc as [->|Hc]; [exact I|]. eapply valid_forward_children; eauto.
Qed.
Corollary valid_tree_accepted n size : valid_tree n size -> valid_parse_ranges n size = true.
Proof. intros Hv. apply valid_parse_ranges_iff; auto. eapply valid_tree_forward; eauto. Qed.

(** ** Leaves. *)
(** The ranges of the nodes without children, from left to right. *)
Fixpoint leaf_ranges (n : pnode) : list (nat * option nat) :=
  match n with PNode lo hi _ cs => match cs with [] => [(lo, hi)] | _ => flat_map leaf_ranges cs end end.
(** The ranges of single tokens, and empty ranges. *)
Definition single (i : nat) : nat * option nat := (i, Some (S i)).
Definition nonempty_range (r : nat * option nat) : bool := negb (eqb (snd r) (Some (fst r))).

Section Split.
  Context {T : Type} `{EqDec T}.
  Variable pairs : list (T * T).

  Lemma forest_tiles ctx i ts ns : forest pairs ctx i ts ns -> tiles i (i + length ts) ns.
  Proof.
    induction 1 as [ctx i|ctx i t ts ns Ho Hc F IH|o i t ts ns Hc Hn F IH|ctx i o c inner ms ts ns j Hi F1 IH1 F2 IH2].
    - rewrite Nat.add_0_r. constructor.
    - cbn [length]. replace (i + S (length ts)) with (S i + length ts) by lia. constructor; auto.
    - cbn [length]. replace (i + S (length ts)) with (S i + length ts) by lia. constructor; auto.
    - cbn [length]. rewrite app_length. cbn [length].
      replace (i + S (length inner + S (length ts))) with (S j + length ts) by (unfold j; lia).
      constructor; [unfold j; lia| |exact IH2]. right.
      constructor; [lia|auto|]. constructor; [unfold j; lia|auto|]. constructor; [lia|auto|]. constructor.
  Qed.
  Lemma forest_leaves ctx i ts ns : forest pairs ctx i ts ns ->
    filter nonempty_range (flat_map leaf_ranges ns) = map single (seq i (length ts)).
  Proof.
    assert (N : forall k, nonempty_range (k, Some (S k)) = true).
    { intros k. unfold nonempty_range. cbn. rewrite neq_eqb; auto. intros [= C]. lia. }
    induction 1 as [ctx i|ctx i t ts ns Ho Hc F IH|o i t ts ns Hc Hn F IH|ctx i o c inner ms ts ns j Hi F1 IH1 F2 IH2].
    - reflexivity.
    - cbn [flat_map leaf_ranges app filter length seq map]. rewrite N, IH. reflexivity.
    - cbn [flat_map leaf_ranges app filter length seq map]. rewrite N, IH. reflexivity.
    - cbn [flat_map leaf_ranges length seq map]. rewrite app_nil_r. cbn [app filter]. rewrite N. cbn [app].
      rewrite <- app_assoc, filter_app. cbn [app filter]. rewrite N. rewrite IH2.
      rewrite app_length, seq_app, map_app. cbn [length seq map]. unfold single at 2. unfold single at 1. f_equal.
      replace (S i + length inner) with j by reflexivity.
      assert (E : filter nonempty_range match ms with [] => [(S i, Some j)] | _ :: _ => flat_map leaf_ranges ms end
                  = map single (seq (S i) (length inner))).
      { destruct ms as [|m ms]; [|exact IH1]. cbn [flat_map filter] in IH1 |- *.
        destruct inner as [|x inner]; [|discriminate]. unfold nonempty_range, j. cbn. rewrite Nat.add_0_r, eqb_refl. reflexivity. }
      rewrite E. reflexivity.
  Qed.

  (** What splitting and re-nesting need to know about a tree. *)
  Inductive well_formed (size : nat) : pnode -> Prop :=
  | WF lo hi ann cs :
      lo <= hi -> hi <= size -> (cs = [] \/ tiles lo hi cs) -> Forall (well_formed size) cs ->
      (ann = APaired -> exists l m r, cs = [l; m; r] /\ p_len l = Ok 1 /\ p_len r = Ok 1 /\
         p_ann l = ALeft /\ p_ann m = AMiddle /\ p_ann r = ARight) ->
      well_formed size (PNode lo (Some hi) ann cs).
  Lemma well_formed_mono size size' n : size <= size' -> well_formed size n -> well_formed size' n.
  Proof.
    intros Hs. induction n as [lo hi ann cs IH] using pnode_ind'. intros Hw. inversion Hw; subst.
    constructor; auto; try lia. rewrite Forall_forall in *. auto.
  Qed.
  (** Nothing was split in the subtree. *)
  Inductive unsplit_tree : pnode -> Prop :=
  | ut_node lo hi ann cs : ann <> ASplit -> Forall unsplit_tree cs -> unsplit_tree (PNode lo hi ann cs).
  Lemma forest_unsplit ctx i ts ns : forest pairs ctx i ts ns -> Forall unsplit_tree ns.
  Proof.
    induction 1; constructor; auto; constructor; auto; try discriminate.
    repeat constructor; auto; discriminate.
  Qed.
  Lemma forest_well_formed ctx i ts ns : forest pairs ctx i ts ns -> Forall (well_formed (i + length ts)) ns.
  Proof.
    induction 1 as [ctx i|ctx i t ts ns Ho Hc F IH|o i t ts ns Hc Hn F IH|ctx i o c inner ms ts ns j Hi F1 IH1 F2 IH2].
    - constructor.
    - cbn [length]. replace (i + S (length ts)) with (S i + length ts) by lia.
      constructor; auto. constructor; auto; try lia. discriminate.
    - cbn [length]. replace (i + S (length ts)) with (S i + length ts) by lia.
      constructor; auto. constructor; auto; try lia. discriminate.
    - cbn [length]. rewrite app_length. cbn [length].
      replace (i + S (length inner + S (length ts))) with (S j + length ts) by (unfold j; lia).
      pose proof (forest_tiles _ _ _ _ F1) as T1. fold j in T1.
      constructor; [|exact IH2]. constructor; try (unfold j; lia).
      + right. constructor; [lia|auto|]. constructor; [unfold j; lia|auto|]. constructor; [lia|auto|]. constructor.
      + constructor; [constructor; auto; try (unfold j; lia); discriminate|].
        constructor; [|constructor; [constructor; auto; try (unfold j; lia); discriminate|constructor]].
        constructor; auto; try (unfold j; lia); [|discriminate].
        apply (Forall_impl (well_formed (S j + length ts)) (P := well_formed (S i + length inner))); auto.
        intros n. apply well_formed_mono. unfold j. lia.
      + intros _. do 3 eexists. splits; [reflexivity| | |auto..]; unfold p_len; cbn [p_hi p_lo]; f_equal; lia.
  Qed.

  Variable tokens : list T.
  Notation wf := (well_formed (length tokens)).

  Lemma wf_len n : wf n -> exists k, p_len n = Ok k /\ exists h, p_hi n = Some h /\ k = h - p_lo n /\ p_lo n <= h /\ h <= length tokens.
  Proof. intros Hw. inversion Hw; subst. unfold p_len. cbn [p_hi p_lo]. eexists. split; [reflexivity|]. eauto. Qed.
  Lemma token_at_ok i : i < length tokens -> exists t, token_at tokens i = Ok t /\ nth_error tokens i = Some t.
  Proof.
    intros Hi. unfold token_at. destruct (nth_error tokens i) eqn:E; [eauto|]. apply nth_error_None in E. lia.
  Qed.
  Lemma wf_single n : wf n -> p_len n = Ok 1 -> exists i t, p_lo n = i /\ p_hi n = Some (S i) /\ token_at tokens i = Ok t.
  Proof.
    intros Hw El. destruct (wf_len n Hw) as [k [Ek [h [Eh [-> [H1 H2]]]]]]. assert (h - p_lo n = 1) by congruence.
    destruct (token_at_ok (p_lo n)) as [t [Et _]]; [lia|]. exists (p_lo n), t. splits; auto. rewrite Eh. f_equal. lia.
  Qed.
  Lemma wf_children n : wf n -> Forall wf (p_children n).
  Proof. intros Hw. now inversion Hw. Qed.
  Lemma unsplittable_ok ps n : wf n -> exists b, unsplittable tokens ps n = Ok b.
  Proof.
    intros Hw. unfold unsplittable. inversion Hw as [lo hi ann cs H1 H2 H3 H4 H5]; subst. cbn [p_ann p_children].
    destruct (eqb ann APaired) eqn:Ea; eauto. apply eqb_eq in Ea. destruct (H5 Ea) as [l [m [r [-> [El [Er _]]]]]].
    inversion H4 as [|? ? Wl H4']; subst. inversion H4' as [|? ? Wm H4'']; subst. inversion H4'' as [|? ? Wr _]; subst.
    destruct (wf_single l Wl El) as [i [t [-> [_ ->]]]]. cbn [bind].
    destruct (assoc t ps); eauto. destruct (wf_single r Wr Er) as [i' [t' [_ [-> Et]]]].
    replace (S i' - 1) with i' by lia. rewrite Et. cbn [bind]. eauto.
  Qed.
  Lemma is_splitter_ok splits n : wf n -> exists b, is_splitter tokens splits n = Ok b /\
    (b = true <-> exists i t, p_lo n = i /\ p_hi n = Some (S i) /\ nth_error tokens i = Some t /\ In t splits).
  Proof.
    intros Hw. unfold is_splitter. destruct (wf_len n Hw) as [k [-> [h [Eh [-> [H1 H2]]]]]]. cbn [bind].
    destruct (h - p_lo n =? 1) eqn:E1.
    - apply Nat.eqb_eq in E1. destruct (token_at_ok (p_lo n)) as [t [Et En]]; [lia|]. rewrite Et. cbn [bind].
      eexists. split; [reflexivity|]. split.
      + intros Hm. apply mem_true_iff in Hm. exists (p_lo n), t. splits; auto. rewrite Eh. f_equal. lia.
      + intros [i [t' [<- [_ [En' Hi]]]]]. apply mem_true_iff. congruence.
    - eexists. split; [reflexivity|]. split; [discriminate|]. intros [i [t [<- [E _]]]].
      apply Nat.eqb_neq in E1. rewrite Eh in E. injection E as ->. lia.
  Qed.

  Lemma group_by_concat {A} (l : list (A * bool)) : concat (group_by l) = map fst l /\ group_by l <> [].
  Proof.
    induction l as [|[x b] l [IH1 IH2]]; [split; [reflexivity|discriminate]|]. cbn [group_by map fst]. destruct b.
    - cbn [concat app]. split; [now rewrite IH1|discriminate].
    - destruct (group_by l) as [|g gs]; [congruence|]. cbn [cons_group concat app] in *. split; [now rewrite <- IH1|discriminate].
  Qed.
  (** Every group but the last ends with its only splitter; the last has none. *)
  Fixpoint cut_after {A} (f : A -> Prop) (gs : list (list A)) : Prop :=
    match gs with
    | [] => False
    | [g] => Forall (fun x => ~ f x) g
    | g :: gs' => (exists g0 x, g = g0 ++ [x] /\ f x /\ Forall (fun y => ~ f y) g0) /\ cut_after f gs'
    end.
  Lemma group_by_cut {A} (f : A -> Prop) (l : list (A * bool)) :
    Forall (fun p => snd p = true <-> f (fst p)) l -> cut_after f (group_by l).
  Proof.
    induction l as [|[x b] l IH]; intros HF; [cbn; constructor|]. inversion HF as [|? ? Hx HF']; subst.
    cbn [fst snd] in Hx. specialize (IH HF'). cbn [group_by]. pose proof (proj2 (group_by_concat l)) as Hn.
    destruct b.
    - destruct (group_by l) as [|g gs]; [congruence|]. cbn [cut_after]. split; [|exact IH].
      exists [], x. splits; auto. now apply Hx.
    - assert (Hfx : ~ f x) by (intros C; apply Hx in C; discriminate).
      destruct (group_by l) as [|g gs]; [congruence|]. cbn [cons_group]. destruct gs as [|g2 gs].
      + cbn [cut_after] in *. constructor; auto.
      + change (cut_after f ((x :: g) :: g2 :: gs)) with
          ((exists g0 y, x :: g = g0 ++ [y] /\ f y /\ Forall (fun z => ~ f z) g0) /\ cut_after f (g2 :: gs)).
        destruct IH as [[g0 [y [-> [Hy Hg]]]] IH]. split; [|exact IH]. exists (x :: g0), y. splits; auto.
  Qed.

  (** *** Regrouping. *)
  Lemma tiles_group lo hi g : tiles lo hi g -> g <> [] -> exists c0, g = c0 :: tl g /\ p_lo c0 = lo /\ p_hi (last g c0) = Some hi.
  Proof.
    intros Ht Hn. destruct (tiles_check _ _ _ Ht Hn) as [E1 [E2 _]]. destruct g as [|c g]; [congruence|].
    exists c. cbn [hd tl] in *. auto.
  Qed.
  Lemma split_groups_tile gs : forall lo hi, tiles lo hi (concat gs) -> hi <= length tokens -> Forall wf (concat gs) ->
    tiles lo hi (flat_map split_group gs) /\ Forall wf (flat_map split_group gs) /\
    flat_map leaf_ranges (flat_map split_group gs) = flat_map leaf_ranges (concat gs).
  Proof.
    induction gs as [|g gs IH]; intros lo hi Ht Hh HF; [splits; auto|]. cbn [concat] in Ht, HF.
    apply tiles_app_inv in Ht as [mid [T1 T2]]. apply Forall_app in HF as [F1 F2].
    destruct (IH mid hi T2 Hh F2) as [I1 [I2 I3]]. cbn [flat_map concat].
    destruct g as [|c g].
    - inversion T1; subst. cbn [split_group app]. splits; auto.
    - destruct (tiles_group _ _ _ T1) as [c0 [E [El Er]]]; [discriminate|]. injection E as <-. cbn [split_group]. rewrite El, Er.
      pose proof (tiles_le _ _ _ T1). pose proof (tiles_le _ _ _ T2).
      splits.
      + cbn [app]. constructor; auto.
      + constructor; auto. constructor; auto; try lia. discriminate.
      + rewrite !flat_map_app, I3. f_equal. cbn [flat_map]. now rewrite app_nil_r.
  Qed.

  Lemma regroup_spec ann lo hi (cs : list (pnode * bool)) :
    tiles lo hi (map fst cs) -> hi <= length tokens -> Forall wf (map fst cs) ->
    tiles lo hi (regroup ann cs) /\ Forall wf (regroup ann cs) /\
    flat_map leaf_ranges (regroup ann cs) = flat_map leaf_ranges (map fst cs) /\
    (ann = APaired -> regroup ann cs = map fst cs) /\
    (regroup ann cs = [] -> map fst cs = []).
  Proof.
    intros Ht Hh HF. unfold regroup. destruct (group_by_concat cs) as [E Hn].
    destruct ((1 <? length (group_by cs)) && negb (eqb ann APaired)) eqn:Ec; [|splits; auto].
    apply andb_true_iff in Ec as [E1 E2]. apply negb_true_iff, eqb_neq in E2.
    rewrite <- E in Ht, HF. destruct (split_groups_tile _ _ _ Ht Hh HF) as [I1 [I2 I3]].
    rewrite E in I3. splits; auto; [intros; contradiction|].
    intros C. destruct cs as [|c cs]; auto. exfalso. rewrite C in I3. cbn [flat_map] in I3.
    assert (G : forall n, leaf_ranges n <> []).
    { induction n as [l0 h0 a0 cs0 IHn] using pnode_ind'. cbn [leaf_ranges]. destruct cs0 as [|c0 cs0]; [discriminate|].
      cbn [flat_map]. inversion IHn; subst. intros C'. apply app_eq_nil in C' as [C' _]. contradiction. }
    cbn [map flat_map] in I3. symmetry in I3. apply app_eq_nil in I3 as [I3 _]. now apply G in I3.
  Qed.

  (** *** Splitting. *)
  Variables (splits : list T) (quotes : list (T * T)).
  Definition split_child (c : pnode) : result pnode :=
    do len <- p_len c; if 1 <? len then split_node tokens splits quotes c else Ok c.
  Lemma split_node_eq lo hi ann cs :
    split_node tokens splits quotes (PNode lo hi ann cs) =
      (do stop <- unsplittable tokens quotes (PNode lo hi ann cs);
       if stop then Ok (PNode lo hi ann cs)
       else do flags <- mapM (is_splitter tokens splits) cs;
            do cs' <- mapM split_child cs;
            Ok (PNode lo hi ann (regroup ann (combine cs' flags)))).
  Proof.
    cbn [split_node]. destruct (unsplittable tokens quotes (PNode lo hi ann cs)) as [[]|]; cbn [bind]; auto.
    destruct (mapM (is_splitter tokens splits) cs) as [flags|]; cbn [bind]; auto.
    assert (E : forall l, (fix go (l : list pnode) : result (list pnode) :=
                       match l with
                       | [] => Ok []
                       | c :: l' =>
                           do len <- p_len c;
                           do c' <- (if 1 <? len then split_node tokens splits quotes c else Ok c);
                           do r <- go l';
                           Ok (c' :: r)
                       end) l = mapM split_child l).
    { induction l as [|c l IH]; auto. cbn [mapM]. rewrite <- IH. unfold split_child.
      destruct (p_len c); cbn [bind]; auto. }
    now rewrite E.
  Qed.

  (** The result of splitting, at every level. *)
  Definition is_split_token (n : pnode) : Prop :=
    exists i t, p_lo n = i /\ p_hi n = Some (S i) /\ nth_error tokens i = Some t /\ In t splits.
  (** A bracket group whose opening and closing tokens are an unsplittable pair. *)
  Definition quoted (n : pnode) : Prop :=
    p_ann n = APaired /\ exists l m r i j o c,
      p_children n = [l; m; r] /\ p_lo l = i /\ p_hi r = Some (S j) /\
      nth_error tokens i = Some o /\ nth_error tokens j = Some c /\ assoc o quotes = Some c.
  Inductive split_up : pnode -> Prop :=
  | su_quote n : quoted n -> unsplit_tree n -> split_up n
  | su_small n k : p_len n = Ok k -> k <= 1 -> split_up n
  | su_plain lo hi ann cs : (ann = APaired \/ Forall (fun c => ~ is_split_token c) cs) ->
      ~ quoted (PNode lo hi ann cs) ->
      Forall split_up cs -> split_up (PNode lo hi ann cs)
  | su_split lo hi ann gs : cut_after is_split_token gs -> Forall split_up (concat gs) -> ann <> APaired ->
      split_up (PNode lo hi ann (flat_map split_group gs)).

  Lemma unsplittable_quoted n b : wf n -> unsplittable tokens quotes n = Ok b -> (b = true <-> quoted n).
  Proof.
    intros Hw. unfold unsplittable, quoted. inversion Hw as [lo hi ann cs H1 H2 H3 H4 H5]; subst. cbn [p_ann p_children].
    destruct (eqb ann APaired) eqn:Ea.
    2: { apply eqb_neq in Ea. intros [= <-]. split; [discriminate|]. intros [C _]. congruence. }
    apply eqb_eq in Ea. destruct (H5 Ea) as [l [m [r [-> [El [Er _]]]]]].
    inversion H4 as [|? ? Wl H4']; subst. inversion H4' as [|? ? Wm H4'']; subst. inversion H4'' as [|? ? Wr _]; subst.
    destruct (wf_single l Wl El) as [i [t [E1 [_ E2]]]]. destruct (wf_single r Wr Er) as [i' [t' [_ [E3 E4]]]].
    rewrite E1, E2. cbn [bind]. unfold token_at in E2, E4.
    destruct (nth_error tokens i) as [t0|] eqn:N1; [|discriminate]. injection E2 as ->.
    destruct (nth_error tokens i') as [t0|] eqn:N2; [|discriminate]. injection E4 as ->.
    destruct (assoc t quotes) as [c|] eqn:Ec.
    - rewrite E3. replace (S i' - 1) with i' by lia. unfold token_at. rewrite N2. cbn [bind]. intros [= <-]. split.
      + intros E. apply eqb_eq in E. subst c. split; auto. exists l, m, r, i, i', t, t'. splits; auto.
      + intros [_ [l' [m' [r' [a [b [o [c' [E [F1 [F2 [F3 [F4 F5]]]]]]]]]]]]]. injection E as <- <- <-.
        assert (b = i') by congruence. assert (a = i) by congruence. subst a b. apply eqb_true_iff. congruence.
    - intros [= <-]. split; [discriminate|].
      intros [_ [l' [m' [r' [a [b [o [c' [E [F1 [F2 [F3 [F4 F5]]]]]]]]]]]]]. injection E as <- <- <-.
      assert (a = i) by congruence. subst a. congruence.
  Qed.
  Definition same_frame (n n' : pnode) : Prop := p_lo n' = p_lo n /\ p_hi n' = p_hi n /\ p_ann n' = p_ann n.
  Lemma same_frame_len n n' : same_frame n n' -> p_len n' = p_len n.
  Proof. intros [E1 [E2 _]]. unfold p_len. now rewrite E1, E2. Qed.
  Lemma same_frame_split n n' : same_frame n n' -> (is_split_token n' <-> is_split_token n).
  Proof. intros [E1 [E2 _]]. unfold is_split_token. now rewrite E1, E2. Qed.
  Lemma tiles_same lo hi cs cs' : tiles lo hi cs -> Forall2 same_frame cs cs' -> Forall wf cs' -> tiles lo hi cs'.
  Proof.
    intros Ht. revert cs'. induction Ht as [lo|lo mid hi ann cs l Hle Hc Hr IH]; intros cs' F2 HF.
    - inversion F2; subst. constructor.
    - inversion F2 as [|? n' ? l' [E1 [E2 E3]] F2' Ea Eb]; subst. inversion HF as [|? ? Hn' HF']; subst.
      cbn [p_lo p_hi p_ann] in *. destruct n' as [lo' hi' ann' cs'']. cbn [p_lo p_hi p_ann] in *. subst.
      inversion Hn'; subst. constructor; auto.
  Qed.
  Lemma F2_len {A B} (R : A -> B -> Prop) l l' : Forall2 R l l' -> length l = length l'.
  Proof. induction 1; cbn; auto. Qed.
  Lemma combine_fst {A B} (l : list A) (l' : list B) : length l = length l' -> map fst (combine l l') = l.
  Proof. revert l'. induction l as [|a l IH]; intros [|b l'] E; try discriminate; auto. cbn. f_equal. apply IH. now injection E. Qed.
  Lemma mapM_Forall {A B} (f : A -> result B) (P : A -> B -> Prop) l :
    Forall (fun x => exists y, f x = Ok y /\ P x y) l -> exists ys, mapM f l = Ok ys /\ Forall2 P l ys.
  Proof.
    induction 1 as [|x l [y [Hy HP]] HF IH]; [exists []; split; auto|]. destruct IH as [ys [E F]].
    exists (y :: ys). cbn [mapM]. rewrite Hy. cbn [bind]. rewrite E. cbn [bind]. split; auto.
  Qed.
  Lemma leaf_ranges_children lo hi ann cs lo' hi' ann' cs' : lo = lo' -> hi = hi' -> flat_map leaf_ranges cs = flat_map leaf_ranges cs' ->
    (cs = [] <-> cs' = []) -> leaf_ranges (PNode lo hi ann cs) = leaf_ranges (PNode lo' hi' ann' cs').
  Proof.
    intros -> -> E Hn. cbn [leaf_ranges]. destruct cs as [|c cs], cs' as [|c' cs']; auto;
      [destruct Hn as [Hn _]; specialize (Hn eq_refl); discriminate|destruct Hn as [_ Hn]; specialize (Hn eq_refl); discriminate].
  Qed.
  Lemma F2_flat_map {A B C} (f : A -> list C) (g : B -> list C) l l' :
    Forall2 (fun a b => g b = f a) l l' -> flat_map g l' = flat_map f l.
  Proof. induction 1 as [|a b l l' E F IH]; auto. cbn [flat_map]. now rewrite E, IH. Qed.

  Theorem split_node_spec n : wf n -> unsplit_tree n -> exists n', split_node tokens splits quotes n = Ok n' /\
    wf n' /\ same_frame n n' /\ leaf_ranges n' = leaf_ranges n /\ split_up n'.
  Proof.
    induction n as [lo hi ann cs IH] using pnode_ind'. intros Hw Hu. rewrite split_node_eq.
    destruct (unsplittable_ok quotes _ Hw) as [b Eb]. pose proof (unsplittable_quoted _ _ Hw Eb) as Hq.
    rewrite Eb. cbn [bind]. destruct b.
    { eexists. split; [reflexivity|]. splits; auto; [repeat split|apply su_quote; tauto]. }
    assert (Nq : ~ quoted (PNode lo hi ann cs)) by (rewrite <- Hq; discriminate).
    assert (Hus : Forall unsplit_tree cs) by (inversion Hu; auto).
    pose proof (wf_children _ Hw) as Hcs. cbn [p_children] in Hcs.
    destruct (mapM_Forall (is_splitter tokens splits) (fun c b => b = true <-> is_split_token c) cs) as [flags [Ef Ff]].
    { eapply Forall_impl; [|exact Hcs]. intros c Hc. now apply is_splitter_ok. }
    destruct (mapM_Forall split_child (fun c c' => wf c' /\ same_frame c c' /\ leaf_ranges c' = leaf_ranges c /\ split_up c') cs)
      as [cs' [Ec Fc]].
    { rewrite Forall_forall in *. intros c Hi. unfold split_child.
      destruct (wf_len c (Hcs _ Hi)) as [k [Ek _]]. rewrite Ek. cbn [bind]. destruct (1 <? k) eqn:Hk; [apply IH; auto|].
      apply Nat.ltb_ge in Hk. exists c. splits; auto; [repeat split|]. eapply su_small; eauto. }
    rewrite Ef. cbn [bind]. rewrite Ec. cbn [bind]. eexists. split; [reflexivity|].
    assert (Lf : length cs' = length flags).
    { clear - Ff Fc. revert flags Ff. induction Fc; intros flags Ff; inversion Ff; subst; cbn; auto. }
    assert (Wcs' : Forall wf cs') by (clear - Fc; induction Fc as [|? ? ? ? [? _]]; constructor; auto).
    assert (Scs' : Forall split_up cs') by (clear - Fc; induction Fc as [|? ? ? ? [? [? [? ?]]]]; constructor; auto).
    assert (Fr : Forall2 same_frame cs cs') by (clear - Fc; induction Fc as [|? ? ? ? [? [? ?]]]; constructor; auto).
    assert (Lv : flat_map leaf_ranges cs' = flat_map leaf_ranges cs).
    { apply F2_flat_map. clear - Fc. induction Fc as [|? ? ? ? [? [? [? ?]]]]; constructor; auto. }
    assert (Fl : Forall (fun p => snd p = true <-> is_split_token (fst p)) (combine cs' flags)).
    { clear - Ff Fr. revert flags Ff. induction Fr as [|c c' cs cs' E F IH]; intros flags Ff; inversion Ff; subst; constructor; auto.
      cbn [fst snd]. rewrite (same_frame_split _ _ E). auto. }
    assert (Nq' : ~ quoted (PNode lo hi ann cs')).
    { intros [Qa [l [m [r [i [j [o [c [Qc [Q1 [Q2 Q3]]]]]]]]]]]. apply Nq. split; auto. cbn [p_children] in *. subst cs'.
      inversion Fr as [|? l' ? ? Fl' Fr']; subst. inversion Fr' as [|? m' ? ? Fm' Fr'']; subst.
      inversion Fr'' as [|? r' ? ? Frr Fn]; subst. inversion Fn; subst. destruct Fl' as [G1 _], Frr as [_ [G2 _]].
      do 3 eexists. exists (p_lo l), j, o, c. splits; [reflexivity|now symmetry|congruence|apply Q3..]. }
    inversion Hw as [lo0 hi0 ann0 cs0 H1 H2 H3 H4 H5]; subst.
    assert (Ht : cs = [] \/ tiles lo hi0 cs') by (destruct H3 as [->|H3]; [auto|right; eapply tiles_same; eauto]).
    destruct Ht as [->|Ht].
    { inversion Fc; subst. inversion Ff; subst. cbn [combine]. unfold regroup. cbn [group_by length Nat.ltb Nat.leb andb map].
      splits; auto; [repeat split|]. apply su_plain; auto. }
    rewrite <- (combine_fst cs' flags Lf) in Ht, Wcs'.
    destruct (regroup_spec ann lo hi0 (combine cs' flags) Ht H2 Wcs') as [R1 [R2 [R3 [R4 R5]]]].
    rewrite (combine_fst cs' flags Lf) in *.
    splits.
    - constructor; auto. intros Ea. rewrite (R4 Ea). destruct (H5 Ea) as [l [m [r [-> [El [Er [Al [Am Ar]]]]]]]].
      inversion Fr as [|? l' ? ? Fl' Fr']; subst. inversion Fr' as [|? m' ? ? Fm' Fr'']; subst.
      inversion Fr'' as [|? r' ? ? Frr Fn]; subst. inversion Fn; subst. exists l', m', r'.
      rewrite (same_frame_len _ _ Fl'), (same_frame_len _ _ Frr). destruct Fl' as [_ [_ ->]], Fm' as [_ [_ ->]], Frr as [_ [_ ->]]. splits; auto.
    - repeat split.
    - apply leaf_ranges_children; auto; [now rewrite R3, Lv|]. split; intros E.
      + apply R5 in E. subst cs'. now inversion Fr.
      + subst cs. inversion Fr; subst. inversion Ff; subst. reflexivity.
    - unfold regroup. destruct ((1 <? length (group_by (combine cs' flags))) && negb (eqb ann APaired)) eqn:Eg.
      + apply andb_true_iff in Eg as [_ Eg]. apply negb_true_iff, eqb_neq in Eg. apply su_split; auto.
        * now apply group_by_cut.
        * rewrite (proj1 (group_by_concat _)), combine_fst; auto.
      + rewrite combine_fst by auto. apply su_plain; auto. apply andb_false_iff in Eg as [Eg|Eg].
        * right. apply Nat.ltb_ge in Eg. pose proof (group_by_cut _ _ Fl) as Hc. pose proof (proj1 (group_by_concat (combine cs' flags))) as Hcc.
          rewrite combine_fst in Hcc by auto. destruct (group_by (combine cs' flags)) as [|g [|g2 gs]]; [destruct Hc| |cbn in Eg; lia].
          cbn [cut_after concat] in *. rewrite app_nil_r in Hcc. now subst.
        * left. apply negb_false_iff in Eg. now apply eqb_eq in Eg.
  Qed.

  (** *** Nesting a group under its left neighbour. *)
  Lemma transplant_list_spec l : forall prev lo hi out,
    transplant_list prev l = Ok out -> tiles lo hi (prev :: map fst l) -> Forall wf (prev :: map fst l) ->
    tiles lo hi out /\ Forall wf out /\
    flat_map leaf_ranges out = flat_map leaf_ranges (prev :: map fst l) /\ out <> [] /\
    (Forall (fun p => p_ann (fst p) <> ASplit) l -> out = prev :: map fst l).
  Proof.
    assert (G : forall p c lo mid hi, wf p -> wf c -> p_lo p = lo -> p_hi p = Some mid -> p_lo c = mid -> p_hi c = Some hi ->
              p_ann p = ASplit ->
              wf (transplant p c) /\ p_lo (transplant p c) = lo /\ p_hi (transplant p c) = Some hi /\
              leaf_ranges (transplant p c) = leaf_ranges p ++ leaf_ranges c).
    { intros [plo phi pann pcs] [clo chi cann ccs] lo mid hi Wp Wc. cbn [p_lo p_hi p_ann]. intros <- -> <- -> ->.
      inversion Wp as [? ? ? ? P1 P2 P3 P4 P5]; subst. inversion Wc as [? ? ? ? C1 C2 C3 C4 C5]; subst.
      unfold transplant. cbn [p_lo p_hi p_ann p_children]. splits; auto.
      - constructor; auto; try lia; [|discriminate]. right. constructor; auto. constructor; auto. constructor.
      - cbn [leaf_ranges flat_map]. now rewrite app_nil_r. }
    assert (K : forall l prev lo hi out, length l <= length l ->
      transplant_list prev l = Ok out -> tiles lo hi (prev :: map fst l) -> Forall wf (prev :: map fst l) ->
      tiles lo hi out /\ Forall wf out /\
      flat_map leaf_ranges out = flat_map leaf_ranges (prev :: map fst l) /\ out <> [] /\
      (Forall (fun p => p_ann (fst p) <> ASplit) l -> out = prev :: map fst l)); [|intros; eapply K; eauto].
    intros l0. remember (length l0) as n eqn:En. assert (Hn : length l0 <= n) by lia. clear En. revert l0 Hn.
    induction n as [n IHn] using lt_wf_ind. intros l0 Hn prev lo hi out _ E Ht HF.
    destruct l0 as [|[c k] l0]; cbn [transplant_list map fst] in *.
    - injection E as <-. splits; auto. discriminate.
    - inversion Ht as [|? mid ? pann pcs ? Hle Hpc Hr]; subst. inversion HF as [|? ? Wp HF']; subst.
      inversion HF' as [|? ? Wc HF'']; subst.
      destruct ((0 <? k) && adjacent_splits (PNode lo (Some mid) pann pcs) c) eqn:Ec.
      + apply andb_true_iff in Ec as [_ Ec]. unfold adjacent_splits in Ec. rewrite !andb_true_iff in Ec.
        destruct Ec as [[Ec1 Ec2] Ec3]. apply eqb_eq in Ec1, Ec2, Ec3. cbn [p_ann p_hi] in *. subst pann. injection Ec3 as ->.
        destruct (1 <? k); [discriminate|].
        destruct c as [mid chi cann ccs]. cbn [p_lo p_ann] in *. subst cann.
        inversion Hr as [|? mid2 ? ? ? ? Hle2 Hcc Hr2]; subst.
        destruct (G _ _ lo _ mid2 Wp Wc eq_refl eq_refl eq_refl eq_refl eq_refl) as [W [E1 [E2 E3]]].
        assert (Cons : forall rest, tiles mid2 hi rest -> tiles lo hi (transplant (PNode lo (Some mid) ASplit pcs) (PNode mid (Some mid2) ASplit ccs) :: rest)).
        { intros rest Hrest. unfold transplant. cbn [p_lo p_hi p_ann p_children]. constructor; auto; [lia|].
          right. constructor; auto. constructor; auto. constructor. }
        destruct l0 as [|[c2 k2] l0].
        * injection E as <-. cbn [map] in *. splits; auto.
          -- cbn [flat_map]. rewrite E3. now rewrite <- app_assoc.
          -- discriminate.
          -- intros C. inversion C as [|? ? C1 _]; subst. cbn [fst p_ann] in C1. congruence.
        * destruct ((0 <? k2) && adjacent_splits (PNode mid (Some mid2) ASplit ccs) c2); [discriminate|].
          apply bind_ok_inv in E as [rest [Er E]]. injection E as <-. cbn [map fst] in *.
          destruct (IHn (length l0) ltac:(cbn [length] in Hn; lia) l0 ltac:(lia) c2 mid2 hi rest ltac:(lia) Er Hr2 HF'') as [I1 [I2 [I3 [I4 _]]]].
          splits; auto.
          -- cbn [flat_map] in *. rewrite E3, I3. now rewrite <- !app_assoc.
          -- discriminate.
          -- intros C. inversion C as [|? ? C1 _]; subst. cbn [fst p_ann] in C1. congruence.
      + apply bind_ok_inv in E as [rest [Er E]]. injection E as <-.
        destruct (IHn (length l0) ltac:(cbn [length] in Hn; lia) l0 ltac:(lia) c mid hi rest ltac:(lia) Er Hr HF') as [I1 [I2 [I3 [I4 I5]]]].
        splits; auto.
        * constructor; auto.
        * cbn [flat_map] in *. now rewrite I3.
        * discriminate.
        * intros C. inversion C; subst. now rewrite I5.
  Qed.
  Lemma sub_match_eq sub lo hi ann cs :
    sub_match tokens sub (PNode lo hi ann cs) =
      (do counts <- mapM (count_sub_pairs tokens sub) cs;
       do cs' <- mapM (sub_match tokens sub) cs;
       do out <- transplant_children (combine cs' counts);
       Ok (PNode lo hi ann out)).
  Proof.
    cbn [sub_match]. destruct (mapM (count_sub_pairs tokens sub) cs); cbn [bind]; auto.
    assert (E : forall l, (fix go (l : list pnode) : result (list pnode) :=
                     match l with
                     | [] => Ok []
                     | c :: l' => do c' <- sub_match tokens sub c; do r <- go l'; Ok (c' :: r)
                     end) l = mapM (sub_match tokens sub) l) by (induction l as [|c l IH]; auto; cbn [mapM]; now rewrite <- IH).
    now rewrite E.
  Qed.
  Theorem sub_match_spec sub n : forall n', wf n -> sub_match tokens sub n = Ok n' ->
    wf n' /\ same_frame n n' /\ leaf_ranges n' = leaf_ranges n.
  Proof.
    induction n as [lo hi ann cs IH] using pnode_ind'. intros n' Hw E. rewrite sub_match_eq in E.
    apply bind_ok_inv in E as [counts [Ec E]]. apply bind_ok_inv in E as [cs' [Es E]].
    apply bind_ok_inv in E as [out [Eo E]]. injection E as <-.
    pose proof (wf_children _ Hw) as Hcs. cbn [p_children] in Hcs.
    apply mapM_ok_iff in Ec, Es.
    assert (Lf : length cs' = length counts) by (rewrite <- (F2_len _ _ _ Es), <- (F2_len _ _ _ Ec); auto).
    assert (F : Forall2 (fun c c' => wf c' /\ same_frame c c' /\ leaf_ranges c' = leaf_ranges c) cs cs').
    { clear - IH Hcs Es. induction Es as [|c c' cs cs' Ec F IHf]; constructor.
      - inversion IH; inversion Hcs; subst. auto.
      - inversion IH; inversion Hcs; subst. auto. }
    assert (Wcs' : Forall wf cs') by (clear - F; induction F as [|? ? ? ? [? _]]; constructor; auto).
    assert (Fr : Forall2 same_frame cs cs') by (clear - F; induction F as [|? ? ? ? [? [? ?]]]; constructor; auto).
    assert (Lv : flat_map leaf_ranges cs' = flat_map leaf_ranges cs).
    { apply F2_flat_map. clear - F. induction F as [|? ? ? ? [? [? ?]]]; constructor; auto. }
    inversion Hw as [lo0 hi0 ann0 cs0 H1 H2 H3 H4 H5]; subst.
    destruct H3 as [->|H3].
    { inversion Fr; subst. cbn in Eo. injection Eo as <-. splits; auto. repeat split. }
    pose proof (tiles_same _ _ _ _ H3 Fr Wcs') as Ht.
    destruct cs' as [|c' cs'].
    { inversion Fr; subst. cbn in Eo. injection Eo as <-. splits; auto. repeat split. }
    destruct counts as [|k counts]; [discriminate|]. cbn [combine transplant_children] in Eo.
    injection Lf as Lf. rewrite <- (combine_fst cs' counts Lf) in Ht, Wcs'.
    destruct (transplant_list_spec _ _ _ _ _ Eo Ht Wcs') as [R1 [R2 [R3 [R4 R5]]]]. rewrite combine_fst in * by auto.
    splits; [|repeat split|].
    - constructor; auto. intros Ea. destruct (H5 Ea) as [l [m [r [-> [El [Er [Al [Am Ar]]]]]]]].
      inversion Fr as [|? l' ? ? Fl' Fr']; subst. inversion Fr' as [|? m' ? ? Fm' Fr'']; subst.
      inversion Fr'' as [|? r' ? ? Frr Fn]; subst. inversion Fn; subst.
      rewrite R5.
      + exists c', m', r'. rewrite (same_frame_len _ _ Fl'), (same_frame_len _ _ Frr).
        destruct Fl' as [_ [_ ->]], Fm' as [_ [_ ->]], Frr as [_ [_ ->]]. splits; auto.
      + destruct counts as [|k1 [|k2 [|]]]; try discriminate. destruct Fm' as [_ [_ Em]], Frr as [_ [_ Er']].
        repeat constructor; cbn [fst]; congruence.
    - apply leaf_ranges_children; auto; [now rewrite R3, Lv|]. split; [contradiction|]. intros ->. inversion Fr.
  Qed.
  Theorem split_parse_spec sub n n' : wf n -> unsplit_tree n -> split_parse n tokens splits quotes sub = Ok n' ->
    wf n' /\ same_frame n n' /\ leaf_ranges n' = leaf_ranges n /\ (splits <> [] -> sub = None -> split_up n').
  Proof.
    intros Hw Hu. unfold split_parse. destruct splits as [|s ss] eqn:Es.
    - intros [= <-]. splits; auto; [repeat split|congruence].
    - rewrite <- Es. destruct (split_node_spec n Hw Hu) as [m [Em [Wm [Fm [Lm Sm]]]]]. rewrite Em. cbn [bind]. destruct sub as [s0|].
      + intros E. destruct (sub_match_spec _ _ _ Wm E) as [W' [F' L']]. splits; auto; [|congruence|discriminate].
        destruct Fm as [A1 [A2 A3]], F' as [B1 [B2 B3]]. repeat split; congruence.
      + intros [= <-]. splits; auto.
  Qed.
  Theorem split_parse_ok n : wf n -> unsplit_tree n -> exists n', split_parse n tokens splits quotes None = Ok n'.
  Proof.
    intros Hw Hu. unfold split_parse. destruct splits as [|s ss] eqn:Es; [eauto|]. rewrite <- Es.
    destruct (split_node_spec n Hw Hu) as [m [Em _]]. rewrite Em. cbn [bind]. eauto.
  Qed.
End Split.
