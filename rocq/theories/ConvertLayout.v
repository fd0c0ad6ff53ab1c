(** A successful conversion yields the documented layout. *)

From Coq Require Import List Bool Arith Lia ZArith Sorted Permutation QArith Qcanon.
From Verif Require Import Base Graph PackedDag PackedDagProofs PackedTables Convert ConvertLists ConvertProofs.
Import ListNotations.
Close Scope Qc_scope. Close Scope Q_scope. Open Scope nat_scope.

(** ** Ordered pairs of a list. *)
Lemma FOP_app {A} (R : A -> A -> Prop) l1 l2 :
  ForallOrdPairs R l1 -> ForallOrdPairs R l2 -> (forall x y, In x l1 -> In y l2 -> R x y) ->
  ForallOrdPairs R (l1 ++ l2).
Proof.
  induction 1 as [|a l1 Ha H1 IH]; intros H2 Hc; simpl; auto. constructor.
  - rewrite Forall_forall in *. intros y Hy. apply in_app_or in Hy as [Hy|Hy]; auto.
    apply Hc; simpl; auto.
  - apply IH; auto. intros; apply Hc; simpl; auto.
Qed.
Lemma FOP_concat {A} (R : A -> A -> Prop) ls :
  Forall (ForallOrdPairs R) ls ->
  ForallOrdPairs (fun a b => forall x y, In x a -> In y b -> R x y) ls ->
  ForallOrdPairs R (concat ls).
Proof.
  intros Hf Hp. induction Hp as [|a ls Ha Hp IH]; simpl; [constructor|].
  inversion Hf; subst. apply FOP_app; auto.
  intros x y Hx Hy. apply in_concat in Hy as [b [Hb Hy]].
  rewrite Forall_forall in Ha. eapply Ha; eauto.
Qed.
Lemma FOP_map {A B} (f : A -> B) (R : B -> B -> Prop) l :
  ForallOrdPairs (fun a b => R (f a) (f b)) l -> ForallOrdPairs R (map f l).
Proof.
  induction 1 as [|a l Ha Hp IH]; simpl; constructor; auto.
  rewrite Forall_forall in *. intros y Hy. apply in_map_iff in Hy as [b [<- Hb]]. auto.
Qed.
Lemma FOP_seq (R : nat -> nat -> Prop) a n :
  (forall i j, a <= i -> i < j -> j < a + n -> R i j) -> ForallOrdPairs R (seq a n).
Proof.
  revert a; induction n as [|n IH]; intros a Hr; simpl; constructor.
  - rewrite Forall_forall. intros y Hy. apply in_seq in Hy. apply Hr; lia.
  - apply IH. intros; apply Hr; lia.
Qed.
Lemma FOP_before {A} (R : A -> A -> Prop) l :
  (forall x y, before l x y -> R x y) -> ForallOrdPairs R l.
Proof.
  induction l as [|a l IH]; intros Hr; constructor.
  - rewrite Forall_forall. intros y Hy. apply In_nth_error in Hy as [j Hj].
    apply Hr. exists 0, (S j). splits; auto. lia.
  - apply IH. intros x y [i [j [Hij [Hi Hj]]]]. apply Hr. exists (S i), (S j). splits; auto. lia.
Qed.
Lemma FOP_ordered {S' A' I'} (es : list (edge S' A' I')) :
  ForallOrdPairs (fun e e' => dest e' <> source e) es -> ordered es.
Proof.
  induction 1 as [|e es He Hp IH]; simpl; auto. split; auto.
  rewrite Forall_forall in He. auto.
Qed.
Lemma ordered_FOP {S' A' I'} (es : list (edge S' A' I')) :
  ordered es -> ForallOrdPairs (fun e e' => dest e' <> source e) es.
Proof.
  induction es as [|e es IH]; simpl; [constructor|]. intros [H1 H2]. constructor; auto.
  rewrite Forall_forall. auto.
Qed.
Lemma FOP_nth {A} (R : A -> A -> Prop) l i j x y :
  ForallOrdPairs R l -> i < j -> nth_error l i = Some x -> nth_error l j = Some y -> R x y.
Proof.
  intros Hp. revert i j. induction Hp as [|a l Ha Hp IH]; intros i j Hij Hi Hj; [destruct i; discriminate|].
  destruct j as [|j]; [lia|]. destruct i as [|i]; cbn in *.
  - injection Hi as ->. rewrite Forall_forall in Ha. apply Ha. eapply nth_error_In; eauto.
  - eapply IH; [|eauto|eauto]. lia.
Qed.
Lemma FOP_F2 {A B} (Q : A -> B -> Prop) (R : A -> A -> Prop) (R' : B -> B -> Prop) l l' :
  Forall2 Q l l' -> (forall x x' y y', Q x y -> Q x' y' -> R x x' -> R' y y') ->
  ForallOrdPairs R l -> ForallOrdPairs R' l'.
Proof.
  intros Hf Hq. induction Hf as [|x y l l' Hxy Hf IH]; intros Hp; constructor.
  - inversion Hp as [|? ? Ha Hp']; subst. rewrite Forall_forall in *.
    clear -Hf Hq Ha Hxy. intros y' Hy'.
    induction Hf as [|x2 y2 l l' H2 Hf IH]; [destruct Hy'|].
    destruct Hy' as [<-|Hy'].
    + eapply Hq; eauto. apply Ha. simpl; auto.
    + apply IH; auto. intros; apply Ha; simpl; auto.
  - inversion Hp; subst; auto.
Qed.

Lemma F2_In_l {A B} (Q : A -> B -> Prop) l l' x :
  Forall2 Q l l' -> In x l -> exists y, In y l' /\ Q x y.
Proof.
  induction 1 as [|a b l l' Hab Hf IH]; simpl; [tauto|]. intros [<-|Hx]; eauto.
  destruct (IH Hx) as [y [Hy Hq]]. eauto.
Qed.
Lemma F2_In_r {A B} (Q : A -> B -> Prop) l l' y :
  Forall2 Q l l' -> In y l' -> exists x, In x l /\ Q x y.
Proof.
  induction 1 as [|a b l l' Hab Hf IH]; simpl; [tauto|]. intros [<-|Hx]; eauto.
  destruct (IH Hx) as [x [Hy Hq]]. eauto.
Qed.

Lemma fold_add_new_sorted {A} `{EqDec A} (R : A -> A -> Prop) xs : forall l,
  (forall x, R x x) ->
  StronglySorted R l -> StronglySorted R xs -> (forall x y, In x l -> In y xs -> R x y) ->
  StronglySorted R (fold_left add_new xs l).
Proof.
  induction xs as [|x xs IH]; intros l Hr Hl Hx Hc; simpl; auto.
  inversion Hx as [|? ? Hx1 Hx2]; subst. rewrite Forall_forall in Hx2.
  apply IH; auto.
  - unfold add_new. destruct (mem x l); auto.
    clear IH Hx Hx1. induction Hl as [|y l Hl IHl Hy]; simpl; [repeat constructor|].
    constructor.
    + apply IHl. intros; apply Hc; simpl; auto.
    + rewrite Forall_forall in *. intros z Hz. apply in_app_or in Hz as [Hz|[<-|[]]]; auto.
      apply Hc; simpl; auto.
  - intros a b Ha Hb. apply add_new_In in Ha as [Ha| ->]; [apply Hc; simpl; auto|auto].
Qed.
Lemma FOP_sorted {A} (R : A -> A -> Prop) l : ForallOrdPairs R l -> StronglySorted R l.
Proof. induction 1; constructor; auto. Qed.

Section Stage.
  Context {St Ky Vl In : Type} `{EqDec St} `{EqDec Ky} `{EqDec Vl}.
  Context (kle : Ky -> Ky -> bool).
  Notation E := (edge St (Ky * Vl) In).
  Notation D := (dag St (Ky * Vl) In).
  Notation tstate := (St * Z)%type.
  Notation tedge := (edge (St * Z) (Ky * Vl) (option nat)).
  Context (d : D) (missing : Vl).
  Context (R : stage kle d missing).
  Context (T : topological (edges d)).

  Notation es := (edges d).
  Notation keys := (p_keys kle _ _ R).
  Notation K := (p_K kle _ _ R).
  Notation P := (p_possible kle _ _ R).
  Notation G := (p_guaranteed kle _ _ R).
  Notation Af := (p_after kle _ _ R).
  Notation sources := (p_sources kle _ _ R).
  Notation emitted := (p_emitted kle _ _ R).
  Notation groups := (p_groups kle _ _ R).
  Notation tedges := (p_tedges kle _ _ R).
  Notation table := (p_table kle _ _ R).
  Notation tstates := (p_tstates kle _ _ R).
  Notation tfinal := (p_final kle _ _ R).

  Lemma keys_NoDup : NoDup keys.
  Proof. apply sort_NoDup, fold_add_new_NoDup. constructor. Qed.
  Lemma keys_In e k v : List.In e es -> assignment e = Some (k, v) -> List.In k keys.
  Proof.
    intros He Ea. apply sort_In. apply fold_add_new_In. right.
    unfold edge_keys. apply in_map_iff. exists (k, v). split; auto.
    clear -He Ea. induction es as [|e0 l IH]; [destruct He|]. cbn [path_assignments].
    destruct He as [->|He].
    - rewrite Ea. simpl; auto.
    - destruct (assignment e0); simpl; auto.
  Qed.
  Lemma keys_assigned k : List.In k keys -> exists e v, List.In e es /\ assignment e = Some (k, v).
  Proof.
    intros Hk. apply sort_In in Hk. apply fold_add_new_In in Hk as [[]|Hk].
    unfold edge_keys in Hk. apply in_map_iff in Hk as [[k' v] [Ek Hk]]. cbn in Ek. subst k'. clear T.
    induction es as [|e0 l IH]; [destruct Hk|]. cbn [path_assignments] in Hk.
    destruct (assignment e0) as [a|] eqn:Ea.
    - destruct Hk as [->|Hk]; [exists e0, v; simpl; auto|].
      destruct (IH Hk) as [e [v' [He Hv]]]. exists e, v'. simpl; auto.
    - destruct (IH Hk) as [e [v' [He Hv]]]. exists e, v'. simpl; auto.
  Qed.
  Lemma sources_In s : List.In s sources <-> (exists e, List.In e es /\ source e = s) \/ s = final_state d.
  Proof.
    unfold p_sources. rewrite in_app_iff. unfold source_states. rewrite fold_add_new_In. simpl.
    rewrite in_map_iff. split.
    - intros [[[]|[e [<- He]]]|[<-|[]]]; eauto.
    - intros [[e [He <-]]| ->]; eauto.
  Qed.
  Lemma sources_NoDup : NoDup sources.
  Proof.
    apply NoDup_app_snoc; [|apply (pp_final kle _ _ R)].
    apply fold_add_new_NoDup. constructor.
  Qed.
  Lemma first_edge : exists e0 es', es = e0 :: es' /\ source e0 = initial_state d.
  Proof.
    pose proof (pp_first kle _ _ R) as Hf. destruct es as [|e0 es'] eqn:Ee.
    - discriminate.
    - exists e0, es'. split; auto. unfold source_states in Hf. cbn [map fold_left] in Hf.
      unfold add_new in Hf at 2. cbn [mem existsb app] in Hf.
      destruct (fold_add_new_prefix (map source es') [source e0]) as [r Hr]. rewrite Hr in Hf.
      cbn in Hf. congruence.
  Qed.
  Lemma init_not_dest e : List.In e es -> dest e <> initial_state d.
  Proof.
    destruct first_edge as [e0 [es' [Ee Es]]]. destruct T as [To Tl]. rewrite Ee in *.
    cbn in To. destruct To as [To1 To2]. intros [<-|He].
    - intros C. apply (Tl e0); [simpl; auto|congruence].
    - rewrite <- Es. auto.
  Qed.
  Lemma init_not_final : initial_state d <> final_state d.
  Proof.
    intros C. destruct first_edge as [e0 [es' [Ee Es]]].
    apply (pp_final kle _ _ R). apply fold_add_new_In. right.
    rewrite Ee. simpl. left. congruence.
  Qed.

  Definition PF := possible_fold _ _ _ _ T (pp_possible kle _ _ R).
  Definition GF := guaranteed_fold _ _ _ _ _ (pp_guaranteed kle _ _ R).
  Definition AF := after_fold _ _ _ _ _ (pp_after kle _ _ R).

  Lemma P_init : assoc (initial_state d) P = Some (-1)%Z.
  Proof.
    destruct PF as [F1 _]. rewrite F1 by apply init_not_dest. cbn. now rewrite eqb_refl.
  Qed.
  Lemma G_init : assoc (initial_state d) G = Some (-1)%Z.
  Proof.
    destruct GF as [F1 _]. rewrite F1 by apply init_not_dest. cbn. now rewrite eqb_refl.
  Qed.
  Lemma key_index_range k u : key_index keys k = Ok u -> (0 <= u < Z.of_nat K)%Z.
  Proof.
    intros E. apply key_index_ok in E as [i [-> E]]. apply index_of_lt in E. fold K in E. lia.
  Qed.
  Lemma P_range x t : assoc x P = Some t -> (-1 <= t < Z.of_nat K)%Z.
  Proof.
    pose proof (pp_possible kle _ _ R) as Hf. revert x t.
    assert (G0 : forall (l : list E) dd p, (forall x t, assoc x dd = Some t -> (-1 <= t < Z.of_nat K)%Z) ->
      foldM (possible_step keys) l dd = Ok p -> forall x t, assoc x p = Some t -> (-1 <= t < Z.of_nat K)%Z).
    { induction l as [|e l IH]; intros dd p Hd Hl x t Ex; cbn [foldM] in Hl.
      - injection Hl as <-. eauto.
      - apply bind_ok_inv in Hl as [d1 [Hs Hl]]. apply (IH d1 p) with (x := x); auto.
        unfold possible_step in Hs. apply bind_ok_inv in Hs as [u [Hu Hs]]. injection Hs as <-.
        assert (Hur : (-1 <= u < Z.of_nat K)%Z).
        { destruct (assignment e) as [[k v]|].
          - apply key_index_range in Hu. lia.
          - apply or_err_ok in Hu. eauto. }
        intros y ty Ey. destruct (eq_dec (dest e) y) as [<-|Hne].
        + rewrite upd_with_same in Ey. injection Ey as <-.
          destruct (assoc (dest e) dd) eqn:E0; [apply Hd in E0|]; lia.
        + rewrite upd_with_other in Ey by auto. eauto. }
    apply (G0 es [(initial_state d, (-1)%Z)] P); auto. intros x t Ex. cbn in Ex. destruct (eqb x (initial_state d)); [|discriminate].
    injection Ex as <-. lia.
  Qed.
  Lemma target_range (e : E) u : target keys P e u -> (-1 <= u < Z.of_nat K)%Z.
  Proof.
    unfold target. destruct (assignment e) as [[k v]|].
    - intros E. apply key_index_range in E. lia.
    - apply P_range.
  Qed.
  Lemma target_det (e : E) u u' : target keys P e u -> target keys P e u' -> u = u'.
  Proof. unfold target. destruct (assignment e) as [[k v]|]; congruence. Qed.
  Lemma G_range x t : assoc x G = Some t -> (-1 <= t < Z.of_nat K)%Z.
  Proof.
    intros Ex. destruct GF as [_ [_ [_ F4]]]. destruct (F4 x t Ex) as [Ei|[e [_ [_ Ht]]]].
    - cbn in Ei. destruct (eqb x (initial_state d)); [|discriminate]. injection Ei as <-. lia.
    - now apply target_range in Ht.
  Qed.
  Lemma G_le_P x g t : assoc x G = Some g -> assoc x P = Some t -> (g <= t)%Z.
  Proof.
    intros Eg Ep. destruct GF as [_ [_ [_ F4]]]. destruct (F4 x g Eg) as [Ei|[e [He [Hd Ht]]]].
    - cbn in Ei. destruct (eqb x (initial_state d)); [|discriminate]. injection Ei as <-.
      apply P_range in Ep. lia.
    - destruct PF as [_ [_ [F3 _]]]. destruct (F3 e He) as [u [t' [Hu [Et Hle]]]].
      subst x. rewrite (target_det _ _ _ Ht Hu). rewrite Ep in Et. injection Et as ->. auto.
  Qed.
  Lemma A_range x a : assoc x Af = Some a -> (0 <= a < Z.of_nat K)%Z.
  Proof.
    intros Ex. destruct AF as [_ [_ F3]]. destruct (F3 x a Ex) as [C|[e [k [v [_ [_ [_ Hk]]]]]]]; [discriminate|].
    now apply key_index_range in Hk.
  Qed.
  Lemma P_lt_A x a t : assoc x Af = Some a -> assoc x P = Some t -> (t < a)%Z.
  Proof.
    intros Ea Et. destruct AF as [_ [F2 F3]].
    destruct (F3 x a Ea) as [C|[e [k [v [He [Hs [Hak Hk]]]]]]]; [discriminate|].
    destruct (F2 e k v He Hak) as [u [t' [a' [Hu [Et' [Hlt [Ea' Hle]]]]]]].
    subst x. rewrite Et in Et'. injection Et' as <-. rewrite Hk in Hu. injection Hu as ->. auto.
  Qed.

  (** The largest tag of a state. *)
  Definition upper (x : St) : option Z :=
    match assoc x Af with Some a => Some (a - 1)%Z | None => assoc x P end.

  (** What is emitted. *)
  Inductive tagged : nat -> tedge -> Prop :=
  | tg_chain s tag k lo hi :
      List.In s sources -> assoc s G = Some lo -> upper s = Some hi -> (lo <= tag < hi)%Z ->
      nth_error keys (Z.to_nat (tag + 1)) = Some k ->
      tagged (2 * Z.to_nat (tag + 1) + 1)
        (mkEdge (s, tag) (s, (tag + 1)%Z) (Fin 0%Qc) (Some (k, missing)) None)
  | tg_free i e t :
      nth_error es i = Some e -> List.In (dest e) sources -> ecost e <> Inf ->
      assignment e = None -> assoc (source e) P = Some t ->
      tagged (2 * Z.to_nat (t + 1)) (mkEdge (source e, t) (dest e, t) (ecost e) None (Some i))
  | tg_assign i e k v u :
      nth_error es i = Some e -> List.In (dest e) sources -> ecost e <> Inf ->
      assignment e = Some (k, v) -> key_index keys k = Ok u ->
      tagged (2 * Z.to_nat u + 1)
        (mkEdge (source e, (u - 1)%Z) (dest e, u) (ecost e) (Some (k, v)) (Some i)).

  Lemma source_defined s : List.In s sources ->
    exists lo t, assoc s G = Some lo /\ assoc s P = Some t.
  Proof.
    intros Hs. pose proof (pp_emitted kle _ _ R) as He. apply mapM_ok_iff in He.
    assert (Hx : exists out, emit_state keys missing es sources P G Af s = Ok out).
    { destruct (F2_In_l _ _ _ _ He Hs) as [y [_ Hy]]. eauto. }
    destruct Hx as [out Hx]. unfold emit_state in Hx.
    apply bind_ok_inv in Hx as [lo [H2 Hx]]. apply bind_ok_inv in Hx as [t [H3 _]].
    apply or_err_ok in H2. apply or_err_ok in H3. eauto.
  Qed.

  Lemma emit_state_In s out g te : List.In s sources ->
    emit_state keys missing es sources P G Af s = Ok out ->
    (List.In (g, te) out <-> tagged g te /\ fst (source te) = s).
  Proof.
    intros Hs Ho. unfold emit_state in Ho.
    apply bind_ok_inv in Ho as [lo [H2 Ho]]. apply bind_ok_inv in Ho as [t [H3 Ho]].
    apply or_err_ok in H2. apply or_err_ok in H3.
    assert (Hup : upper s = Some (match assoc s Af with Some a => (a - 1)%Z | None => t end)).
    { unfold upper. destruct (assoc s Af); auto. }
    set (hi := match assoc s Af with Some a => (a - 1)%Z | None => t end) in *.
    apply bind_ok_inv in Ho as [chain [Hc Ho]]. apply bind_ok_inv in Ho as [copies [Hcp Ho]].
    injection Ho as <-. rewrite in_app_iff, in_concat. split.
    - intros [Hi|[ys [Hy Hi]]].
      + apply (mapM_In _ _ _ _ Hc) in Hi as [tag [Ht Hi]]. apply zrange_In in Ht.
        unfold chain_edge in Hi. apply bind_ok_inv in Hi as [k [Hk Hi]]. apply or_err_ok in Hk.
        injection Hi as Hg He. subst te. rewrite <- Hg. split; auto.
        replace (Z.to_nat (tag + 1) + (Z.to_nat (tag + 1) + 0) + 1) with (2 * Z.to_nat (tag + 1) + 1) by lia.
        eapply tg_chain; eauto.
      + apply (mapM_In _ _ _ _ Hcp) in Hy as [[i e] [Hie Hy]].
        apply filter_In in Hie as [Hie Hse]. cbn [snd] in Hse. apply eqb_eq in Hse.
        apply enumerate_In in Hie. unfold copy_edge in Hy. cbn [fst snd] in Hy.
        destruct (mem (dest e) sources) eqn:Em; cbn [negb] in Hy; [|injection Hy as <-; destruct Hi].
        apply mem_true_iff in Em.
        destruct (eqb (ecost e) Inf) eqn:Ec; [injection Hy as <-; destruct Hi|].
        apply eqb_neq in Ec. destruct (assignment e) as [[k v]|] eqn:Ea.
        * apply bind_ok_inv in Hy as [u [Hu Hy]]. injection Hy as <-.
          destruct Hi as [Hi|[]]. injection Hi as <- <-. split; auto.
          rewrite <- Hse. eapply tg_assign; eauto.
        * injection Hy as <-. destruct Hi as [Hi|[]]. injection Hi as <- <-. split; auto.
          rewrite <- Hse. eapply tg_free; eauto. congruence.
    - intros [Ht Hfs]. destruct Ht as [s' tag k lo' hi' Hs' Elo Ehi Htag Hk|i e t' Hi Hd Hc' Ha Ht'|i e k v u Hi Hd Hc' Ha Hu];
        cbn [source fst] in Hfs.
      + subst s'. left. rewrite H2 in Elo. injection Elo as <-.
        rewrite Hup in Ehi. injection Ehi as <-.
        apply (mapM_In _ _ _ _ Hc). exists tag. split; [apply zrange_In; auto|].
        unfold chain_edge. rewrite Hk. reflexivity.
      + right. rewrite Hfs in Ht'. assert (t' = t) by congruence. subst t'.
        exists [(2 * Z.to_nat (t + 1), mkEdge (source e, t) (dest e, t) (ecost e) None (Some i))].
        split; [|simpl; auto]. apply (mapM_In _ _ _ _ Hcp). exists (i, e). split.
        * apply filter_In. split; [now apply enumerate_In|]. cbn. rewrite Hfs. apply eqb_refl.
        * unfold copy_edge. cbn [fst snd].
          replace (mem (dest e) sources) with true by (symmetry; now apply mem_true_iff).
          rewrite (neq_eqb _ _ Hc'). cbn [negb]. rewrite Ha, Hfs. reflexivity.
      + right. exists [(2 * Z.to_nat u + 1, mkEdge (source e, (u - 1)%Z) (dest e, u) (ecost e) (Some (k, v)) (Some i))].
        split; [|simpl; auto]. apply (mapM_In _ _ _ _ Hcp). exists (i, e). split.
        * apply filter_In. split; [now apply enumerate_In|]. cbn. rewrite Hfs. apply eqb_refl.
        * unfold copy_edge. cbn [fst snd].
          replace (mem (dest e) sources) with true by (symmetry; now apply mem_true_iff).
          rewrite (neq_eqb _ _ Hc'). cbn [negb]. rewrite Ha. cbn [bind]. rewrite Hu, Hfs. reflexivity.
  Qed.

  Lemma tagged_source g te : tagged g te -> List.In (fst (source te)) sources.
  Proof.
    destruct 1 as [s tag k lo hi Hs Elo Ehi Htag Hk|i e t' Hi Hd Hc' Ha Ht'|i e k v u Hi Hd Hc' Ha Hu]; cbn; auto;
      apply sources_In; left; exists e; split; auto; eapply nth_error_In; eauto.
  Qed.
  Lemma tagged_dest g te : tagged g te -> List.In (fst (dest te)) sources.
  Proof.
    destruct 1 as [s tag k lo hi Hs Elo Ehi Htag Hk|i e t' Hi Hd Hc' Ha Ht'|i e k v u Hi Hd Hc' Ha Hu]; cbn; auto.
  Qed.
  Lemma emitted_F2 : Forall2 (fun s out => emit_state keys missing es sources P G Af s = Ok out) sources emitted.
  Proof. apply mapM_ok_iff. apply (pp_emitted kle _ _ R). Qed.
  Lemma emitted_In g te : List.In (g, te) (concat emitted) <-> tagged g te.
  Proof.
    rewrite in_concat. split.
    - intros [out [Ho Hi]].
      apply (mapM_In _ _ _ _ (pp_emitted kle _ _ R)) in Ho as [s [Hs Ho]].
      apply (emit_state_In s out g te Hs Ho) in Hi. tauto.
    - intros Ht. pose proof (tagged_source _ _ Ht) as Hs.
      assert (Hx : exists out, List.In out emitted /\ emit_state keys missing es sources P G Af (fst (source te)) = Ok out).
      { apply (F2_In_l _ _ _ _ emitted_F2 Hs). }
      destruct Hx as [out [Hin Ho]]. exists out. split; auto.
      apply (emit_state_In _ out g te Hs Ho). auto.
  Qed.

  Lemma tagged_shape g te : tagged g te ->
    (exists i, i <= K /\ g = 2 * i /\ assignment te = None /\
       snd (source te) = (Z.of_nat i - 1)%Z /\ snd (dest te) = (Z.of_nat i - 1)%Z) \/
    (exists i k v, i < K /\ g = 2 * i + 1 /\ assignment te = Some (k, v) /\ index_of keys k = Some i /\
       snd (source te) = (Z.of_nat i - 1)%Z /\ snd (dest te) = Z.of_nat i).
  Proof.
    destruct 1 as [s tag k lo hi Hs Elo Ehi Htag Hk|i e t Hi Hd Hc' Ha Ht'|i e k v u Hi Hd Hc' Ha Hu]; cbn [source dest assignment snd].
    - right. apply G_range in Elo. exists (Z.to_nat (tag + 1)), k, missing.
      pose proof (nth_error_lt _ _ _ Hk). splits; auto; try lia.
      apply index_of_nth; auto. apply keys_NoDup.
    - left. apply P_range in Ht'. exists (Z.to_nat (t + 1)). splits; auto; lia.
    - right. apply key_index_ok in Hu as [j [-> Hj]]. exists j, k, v.
      pose proof (index_of_lt _ _ _ Hj). splits; auto; try lia.
  Qed.
  Lemma tagged_det g g' te : tagged g te -> tagged g' te -> g = g'.
  Proof.
    intros H2 H3. apply tagged_shape in H2. apply tagged_shape in H3.
    destruct H2 as [[i [Hi [-> [Ea [Es Ed]]]]]|[i [k [v [Hi [-> [Ea [Ek [Es Ed]]]]]]]]];
      destruct H3 as [[i' [Hi' [-> [Ea' [Es' Ed']]]]]|[i' [k' [v' [Hi' [-> [Ea' [Ek' [Es' Ed']]]]]]]]];
      try congruence; lia.
  Qed.
  Lemma group_nth g : g < 2 * K + 1 -> nth g groups [] = map snd (filter (fun ge => fst ge =? g) (concat emitted)).
  Proof.
    intros Hg. unfold p_groups.
    set (f := fun g0 => map snd (filter (fun ge : nat * tedge => fst ge =? g0) (concat emitted))).
    rewrite (nth_indep _ [] (f 0)) by (rewrite map_length, seq_length; auto).
    rewrite map_nth, seq_nth by auto. reflexivity.
  Qed.
  Lemma groups_length : length groups = 2 * K + 1.
  Proof. unfold p_groups. now rewrite map_length, seq_length. Qed.
  Lemma group_In g te : g < 2 * K + 1 -> (List.In te (nth g groups []) <-> tagged g te).
  Proof.
    intros Hg. rewrite group_nth by auto. rewrite in_map_iff. split.
    - intros [[g' te'] [E2 Hi]]. cbn in E2. subst te'. apply filter_In in Hi as [Hi Hg'].
      apply Nat.eqb_eq in Hg'. cbn in Hg'. subst g'. now apply emitted_In.
    - intros Ht. exists (g, te). split; auto. apply filter_In. split; [now apply emitted_In|].
      apply Nat.eqb_refl.
  Qed.
  Lemma tagged_range g te : tagged g te -> g < 2 * K + 1.
  Proof.
    intros Ht. apply tagged_shape in Ht as [[i [Hi [-> _]]]|[i [k [v [Hi [-> _]]]]]]; lia.
  Qed.
  Lemma tedges_In te : List.In te tedges <-> exists g, tagged g te.
  Proof.
    unfold p_tedges. rewrite in_concat. split.
    - intros [x [Hx Hi]]. apply In_nth with (d := []) in Hx as [g [Hg Ex]].
      rewrite groups_length in Hg. subst x. exists g. now apply group_In.
    - intros [g Ht]. exists (nth g groups []). split.
      + apply nth_In. rewrite groups_length. eapply tagged_range; eauto.
      + apply group_In; auto. eapply tagged_range; eauto.
  Qed.

  (** Order of tagged edges. *)
  Lemma sources_order e : List.In e es -> List.In (dest e) sources -> before sources (source e) (dest e).
  Proof.
    intros He Hd. pose proof He as Hin. apply in_split in He as [l1 [l2 Ee]].
    assert (Hns : ~ List.In (dest e) (map source l1)).
    { intros C. apply in_map_iff in C as [e' [E' He']].
      destruct T as [To _]. rewrite Ee in To. apply ordered_app in To as [_ [_ To]].
      apply (To e' e He'); simpl; auto. }
    destruct T as [_ Tl]. pose proof (Tl e Hin) as Hne.
    apply sources_In in Hd as Hd'.
    unfold p_sources.
    assert (Hsrc : List.In (dest e) (map source l2) -> before (source_states es) (source e) (dest e)).
    { intros Hi. unfold source_states. rewrite Ee, map_app. cbn [map].
      apply first_occurrence_before; auto. }
    assert (Happ : before (source_states es) (source e) (dest e) -> before (source_states es ++ [final_state d]) (source e) (dest e)).
    { intros [i [j [Hij [Hi Hj]]]]. exists i, j. splits; auto.
      - rewrite nth_error_app1; auto. eapply nth_error_lt; eauto.
      - rewrite nth_error_app1; auto. eapply nth_error_lt; eauto. }
    destruct Hd' as [[e2 [He2 Es2]]|Ef].
    - apply Happ, Hsrc. rewrite Ee in He2. apply in_app_or in He2 as [He2|[<-|He2]].
      + exfalso. apply Hns. rewrite <- Es2. now apply in_map.
      + congruence.
      + rewrite <- Es2. now apply in_map.
    - assert (Hse : List.In (source e) (source_states es)).
      { apply fold_add_new_In. right. now apply in_map. }
      apply In_nth_error in Hse as [i Hi]. pose proof (nth_error_lt _ _ _ Hi).
      exists i, (length (source_states es)). splits; auto.
      + rewrite nth_error_app1; auto.
      + rewrite nth_error_app2, Nat.sub_diag by auto. cbn. congruence.
  Qed.

  Lemma groups_ordered :
    ForallOrdPairs (fun e e' : tedge => dest e' <> source e) tedges.
  Proof.
    unfold p_tedges. apply FOP_concat.
    - rewrite Forall_forall. intros grp Hg. apply In_nth with (d := []) in Hg as [g [Hg Eg]].
      rewrite groups_length in Hg. rewrite <- Eg.
      assert (Hall : forall te, List.In te (nth g groups []) -> tagged g te) by (intros te; now apply group_In).
      destruct (Nat.Even_or_Odd g) as [[i Ei]|[i Ei]].
      + (* edges before a variable: by the order of the states *)
        rewrite group_nth by auto. apply FOP_map. rewrite <- concat_filter_map. apply FOP_concat.
        * rewrite Forall_forall. intros l Hl. apply in_map_iff in Hl as [out [<- Ho]].
          apply (mapM_In _ _ _ _ (pp_emitted kle _ _ R)) in Ho as [s [Hs Ho]].
          apply FOP_before. intros [g1 x] [g2 y] Hb. cbn [snd].
          destruct Hb as [i1 [j1 [_ [Hx Hy]]]]. apply nth_error_In in Hx. apply nth_error_In in Hy.
          apply filter_In in Hx as [Hx Hgx]. apply filter_In in Hy as [Hy Hgy].
          cbn in Hgx, Hgy. apply Nat.eqb_eq in Hgx. apply Nat.eqb_eq in Hgy. subst g1 g2.
          apply (emit_state_In s out _ _ Hs Ho) in Hx as [Hx Hx1].
          apply (emit_state_In s out _ _ Hs Ho) in Hy as [Hy Hy1].
          intros C. inversion Hy as [s' tag k lo hi Hs' Elo Ehi Htag Hk E1 E2|i' e t Hi Hd Hc' Ha Ht' E1 E2|i' e k v u Hi Hd Hc' Ha Hu E1 E2].
          -- lia.
          -- rewrite <- E2 in C. cbn in C. rewrite <- E2 in Hy1. cbn in Hy1.
             assert (dest e = source e) by (rewrite <- C in Hx1; cbn in Hx1; congruence).
             destruct T as [_ Tl]. apply (Tl e); [eapply nth_error_In; eauto|congruence].
          -- lia.
        * apply FOP_map. eapply FOP_F2; [apply emitted_F2| |apply (FOP_before (fun s s' => before sources s s'));auto].
          intros s s' out out' Ho Ho' Hb [g1 x] [g2 y] Hx Hy. cbn [snd].
          apply filter_In in Hx as [Hx Hgx]. apply filter_In in Hy as [Hy Hgy].
          cbn in Hgx, Hgy. apply Nat.eqb_eq in Hgx. apply Nat.eqb_eq in Hgy. subst g1 g2.
          assert (Hs : List.In s sources) by (destruct Hb as [? [? [_ [Hn _]]]]; eapply nth_error_In; eauto).
          assert (Hs' : List.In s' sources) by (destruct Hb as [? [? [_ [_ Hn]]]]; eapply nth_error_In; eauto).
          apply (emit_state_In s out _ _ Hs Ho) in Hx as [Hx Hx1].
          apply (emit_state_In s' out' _ _ Hs' Ho') in Hy as [Hy Hy1].
          intros C. inversion Hy as [s2 tag k lo hi Hs2 Elo Ehi Htag Hk E1 E2|i' e t Hi Hd Hc' Ha Ht' E1 E2|i' e k v u Hi Hd Hc' Ha Hu E1 E2].
          -- lia.
          -- rewrite <- E2 in C. cbn in C. rewrite <- E2 in Hy1. cbn in Hy1.
             assert (Eds : dest e = s) by (rewrite <- C in Hx1; cbn in Hx1; congruence).
             apply (before_asym sources s s' sources_NoDup Hb).
             rewrite <- Eds, <- Hy1. apply sources_order; auto. eapply nth_error_In; eauto.
          -- lia.
      + (* edges assigning a variable: by tags *)
        apply FOP_before. intros x y [i1 [j1 [_ [Hx Hy]]]].
        apply nth_error_In, Hall, tagged_shape in Hx. apply nth_error_In, Hall, tagged_shape in Hy.
        intros C.
        destruct Hx as [[i2 [Hi2 [Eg2 _]]]|[i2 [k [v [Hi2 [Eg2 [Ea [Ek [Es2 Ed2]]]]]]]]]; [lia|].
        destruct Hy as [[i3 [Hi3 [Eg3 _]]]|[i3 [k3 [v3 [Hi3 [Eg3 [Ea3 [Ek3 [Es3 Ed3]]]]]]]]]; [lia|].
        rewrite C in Ed3. rewrite Es2 in Ed3. lia.
    - apply FOP_before. intros g1 g2 [i [j [Hij [Hi Hj]]]] x y Hx Hy C.
      pose proof (nth_error_lt _ _ _ Hi) as Li. pose proof (nth_error_lt _ _ _ Hj) as Lj.
      rewrite groups_length in Li, Lj.
      apply nth_error_nth with (d := []) in Hi. apply nth_error_nth with (d := []) in Hj.
      rewrite <- Hi in Hx. rewrite <- Hj in Hy.
      apply group_In, tagged_shape in Hx; auto. apply group_In, tagged_shape in Hy; auto.
      destruct Hx as [[i2 [Hi2 [Eg2 [_ [Es2 Ed2]]]]]|[i2 [k [v [Hi2 [Eg2 [Ea [Ek [Es2 Ed2]]]]]]]]];
        destruct Hy as [[i3 [Hi3 [Eg3 [_ [Es3 Ed3]]]]]|[i3 [k3 [v3 [Hi3 [Eg3 [Ea3 [Ek3 [Es3 Ed3]]]]]]]]];
        rewrite C in Ed3; lia.
  Qed.

  Lemma tagged_no_loop g te : tagged g te -> source te <> dest te.
  Proof.
    intros Ht. destruct (tagged_shape _ _ Ht) as [[i [Hi [Eg [Ea [Es Ed]]]]]|[i [k [v [Hi [Eg [Ea [Ek [Es Ed]]]]]]]]].
    - destruct Ht as [s tag k lo hi Hs Elo Ehi Htag Hk|i' e t Hi' Hd Hc' Ha Ht'|i' e k v u Hi' Hd Hc' Ha Hu];
        cbn [assignment] in Ea; try discriminate.
      cbn [source dest]. intros C. destruct T as [_ Tl].
      apply (Tl e); [eapply nth_error_In; eauto|congruence].
    - intros C. rewrite <- C, Es in Ed. lia.
  Qed.
  Lemma tedges_topological : topological tedges.
  Proof.
    split; [apply FOP_ordered, groups_ordered|].
    intros te Hte. apply tedges_In in Hte as [g Hg]. eapply tagged_no_loop; eauto.
  Qed.

  (** Sources of the tagged edges in order of tag. *)
  Lemma tedges_tags_sorted : StronglySorted (fun a b : tstate => (snd a <= snd b)%Z) (map source tedges).
  Proof.
    apply FOP_sorted, FOP_map. unfold p_tedges. apply FOP_concat.
    - rewrite Forall_forall. intros grp Hg. apply In_nth with (d := []) in Hg as [g [Hg Eg]].
      rewrite groups_length in Hg. rewrite <- Eg.
      apply FOP_before. intros x y [i1 [j1 [_ [Hx Hy]]]].
      apply nth_error_In, group_In, tagged_shape in Hx; auto.
      apply nth_error_In, group_In, tagged_shape in Hy; auto.
      destruct Hx as [[i2 [Hi2 [Eg2 [_ [Es2 Ed2]]]]]|[i2 [k [v [Hi2 [Eg2 [Ea [Ek [Es2 Ed2]]]]]]]]];
        destruct Hy as [[i3 [Hi3 [Eg3 [_ [Es3 Ed3]]]]]|[i3 [k3 [v3 [Hi3 [Eg3 [Ea3 [Ek3 [Es3 Ed3]]]]]]]]]; lia.
    - apply FOP_before. intros g1 g2 [i [j [Hij [Hi Hj]]]] x y Hx Hy.
      pose proof (nth_error_lt _ _ _ Hi) as Li. pose proof (nth_error_lt _ _ _ Hj) as Lj.
      rewrite groups_length in Li, Lj.
      apply nth_error_nth with (d := []) in Hi. apply nth_error_nth with (d := []) in Hj.
      rewrite <- Hi in Hx. rewrite <- Hj in Hy.
      apply group_In, tagged_shape in Hx; auto. apply group_In, tagged_shape in Hy; auto.
      destruct Hx as [[i2 [Hi2 [Eg2 [_ [Es2 Ed2]]]]]|[i2 [k [v [Hi2 [Eg2 [Ea [Ek [Es2 Ed2]]]]]]]]];
        destruct Hy as [[i3 [Hi3 [Eg3 [_ [Es3 Ed3]]]]]|[i3 [k3 [v3 [Hi3 [Eg3 [Ea3 [Ek3 [Es3 Ed3]]]]]]]]]; lia.
  Qed.
  Lemma table_In s : List.In s table <-> exists te, List.In te tedges /\ source te = s.
  Proof.
    unfold p_table. rewrite fold_add_new_In, in_map_iff. simpl. split.
    - intros [[]|[te [E2 Ht]]]. eauto.
    - intros [te [Ht E2]]. eauto.
  Qed.
  Lemma tstates_range s : List.In s tstates -> (-1 <= snd s < Z.of_nat K)%Z.
  Proof.
    unfold p_tstates. rewrite in_app_iff. intros [Hs|[<-|[]]]; [|unfold p_final; cbn; lia].
    apply table_In in Hs as [te [Hte <-]].
    (* a source at tag K - 1 is fine; tag K never occurs *)
    apply tedges_In in Hte as [g Hg].
    destruct (tagged_shape _ _ Hg) as [[i [Hi [Eg [Ea [Es Ed]]]]]|[i [k [v [Hi [Eg [Ea [Ek [Es Ed]]]]]]]]]; lia.
  Qed.
  Lemma tstates_sorted : tags_sorted tstates.
  Proof.
    unfold tags_sorted. apply FOP_sorted. unfold p_tstates. apply FOP_app.
    - assert (Hs : StronglySorted (fun a b : tstate => (snd a <= snd b)%Z) table).
      { unfold p_table. apply fold_add_new_sorted.
        - intros; lia.
        - constructor.
        - apply tedges_tags_sorted.
        - intros x y []. }
      induction Hs; constructor; auto.
    - repeat constructor.
    - intros x y Hx [<-|[]]. unfold p_final. cbn [snd].
      assert (Hr : (-1 <= snd x < Z.of_nat K)%Z); [|lia].
      apply tstates_range. unfold p_tstates. apply in_or_app; auto.
  Qed.
End Stage.

Section Layout.
  Context {St Ky Vl In : Type} `{EqDec St} `{EqDec Ky} `{EqDec Vl}.
  Context (kle : Ky -> Ky -> bool) (vle : Vl -> Vl -> bool).
  Notation E := (edge St (Ky * Vl) In).
  Notation D := (dag St (Ky * Vl) In).
  Notation tstate := (St * Z)%type.
  Notation tedge := (edge (St * Z) (Ky * Vl) (option nat)).
  Context (d : D) (missing : Vl) (ordering : option (list Vl)) (pd : pdag) (cv : @conversion St Ky Vl In).
  Context (Q : parts kle vle d missing ordering pd cv).
  Context (T : topological (edges d)).
  Context (NN : forall e, List.In e (edges d) -> ecost e <> NaN).
  Notation R := (p_stage kle vle _ _ _ _ _ Q).
  Notation es := (edges d).
  Notation keys := (p_keys kle _ _ R).
  Notation K := (p_K kle _ _ R).
  Notation vals := (p_vals vle d missing ordering).
  Notation sources := (p_sources kle _ _ R).
  Notation groups := (p_groups kle _ _ R).
  Notation tedges := (p_tedges kle _ _ R).
  Notation table := (p_table kle _ _ R).
  Notation tstates := (p_tstates kle _ _ R).
  Notation tfinal := (p_final kle _ _ R).
  Notation tagged := (tagged kle d missing R).
  Notation tstates_range := (tstates_range kle d missing R).
  Notation tstates_sorted := (tstates_sorted kle d missing R).
  Notation groups_length := (groups_length kle d missing R).
  Notation group_In := (group_In kle d missing R).
  Notation tedges_In := (tedges_In kle d missing R).
  Notation tagged_shape := (tagged_shape kle d missing R).
  Notation keys_NoDup := (keys_NoDup kle d missing R).
  Notation table_In := (table_In kle d missing R).
  Notation tedges_topological := (tedges_topological kle d missing R T).

  Lemma tstates_NoDup : NoDup tstates.
  Proof.
    unfold p_tstates. apply NoDup_app_snoc; [|apply (pp_tfinal kle vle _ _ _ _ _ Q)].
    apply fold_add_new_NoDup. constructor.
  Qed.

  (** Packed edges. *)
  Definition packs (te : tedge) (pe : pedge) : Prop :=
    nth_error tstates (source pe) = Some (source te) /\
    nth_error tstates (dest pe) = Some (dest te) /\
    ecost pe = ecost te /\
    match assignment te with
    | None => assignment pe = None
    | Some (k, v) => exists i j, assignment pe = Some (i, j) /\
                       index_of keys k = Some i /\ index_of vals v = Some j
    end.
  Lemma pack_edge_packs te pe : pack_edge keys vals tstates te = Ok pe -> packs te pe.
  Proof.
    unfold pack_edge. intros E1. apply bind_ok_inv in E1 as [a [Ha E1]].
    apply bind_ok_inv in E1 as [s [Hs E1]]. apply bind_ok_inv in E1 as [t [Ht E1]].
    injection E1 as <-. apply or_err_ok in Hs. apply or_err_ok in Ht. unfold packs. cbn.
    splits; auto; try now apply index_of_Some.
    destruct (assignment te) as [[k v]|]; [|congruence].
    apply bind_ok_inv in Ha as [i [Hi Ha]]. apply bind_ok_inv in Ha as [j [Hj Ha]]. injection Ha as <-.
    apply or_err_ok in Hi. apply or_err_ok in Hj.
    exists i, j. splits; auto.
  Qed.
  Lemma packed_F2 : Forall2 packs tedges (pedges pd).
  Proof.
    pose proof (pp_pedges kle vle _ _ _ _ _ Q) as Hp. apply mapM_ok_iff in Hp.
    clear -Hp. induction Hp as [|x y l l' Hxy Hf IH]; constructor; auto. now apply pack_edge_packs.
  Qed.
  Lemma packed_length : length (pedges pd) = length tedges.
  Proof. symmetry. apply (F2_length _ _ _ packed_F2). Qed.
  Lemma packed_nth k pe : nth_error (pedges pd) k = Some pe ->
    exists te, nth_error tedges k = Some te /\ packs te pe.
  Proof.
    pose proof packed_F2 as F. revert k. induction F as [|x y l l' Hxy Hf IH]; intros k Hk; [destruct k; discriminate|].
    destruct k as [|k]; cbn in Hk.
    - injection Hk as <-. exists x. auto.
    - apply (IH k Hk).
  Qed.
  Lemma tagged_nth k te : nth_error tedges k = Some te ->
    exists pe, nth_error (pedges pd) k = Some pe /\ packs te pe.
  Proof.
    intros Hk. destruct (nth_error (pedges pd) k) as [pe|] eqn:Ep.
    - destruct (packed_nth _ _ Ep) as [te' [Ht Hp]]. exists pe. split; auto. congruence.
    - apply nth_error_None in Ep. rewrite packed_length in Ep. pose proof (nth_error_lt _ _ _ Hk). lia.
  Qed.
  Lemma states_inj i j s : nth_error tstates i = Some s -> nth_error tstates j = Some s -> i = j.
  Proof.
    intros Hi Hj. eapply (proj1 (NoDup_nth_error tstates)); [apply tstates_NoDup|eapply nth_error_lt; eauto|congruence].
  Qed.

  Lemma pd_n_states : n_states pd = length tstates.
  Proof. exact (f_equal n_states (pp_pd kle vle _ _ _ _ _ Q)). Qed.
  Lemma pd_n_keys : n_keys pd = K.
  Proof. exact (f_equal n_keys (pp_pd kle vle _ _ _ _ _ Q)). Qed.
  Lemma pd_n_values : n_values pd = length vals.
  Proof. exact (f_equal n_values (pp_pd kle vle _ _ _ _ _ Q)). Qed.
  Lemma pd_egb : egb pd = running 0 (map (@length tedge) groups).
  Proof. exact (f_equal egb (pp_pd kle vle _ _ _ _ _ Q)). Qed.
  Lemma pd_svb : svb pd = compute_svb K tstates.
  Proof. exact (f_equal svb (pp_pd kle vle _ _ _ _ _ Q)). Qed.

  Lemma svb_nth j : j <= K + 1 -> nth j (svb pd) 0 = count_below j tstates.
  Proof.
    intros Hj. rewrite pd_svb. apply compute_svb_spec; auto; [apply tstates_sorted|apply tstates_range].
  Qed.
  Lemma egb_nth j : j <= 2 * K + 1 -> nth j (egb pd) 0 = list_sum (firstn j (map (@length tedge) groups)).
  Proof.
    intros Hj. rewrite pd_egb, running_nth; [lia|]. rewrite map_length, groups_length. auto.
  Qed.
  Lemma state_position i s n : nth_error tstates i = Some s -> snd s = (Z.of_nat n - 1)%Z ->
    nth n (svb pd) 0 <= i < nth (n + 1) (svb pd) 0.
  Proof.
    intros Hi Hn. pose proof (tstates_range s (nth_error_In _ _ Hi)) as Hr.
    rewrite !svb_nth by lia.
    assert (Et : tagn s = n) by (unfold tagn; lia). rewrite <- Et.
    apply tag_position; auto; [apply tstates_sorted|]. intros x Hx. now apply tstates_range in Hx.
  Qed.
  Lemma group_edge g k pe : g < 2 * K + 1 ->
    nth g (egb pd) 0 <= k < nth (S g) (egb pd) 0 -> nth_error (pedges pd) k = Some pe ->
    exists te, tagged g te /\ packs te pe.
  Proof.
    intros Hg Hk Hpe. destruct (packed_nth _ _ Hpe) as [te [Ht Hp]]. exists te. split; auto.
    apply group_In; auto. eapply concat_group; [|exact Ht].
    rewrite !egb_nth in Hk by lia. exact Hk.
  Qed.

  Theorem convert_layout : layout pd.
  Proof.
    destruct (compute_svb_spec K tstates tstates_sorted tstates_range) as [Sl _].
    constructor; rewrite ?pd_n_keys, ?pd_n_states, ?pd_n_values.
    - rewrite pd_svb. auto.
    - rewrite svb_nth by lia. apply count_below_none. intros; lia.
    - rewrite svb_nth by lia. apply count_below_all. intros s Hs. apply tstates_range in Hs. unfold tagn. lia.
    - intros i j Hij. rewrite !svb_nth by lia. apply count_below_mono. lia.
    - rewrite pd_egb, running_length, map_length, groups_length. lia.
    - rewrite egb_nth by lia. reflexivity.
    - rewrite egb_nth by lia. rewrite packed_length. unfold p_tedges. rewrite concat_length.
      rewrite firstn_all2; auto. rewrite map_length, groups_length. auto.
    - intros i j Hij. rewrite !egb_nth by lia. apply list_sum_firstn_mono. lia.
    - intros i k pe Hi Hk Hpe.
      destruct (group_edge (2 * i) k pe) as [te [Ht Hp]]; [lia| |auto|].
      { replace (S (2 * i)) with (2 * i + 1) by lia. auto. }
      destruct Hp as [Ps [Pd [_ Pa]]].
      destruct (tagged_shape _ _ Ht) as [[i2 [Hi2 [Eg2 [Ea2 [Es2 Ed2]]]]]|[i2 [k2 [v2 [Hi2 [Eg2 _]]]]]]; [|lia].
      assert (i2 = i) by lia. subst i2. rewrite Ea2 in Pa. splits; auto.
      + eapply state_position; eauto.
      + eapply state_position; eauto.
      + eapply state_position; eauto.
      + eapply state_position; eauto.
    - intros i k pe Hi Hk Hpe.
      destruct (group_edge (2 * i + 1) k pe) as [te [Ht Hp]]; [lia| |auto|].
      { replace (S (2 * i + 1)) with (2 * i + 2) by lia. auto. }
      destruct Hp as [Ps [Pd [_ Pa]]].
      destruct (tagged_shape _ _ Ht) as [[i2 [Hi2 [Eg2 _]]]|[i2 [k2 [v2 [Hi2 [Eg2 [Ea2 [Ek2 [Es2 Ed2]]]]]]]]]; [lia|].
      assert (i2 = i) by lia. subst i2. rewrite Ea2 in Pa. destruct Pa as [i' [j' [Ea [Ei Ej]]]].
      assert (i' = i).
      { congruence. }
      subst i'. splits.
      + exists j'. split; auto. eapply index_of_lt; eauto.
      + eapply state_position; eauto.
      + eapply state_position; eauto.
      + eapply state_position; [exact Pd|]. lia.
      + pose proof (state_position _ _ (i + 1) Pd) as Hsp. replace (i + 2) with (i + 1 + 1) by lia.
        apply Hsp. lia.
    - pose proof tedges_topological as [To Tl]. split.
      + apply FOP_ordered. eapply FOP_F2; [apply packed_F2| |apply ordered_FOP, To].
        intros x x' y y' [Ps [Pd _]] [Ps' [Pd' _]] Hne C. apply Hne.
        rewrite C in Pd'. congruence.
      + intros pe Hpe. destruct (F2_In_r _ _ _ _ packed_F2 Hpe) as [te [Hte [Ps [Pd _]]]].
        intros C. apply (Tl te Hte). rewrite C in Ps. congruence.
    - intros pe Hpe. destruct (F2_In_r _ _ _ _ packed_F2 Hpe) as [te [Hte [_ [_ [Ec _]]]]].
      rewrite Ec. apply tedges_In in Hte as [g Ht].
      destruct Ht as [s tag k lo hi Hs Elo Ehi Htag Hk|i' e t Hi' Hd Hc' Ha Ht'|i' e k v u Hi' Hd Hc' Ha Hu]; cbn.
      + discriminate.
      + apply NN. eapply nth_error_In; eauto.
      + apply NN. eapply nth_error_In; eauto.
    - assert (H0' : nth_error tstates 0 = Some (initial_state d, (-1)%Z)).
      { unfold p_tstates. pose proof (pp_t0 kle vle _ _ _ _ _ Q) as E0. rewrite nth_error_app1; auto.
        eapply nth_error_lt; eauto. }
      pose proof (state_position 0 _ 0 H0' eq_refl) as Hsp. cbn in Hsp. apply Hsp.
    - assert (Hf : nth_error tstates (length table) = Some tfinal).
      { unfold p_tstates. rewrite nth_error_app2, Nat.sub_diag; auto. }
      pose proof (state_position _ _ K Hf eq_refl) as [Hsp _].
      eapply Nat.le_lt_trans; [exact Hsp|]. eapply nth_error_lt; exact Hf.
  Qed.

  Lemma initial_index : nth_error tstates 0 = Some (initial_state d, (-1)%Z).
  Proof.
    unfold p_tstates. pose proof (pp_t0 kle vle _ _ _ _ _ Q) as E0. rewrite nth_error_app1; auto.
    eapply nth_error_lt; eauto.
  Qed.
  Lemma final_index : nth_error tstates (n_states pd - 1) = Some tfinal.
  Proof.
    rewrite pd_n_states. unfold p_tstates. rewrite app_length. simpl.
    replace (length table + 1 - 1) with (length table) by lia.
    rewrite nth_error_app2, Nat.sub_diag; auto.
  Qed.
  Lemma packed_outgoing : outgoing_ok pd (outgoing_indices cv).
  Proof.
    pose proof (f_equal outgoing_indices (pp_cv kle vle _ _ _ _ _ Q)) as Eo. cbn [outgoing_indices] in Eo.
    rewrite Eo. split.
    - rewrite map_length, pd_n_states. auto.
    - intros s k Hs. rewrite pd_n_states in Hs.
      destruct (nth_error tstates s) as [ts|] eqn:Ets; [|apply nth_error_None in Ets; lia].
      rewrite (nth_error_nth _ _ _ (map_nth_error _ _ _ Ets)).
      rewrite in_map_iff. split.
      + intros [[k' te] [Ek Hi]]. cbn in Ek. subst k'. apply filter_In in Hi as [Hi Hse].
        apply enumerate_In in Hi. cbn in Hse. apply eqb_eq in Hse.
        destruct (tagged_nth _ _ Hi) as [pe [Hpe [Ps _]]]. exists pe. split; auto.
        rewrite Hse in Ps. eapply states_inj; eauto.
      + intros [pe [Hpe Es]]. destruct (packed_nth _ _ Hpe) as [te [Hte [Ps _]]].
        exists (k, te). split; auto. apply filter_In. split; [now apply enumerate_In|].
        cbn. rewrite Es, Ets in Ps. injection Ps as ->. apply eqb_refl.
  Qed.
End Layout.
