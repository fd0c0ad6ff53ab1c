(** Proofs about [convert_dag_to_packed] (model in [Convert.v]). *)

From Coq Require Import List Bool Arith Lia ZArith Sorted Permutation QArith Qcanon.
From Verif Require Import Base Graph PackedDag PackedDagProofs PackedTables Convert ConvertLists.
Import ListNotations.
Close Scope Qc_scope. Close Scope Q_scope. Open Scope nat_scope.

Lemma or_err_ok {A} e (o : option A) a : or_err e o = Ok a <-> o = Some a.
Proof. destruct o; simpl; split; congruence. Qed.

Section Folds.
  Context {St Ky Vl In : Type} `{EqDec St} `{EqDec Ky}.
  Notation E := (edge St (Ky * Vl) In).

  (** The variable index an edge leads to, given the final [possible] table. *)
  Definition target (keys : list Ky) (P : list (St * Z)) (e : E) (u : Z) : Prop :=
    match assignment e with
    | Some (k, _) => key_index keys k = Ok u
    | None => assoc (source e) P = Some u
    end.

  Lemma upd_with_same f (d : list (St * Z)) s u :
    assoc s (upd_with f d s u) = Some (match assoc s d with None => u | Some t => f t u end).
  Proof. unfold upd_with. now rewrite assoc_cons_same. Qed.
  Lemma upd_with_other f (d : list (St * Z)) s s' u :
    s <> s' -> assoc s' (upd_with f d s u) = assoc s' d.
  Proof. intros Hne. unfold upd_with. rewrite assoc_cons_other; auto. Qed.

  Lemma possible_fold keys (l : list E) : forall d P,
    topological l -> foldM (possible_step keys) l d = Ok P ->
    (forall x, (forall e, List.In e l -> dest e <> x) -> assoc x P = assoc x d) /\
    (forall x t, assoc x d = Some t -> exists t', assoc x P = Some t' /\ (t <= t')%Z) /\
    (forall e, List.In e l -> exists u t, target keys P e u /\ assoc (dest e) P = Some t /\ (u <= t)%Z) /\
    (forall x t, assoc x P = Some t -> assoc x d = Some t \/
       exists e, List.In e l /\ dest e = x /\ target keys P e t).
  Proof.
    induction l as [|e l IH]; intros d P [Ho Hl] Hf.
    - cbn in Hf. injection Hf as <-. splits; auto.
      + intros x t E. exists t. split; auto. lia.
      + intros e [].
    - cbn [foldM] in Hf. apply bind_ok_inv in Hf as [d1 [Hs Hf]].
      unfold possible_step in Hs. apply bind_ok_inv in Hs as [u [Hu Hs]]. injection Hs as <-.
      cbn in Ho. destruct Ho as [Ho1 Ho2].
      assert (Hse : dest e <> source e) by (intros C; apply (Hl e); [simpl; auto|congruence]).
      destruct (IH _ P (conj Ho2 (fun x Hx => Hl x (or_intror Hx))) Hf) as [I1 [I2 [I3 I4]]].
      assert (Htarget : target keys P e u).
      { unfold target. destruct (assignment e) as [[k v]|]; auto.
        rewrite I1 by auto. rewrite upd_with_other by auto. now apply or_err_ok in Hu. }
      splits.
      + intros x Hx. rewrite I1 by (intros; apply Hx; simpl; auto).
        apply upd_with_other. apply Hx. simpl; auto.
      + intros x t Ex. destruct (eq_dec (dest e) x) as [<-|Hne].
        * pose proof (upd_with_same Z.max d (dest e) u) as E1. rewrite Ex in E1.
          destruct (I2 _ _ E1) as [t' [E2 H2]]. exists t'. split; auto. lia.
        * apply I2. now rewrite upd_with_other.
      + intros e' [<-|He']; auto.
        pose proof (upd_with_same Z.max d (dest e) u) as E1.
        destruct (I2 _ _ E1) as [t' [E2 H2]]. exists u, t'. splits; auto.
        destruct (assoc (dest e) d); lia.
      + intros x t Ex. destruct (I4 x t Ex) as [Ed|[e' [He' [Hd Ht]]]].
        * destruct (eq_dec (dest e) x) as [<-|Hne].
          -- rewrite upd_with_same in Ed. destruct (assoc (dest e) d) as [t0|] eqn:E0.
             ++ injection Ed as Ed. destruct (Z.max_spec t0 u) as [[_ M]|[_ M]].
                ** right. exists e. simpl. splits; auto. congruence.
                ** left. congruence.
             ++ injection Ed as <-. right. exists e. simpl. auto.
          -- rewrite upd_with_other in Ed by auto. auto.
        * right. exists e'. simpl; auto.
  Qed.

  Lemma guaranteed_fold keys P (l : list E) : forall d G,
    foldM (guaranteed_step keys P) l d = Ok G ->
    (forall x, (forall e, List.In e l -> dest e <> x) -> assoc x G = assoc x d) /\
    (forall x t, assoc x d = Some t -> exists t', assoc x G = Some t' /\ (t' <= t)%Z) /\
    (forall e, List.In e l -> exists u t, target keys P e u /\ assoc (dest e) G = Some t /\ (t <= u)%Z) /\
    (forall x t, assoc x G = Some t -> assoc x d = Some t \/
       exists e, List.In e l /\ dest e = x /\ target keys P e t).
  Proof.
    induction l as [|e l IH]; intros d G Hf.
    - cbn in Hf. injection Hf as <-. splits; auto.
      + intros x t E. exists t. split; auto. lia.
      + intros e [].
    - cbn [foldM] in Hf. apply bind_ok_inv in Hf as [d1 [Hs Hf]].
      unfold guaranteed_step in Hs. apply bind_ok_inv in Hs as [u [Hu Hs]]. injection Hs as <-.
      destruct (IH _ G Hf) as [I1 [I2 [I3 I4]]].
      assert (Htarget : target keys P e u).
      { unfold target. destruct (assignment e) as [[k v]|]; auto. now apply or_err_ok in Hu. }
      splits.
      + intros x Hx. rewrite I1 by (intros; apply Hx; simpl; auto).
        apply upd_with_other. apply Hx. simpl; auto.
      + intros x t Ex. destruct (eq_dec (dest e) x) as [<-|Hne].
        * pose proof (upd_with_same Z.min d (dest e) u) as E1. rewrite Ex in E1.
          destruct (I2 _ _ E1) as [t' [E2 H2]]. exists t'. split; auto. lia.
        * apply I2. now rewrite upd_with_other.
      + intros e' [<-|He']; auto.
        pose proof (upd_with_same Z.min d (dest e) u) as E1.
        destruct (I2 _ _ E1) as [t' [E2 H2]]. exists u, t'. splits; auto.
        destruct (assoc (dest e) d); lia.
      + intros x t Ex. destruct (I4 x t Ex) as [Ed|[e' [He' [Hd Ht]]]].
        * destruct (eq_dec (dest e) x) as [<-|Hne].
          -- rewrite upd_with_same in Ed. destruct (assoc (dest e) d) as [t0|] eqn:E0.
             ++ injection Ed as Ed. destruct (Z.min_spec t0 u) as [[_ M]|[_ M]].
                ** left. congruence.
                ** right. exists e. simpl. splits; auto. congruence.
             ++ injection Ed as <-. right. exists e. simpl. auto.
          -- rewrite upd_with_other in Ed by auto. auto.
        * right. exists e'. simpl; auto.
  Qed.

  Lemma after_fold keys P (l : list E) : forall d A,
    foldM (after_step keys P) l d = Ok A ->
    (forall x t, assoc x d = Some t -> exists t', assoc x A = Some t' /\ (t <= t')%Z) /\
    (forall e k v, List.In e l -> assignment e = Some (k, v) ->
       exists u t a, key_index keys k = Ok u /\ assoc (source e) P = Some t /\ (t < u)%Z /\
         assoc (source e) A = Some a /\ (u <= a)%Z) /\
    (forall x a, assoc x A = Some a -> assoc x d = Some a \/
       exists e k v, List.In e l /\ source e = x /\ assignment e = Some (k, v) /\ key_index keys k = Ok a).
  Proof.
    induction l as [|e l IH]; intros d A Hf.
    - cbn in Hf. injection Hf as <-. splits; auto.
      + intros x t E. exists t. split; auto. lia.
      + intros e k v [].
    - cbn [foldM] in Hf. apply bind_ok_inv in Hf as [d1 [Hs Hf]].
      destruct (IH _ A Hf) as [I1 [I2 I3]].
      unfold after_step in Hs. destruct (assignment e) as [[k v]|] eqn:Ea.
      + apply bind_ok_inv in Hs as [u [Hu Hs]]. apply bind_ok_inv in Hs as [t [Ht Hs]].
        destruct (u <=? t)%Z eqn:Ec; [discriminate|]. injection Hs as <-. apply Z.leb_gt in Ec.
        apply or_err_ok in Ht. splits.
        * intros x t0 Ex. destruct (eq_dec (source e) x) as [<-|Hne].
          -- pose proof (upd_with_same Z.max d (source e) u) as E1. rewrite Ex in E1.
             destruct (I1 _ _ E1) as [t' [E2 H2]]. exists t'. split; auto. lia.
          -- apply I1. now rewrite upd_with_other.
        * intros e' k' v' [<-|He'] Ea'; [|eauto].
          rewrite Ea in Ea'. injection Ea' as <- <-.
          pose proof (upd_with_same Z.max d (source e) u) as E1.
          destruct (I1 _ _ E1) as [a [E2 H2]]. exists u, t, a. splits; auto.
          destruct (assoc (source e) d); lia.
        * intros x a Ex. destruct (I3 x a Ex) as [Ed|[e' [k' [v' [He' He'']]]]].
          -- destruct (eq_dec (source e) x) as [<-|Hne].
             ++ rewrite upd_with_same in Ed. destruct (assoc (source e) d) as [t0|] eqn:E0.
                ** injection Ed as Ed. destruct (Z.max_spec t0 u) as [[_ M]|[_ M]].
                   --- right. exists e, k, v. simpl. splits; auto. congruence.
                   --- left. congruence.
                ** injection Ed as <-. right. exists e, k, v. simpl. auto.
             ++ rewrite upd_with_other in Ed by auto. auto.
          -- right. exists e', k', v'. simpl; tauto.
      + injection Hs as <-. splits; auto.
        * intros e' k' v' [<-|He'] Ea'; [congruence|eauto].
        * intros x a Ex. destruct (I3 x a Ex) as [Ed|[e' [k' [v' [He' He'']]]]]; auto.
          right. exists e', k', v'. simpl; tauto.
  Qed.
End Folds.

Lemma key_index_ok {Ky} `{EqDec Ky} (keys : list Ky) k u :
  key_index keys k = Ok u <-> exists i, u = Z.of_nat i /\ index_of keys k = Some i.
Proof.
  unfold key_index. destruct (index_of keys k) as [i|]; simpl; split.
  - intros [= <-]. eauto.
  - intros [j [-> [= ->]]]. auto.
  - discriminate.
  - intros [j [_ E]]. discriminate.
Qed.

Lemma mapM_In {A B} (f : A -> result B) l ys y :
  mapM f l = Ok ys -> (List.In y ys <-> exists x, List.In x l /\ f x = Ok y).
Proof.
  intros E. apply mapM_ok_iff in E. induction E as [|x z l ys Hxz Hrest IH]; simpl.
  - split; [tauto|]. intros [x [[] _]].
  - rewrite IH. split.
    + intros [<-|[x' [Hx' E']]]; eauto.
    + intros [x' [[<-|Hx'] E']]; [left; congruence|right; eauto].
Qed.

Lemma zrange_In a b x : List.In x (zrange a b) <-> (a <= x < b)%Z.
Proof.
  unfold zrange. rewrite in_map_iff. split.
  - intros [i [<- Hi]]. apply in_seq in Hi. lia.
  - intros Hx. exists (Z.to_nat (x - a)). split; [lia|]. apply in_seq. lia.
Qed.

Section Parts.
  Context {St Ky Vl In : Type} `{EqDec St} `{EqDec Ky} `{EqDec Vl}.
  Context (kle : Ky -> Ky -> bool) (vle : Vl -> Vl -> bool).
  Notation E := (edge St (Ky * Vl) In).
  Notation D := (dag St (Ky * Vl) In).
  Notation tstate := (St * Z)%type.
  Notation tedge := (edge (St * Z) (Ky * Vl) (option nat)).

  (** The intermediate values of a conversion that gets as far as the tagged edges. *)
  Record stage (d : D) (missing : Vl) := mkStage {
    p_possible : list (St * Z);
    p_guaranteed : list (St * Z);
    p_after : list (St * Z);
    p_emitted : list (list (nat * tedge));
    p_keys := sort kle (keys_seen (edges d));
    p_K := length p_keys;
    p_sources := source_states (edges d) ++ [final_state d];
    p_groups := map (fun g => map snd (filter (fun ge => fst ge =? g) (concat p_emitted))) (seq 0 (2 * p_K + 1));
    p_tedges := concat p_groups;
    p_table := fold_left add_new (map source p_tedges) [];
    p_final := (final_state d, (Z.of_nat p_K - 1)%Z);
    p_tstates := p_table ++ [p_final];
    pp_first : nth_error (source_states (edges d)) 0 = Some (initial_state d);
    pp_final : ~ List.In (final_state d) (source_states (edges d));
    pp_possible : foldM (possible_step p_keys) (edges d) [(initial_state d, (-1)%Z)] = Ok p_possible;
    pp_guaranteed : foldM (guaranteed_step p_keys p_possible) (edges d) [(initial_state d, (-1)%Z)] = Ok p_guaranteed;
    pp_after : foldM (after_step p_keys p_possible) (edges d) [] = Ok p_after;
    pp_emitted : mapM (emit_state p_keys missing (edges d) p_sources p_possible p_guaranteed p_after) p_sources = Ok p_emitted
  }.
  Definition p_vals (d : D) (missing : Vl) (ordering : option (list Vl)) : list Vl :=
    match ordering with None => sort vle (values_seen missing (edges d)) | Some l => l end.
  (** ... and of a successful conversion. *)
  Record parts (d : D) (missing : Vl) (ordering : option (list Vl)) (pd : pdag) (cv : @conversion St Ky Vl In) := mkParts {
    p_stage : stage d missing;
    pp_t0 : nth_error (p_table _ _ p_stage) 0 = Some (initial_state d, (-1)%Z);
    pp_tfinal : ~ List.In (p_final _ _ p_stage) (p_table _ _ p_stage);
    pp_pedges : mapM (pack_edge (p_keys _ _ p_stage) (p_vals d missing ordering) (p_tstates _ _ p_stage))
                  (p_tedges _ _ p_stage) = Ok (pedges pd);
    pp_pd : pd = mkPdag (length (p_tstates _ _ p_stage)) (p_K _ _ p_stage) (length (p_vals d missing ordering)) (pedges pd)
                (running 0 (map (@length tedge) (p_groups _ _ p_stage)))
                (compute_svb (p_K _ _ p_stage) (p_tstates _ _ p_stage));
    pp_cv : cv = mkConversion (p_keys _ _ p_stage) (p_vals d missing ordering) (p_sources _ _ p_stage) (edges d)
      (p_tstates _ _ p_stage) (p_tedges _ _ p_stage)
      (map (fun s => map fst (filter (fun ke => eqb (source (snd ke)) s) (enumerate (p_tedges _ _ p_stage))))
         (p_tstates _ _ p_stage))
  }.

  Lemma convert_parts d missing ordering pd cv :
    convert_dag_to_packed kle vle d missing ordering = Ok (pd, cv) ->
    exists _ : parts d missing ordering pd cv, True.
  Proof.
    unfold convert_dag_to_packed. intros Hc.
    apply bind_ok_inv in Hc as [first [Hf Hc]]. apply or_err_ok in Hf.
    destruct (eqb first (initial_state d)) eqn:Ef; cbn [negb] in Hc; [|discriminate].
    apply eqb_eq in Ef. subst first.
    destruct (mem (final_state d) (source_states (edges d))) eqn:Em; [discriminate|].
    apply mem_false_iff in Em.
    apply bind_ok_inv in Hc as [possible [Hp Hc]].
    apply bind_ok_inv in Hc as [guaranteed [Hg Hc]].
    apply bind_ok_inv in Hc as [after [Ha Hc]].
    apply bind_ok_inv in Hc as [emitted [He Hc]].
    set (st := mkStage d missing possible guaranteed after emitted Hf Em Hp Hg Ha He).
    apply bind_ok_inv in Hc as [t0 [Ht Hc]]. apply or_err_ok in Ht.
    match type of Hc with (if negb ?b then _ else _) = _ => destruct b eqn:Et; cbn [negb] in Hc; [|discriminate] end.
    apply eqb_eq in Et. subst t0.
    match type of Hc with (if ?b then _ else _) = _ => destruct b eqn:Etf; [discriminate|] end.
    apply mem_false_iff in Etf.
    apply bind_ok_inv in Hc as [ps [Hps Hc]]. injection Hc as <- <-.
    unshelve eexists; [|exact I].
    refine (mkParts d missing ordering _ _ st _ _ _ _ _); auto; reflexivity.
  Qed.

  (** The rest of the conversion, from a stage. *)
  Lemma stage_convert d missing ordering (R : stage d missing) ps :
    nth_error (p_table _ _ R) 0 = Some (initial_state d, (-1)%Z) ->
    ~ List.In (p_final _ _ R) (p_table _ _ R) ->
    mapM (pack_edge (p_keys _ _ R) (p_vals d missing ordering) (p_tstates _ _ R)) (p_tedges _ _ R) = Ok ps ->
    exists r, convert_dag_to_packed kle vle d missing ordering = Ok r.
  Proof.
    intros H0' H1' H2'. destruct R as [possible guaranteed after emitted K0 K1 K2 K3 K4 K5 K6 K7 Hf Em Hp Hg Ha He].
    unfold convert_dag_to_packed. rewrite Hf. cbn [or_err bind]. rewrite eqb_refl. cbn [negb].
    replace (mem (final_state d) (source_states (edges d))) with false by (symmetry; now apply mem_false_iff).
    cbv zeta. subst K0 K1 K2 K3 K4 K5 K6 K7.
    unfold p_tstates, p_table, p_final, p_tedges, p_groups, p_sources, p_K, p_keys in *. cbn [p_emitted] in *.
    rewrite Hp. cbn [bind]. rewrite Hg. cbn [bind]. rewrite Ha. cbn [bind]. rewrite He. cbn [bind].
    rewrite H0'. cbn [or_err bind]. rewrite eqb_refl. cbn [negb].
    apply mem_false_iff in H1'. rewrite H1'. unfold p_vals in H2'. rewrite H2'. cbn [bind]. eauto.
  Qed.
End Parts.
