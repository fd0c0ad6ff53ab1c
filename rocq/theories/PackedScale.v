(** Scaling the costs of a packed DAG (model: [scale_packed_dag_costs] in
    [PackedDag.v], packed_dags.py:942-953). *)

From Coq Require Import List Bool Arith Lia ZArith QArith Qcanon.
From Verif Require Import Base Graph PackedDag PackedDagProofs.
Import ListNotations.
Close Scope Qc_scope. Close Scope Q_scope. Open Scope nat_scope.

Section Scale.
  Context (q : Qc) (Hq : (0 < q)%Qc).

  Lemma cscale_fin x : cscale q (Fin x) = Fin (x * q)%Qc. Proof. reflexivity. Qed.
  Lemma cscale_inf : cscale q Inf = Inf.
  Proof. cbn. destruct (Qclt_le_dec 0%Qc q) as [Hp|Hp]; auto. exfalso. eapply Qclt_not_le; eauto. Qed.
  Lemma cscale_add a b : cscale q (cadd a b) = cadd (cscale q a) (cscale q b).
  Proof.
    destruct a as [x| |], b as [y| |]; cbn [cadd]; rewrite ?cscale_inf; cbn; auto.
    f_equal. ring.
  Qed.
  Lemma cscale_csum l : cscale q (csum l) = csum (map (cscale q) l).
  Proof.
    induction l as [|x l IH]; cbn [csum fold_right map].
    - cbn. f_equal. ring.
    - unfold csum in *. cbn. rewrite <- IH. apply cscale_add.
  Qed.
  Lemma cscale_notnan c : c <> NaN -> cscale q c <> NaN.
  Proof. destruct c; rewrite ?cscale_inf; cbn; congruence. Qed.
  Lemma cscale_le a b : cle (cscale q a) (cscale q b) <-> cle a b.
  Proof.
    destruct a as [x| |], b as [y| |]; rewrite ?cscale_inf; cbn; try tauto.
    split; intros Hxy.
    - apply Qcnot_lt_le. intros C. apply (Qcmult_lt_compat_r _ _ q Hq) in C.
      apply (Qcle_not_lt _ _ Hxy C).
    - apply Qcmult_le_compat_r; auto. now apply Qclt_le_weak.
  Qed.
  Definition scale_edge (e : pedge) : pedge :=
    mkEdge (source e) (dest e) (cscale q (ecost e)) (assignment e) (info e).
  Lemma scaled_edges d : pedges (scale_packed_dag_costs d q) = map scale_edge (pedges d).
  Proof. reflexivity. Qed.

  Lemma scale_path_to es s p t : is_path es s p t -> is_path (map scale_edge es) s (map scale_edge p) t.
  Proof.
    induction 1 as [s|e p t He Hp IH]; [constructor|].
    cbn [map]. change (source e) with (source (scale_edge e)). constructor; auto. now apply in_map.
  Qed.
  Lemma scale_cost p : path_cost (map scale_edge p) = cscale q (path_cost p).
  Proof. unfold path_cost. rewrite cscale_csum, !map_map. reflexivity. Qed.
  Lemma scale_assignments p : path_assignments (map scale_edge p) = path_assignments p.
  Proof.
    induction p as [|e p IH]; auto. cbn [map path_assignments].
    change (assignment (scale_edge e)) with (assignment e). now rewrite IH.
  Qed.
  Lemma scale_index es ks p :
    Forall2 (fun k e => nth_error es k = Some e) ks p ->
    Forall2 (fun k e => nth_error (map scale_edge es) k = Some e) ks (map scale_edge p).
  Proof.
    induction 1 as [|k e ks p He Hr IH]; cbn [map]; constructor; auto.
    now apply map_nth_error.
  Qed.
  Lemma unscale_index es ks p' :
    Forall2 (fun k e => nth_error (map scale_edge es) k = Some e) ks p' ->
    exists p, Forall2 (fun k e => nth_error es k = Some e) ks p /\ p' = map scale_edge p.
  Proof.
    induction 1 as [|k e ks p' He Hr [p [IH1 IH2]]].
    - exists []. split; [apply Forall2_nil|reflexivity].
    - rewrite nth_error_map in He. destruct (nth_error es k) as [e0|] eqn:Ee; cbn in He; [|discriminate].
      injection He as <-. exists (e0 :: p). split; [constructor; auto|]. cbn. congruence.
  Qed.
  Lemma unscale_path (es : list pedge) ks p s t :
    Forall2 (fun k e => nth_error es k = Some e) ks p ->
    is_path (map scale_edge es) s (map scale_edge p) t -> is_path es s p t.
  Proof.
    intros Hi. revert s. induction Hi as [|k e ks p He Hr IH]; intros s Hp.
    - apply is_path_nil_inv in Hp. subst. constructor.
    - cbn [map] in Hp. apply is_path_cons_inv in Hp as [Es [_ Hp]]. subst s.
      change (source (scale_edge e)) with (source e). constructor; [eapply nth_error_In; eauto|].
      now apply IH.
  Qed.

  (** The layout is untouched. *)
  Lemma scale_layout d : layout d -> layout (scale_packed_dag_costs d q).
  Proof.
    intros L. destruct L. constructor; auto; cbn [scale_packed_dag_costs n_states n_keys n_values egb svb].
    - rewrite scaled_edges, map_length. auto.
    - intros i k e Hi Hk He. rewrite scaled_edges, nth_error_map in He.
      destruct (nth_error (pedges d) k) as [e0|] eqn:E0; cbn in He; [|discriminate]. injection He as <-.
      exact (l_between i k e0 Hi Hk E0).
    - intros i k e Hi Hk He. rewrite scaled_edges, nth_error_map in He.
      destruct (nth_error (pedges d) k) as [e0|] eqn:E0; cbn in He; [|discriminate]. injection He as <-.
      exact (l_assign i k e0 Hi Hk E0).
    - rewrite scaled_edges. destruct l_topological as [To Tl]. split.
      + clear -To. induction (pedges d) as [|e es IH]; cbn [map]; [constructor|].
        cbn in To. destruct To as [T1 T2]. split; auto.
        intros e' He'. apply in_map_iff in He' as [e0 [<- He0]]. exact (T1 e0 He0).
      + intros e He. apply in_map_iff in He as [e0 [<- He0]]. exact (Tl e0 He0).
    - rewrite scaled_edges. intros e He. apply in_map_iff in He as [e0 [<- He0]]. cbn.
      apply cscale_notnan. auto.
  Qed.

  Lemma scale_complete_to d p : packed_complete d p ->
    packed_complete (scale_packed_dag_costs d q) (map scale_edge p).
  Proof. apply scale_path_to. Qed.
End Scale.
