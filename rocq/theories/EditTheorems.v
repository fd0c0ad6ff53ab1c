(** Consequences: building never raises, what edits report, packing, and that
    every choice of regions can be edited into every target. *)

From Coq Require Import List Bool Arith ZArith Lia QArith Qcanon Sorting.Sorted.
From Verif Require Import Base Graph GatedDag Blocks SeqNodes PackedSeq PackedSeqProofs Numbered Decisions Convert
  ConstraintDag ConstraintSpec ConstraintProofs BuilderPack ConstraintPack EditDag EditOrder EditScript EditSound EditView EditComplete EditSpec EditProofs.
Import ListNotations.
Close Scope Qc_scope. Close Scope Q_scope. Close Scope Z_scope. Open Scope nat_scope.

Section Theorems.
  Context {M : Type} {md : EqDec M} (P : parameters).
  Notation L := (lnode M).

  (** ** Building. *)
  Lemma all_topological (root troot : list L) : numbered 0 root -> numbered 0 troot -> topological (all_edges P root troot).
  Proof.
    intros N1 N2. unfold all_edges. set (f := mkEdge _ EFinal _ _ _).
    assert (T1 : topological (rows P ROOT_SEQ ROOT_SEQ 0 root troot)) by (apply (rows_topological P root troot ROOT_SEQ ROOT_SEQ 0 0 0); auto; reflexivity).
    pose proof (rows_joins P root ROOT_SEQ ROOT_SEQ 0 troot 0 0 N1 N2) as J. rewrite Forall_forall in J.
    apply topological_app; auto.
    - apply topological_one. discriminate.
    - intros e e' He [<-|[]] C. destruct (J e He) as [S _]. cbn in C. rewrite <- C in S. exact S.
  Qed.
  Theorem construct_edit_ok (ns ts : list (node M)) :
    construct_edit_dag P (pack ns) (pack ts) =
      Ok (mkDag (EAt PROCESS High ROOT_SEQ 0 ROOT_SEQ 0) (all_edges P (labelled ns) (labelled ts)) EFinal).
  Proof.
    unfold construct_edit_dag. rewrite !read_pack. cbn [bind].
    replace (length (root_sequence (pack ns))) with (length (labelled ns)) by (rewrite pack_labelled; cbn; now rewrite map_length).
    replace (length (root_sequence (pack ts))) with (length (labelled ts)) by (rewrite pack_labelled; cbn; now rewrite map_length).
    fold (all_edges P (labelled ns) (labelled ts)).
    pose proof (all_topological _ _ (labelled_numbered ns) (labelled_numbered ts)) as [T _].
    pose proof (partial_inv_start (As := decision) (In := option einfo) (EAt PROCESS High ROOT_SEQ 0 ROOT_SEQ 0)) as I0.
    destruct (proj2 (add_edges_ok_iff (all_edges P (labelled ns) (labelled ts)) _ I0) T) as [d' E].
    rewrite E. cbn [bind]. apply add_edges_inv in E as [_ [E1 E2]]; auto. unfold partial_finish. rewrite E1, E2. reflexivity.
  Qed.

  (** ** What is reported. *)
  Definition covers (got all : list nat) (r : option conf) : Prop :=
    match r with Some _ => got = all | None => exists rest, all = got ++ rest end.
  Definition ends_well (l : list (option einfo)) (r : option conf) : Prop :=
    match r with
    | Some _ => Forall (fun x => ~ stops x) l
    | None => exists l' x, l = l' ++ [x] /\ stops x /\ Forall (fun x => ~ stops x) l'
    end.
  Lemma psides_app a b : prototype_side (a ++ b) = prototype_side a ++ prototype_side b.
  Proof. apply flat_map_app. Qed.
  Lemma tsides_app a b : target_side (a ++ b) = target_side a ++ target_side b.
  Proof. apply flat_map_app. Qed.
  Lemma reports_app a b : reports (a ++ b) = reports a ++ reports b.
  Proof. apply map_app. Qed.
  Lemma covers_app a b x y r : a = x -> covers b y r -> covers (a ++ b) (x ++ y) r.
  Proof. intros -> H. destruct r; cbn in *; [now subst|]. destruct H as [z ->]. exists z. apply app_assoc. Qed.
  Lemma covers_left a x y : covers a x None -> covers a (x ++ y) None.
  Proof. intros [z ->]. exists (z ++ y). now rewrite app_assoc. Qed.
  Lemma covers_none y r : r = None -> covers [] y r.
  Proof. intros ->. now exists y. Qed.
  Lemma ends_app a b r : Forall (fun x => ~ stops x) a -> ends_well b r -> ends_well (a ++ b) r.
  Proof.
    intros F H. destruct r; cbn in *; [apply Forall_app; auto|]. destruct H as [l [x [-> [S G]]]].
    exists (a ++ l), x. splits; auto; [apply app_assoc|apply Forall_app; auto].
  Qed.
  Lemma ends_cons a b r : ~ stops a -> ends_well b r -> ends_well (a :: b) r.
  Proof. intros F. apply (ends_app [a]). now constructor. Qed.
  Lemma quiet_sides c (x : L) e c' : quiet P c x e c' ->
    prototype_side [snd e] = text_nodes x /\ target_side [snd e] = [] /\ ~ stops (snd e).
  Proof. intros H; destruct H; cbn; splits; auto; discriminate. Qed.
  Lemma dels_sides c (l : list L) tr r : dels P c l tr r ->
    covers (prototype_side (reports tr)) (flat_map text_nodes l) r /\ target_side (reports tr) = [] /\ ends_well (reports tr) r.
  Proof.
    induction 1 as [c|c x e c' l tr r Hq Hd [IH1 [IH2 IH3]]|c p l|c p t m l tr r Hd [IH1 [IH2 IH3]]
                   |c p cs m l tr c' tr' r Hd [IH1 [IH2 IH3]] Hd' [IH1' [IH2' IH3']]|c p cs m l tr Hd [IH1 [IH2 IH3]]].
    - splits; auto; [reflexivity|constructor].
    - apply quiet_sides in Hq as [Q1 [Q2 Q3]]. unfold reports. cbn [map flat_map]. fold (reports tr).
      change (snd e :: reports tr) with ([snd e] ++ reports tr). rewrite psides_app, tsides_app, Q2. splits; auto.
      + now apply covers_app.
      + now apply ends_cons.
    - splits; auto; [now eexists|]. exists [], (snd (leaving p c)). splits; auto. reflexivity.
    - splits; auto.
      + apply (covers_app [_] _ [_]); auto.
      + apply ends_cons; auto; discriminate.
    - cbn [reports map]. fold (reports (tr ++ silent :: tr')). rewrite reports_app. cbn [reports map]. fold (reports tr').
      splits.
      + cbn [flat_map text_nodes]. cbn. fold (prototype_side (reports tr ++ None :: reports tr')). rewrite psides_app. now apply covers_app.
      + cbn. fold (target_side (reports tr ++ None :: reports tr')). rewrite tsides_app, IH2. exact IH2'.
      + apply ends_cons; [intros []|]. apply ends_app; auto. apply ends_cons; [intros []|auto].
    - cbn [reports map]. fold (reports tr). splits; auto.
      + cbn [flat_map text_nodes]. apply covers_left. exact IH1.
      + apply ends_cons; [intros []|auto].
  Qed.
  Lemma inserts_sides c (l : list L) tr : inserts P c l tr ->
    prototype_side (reports tr) = [] /\ target_side (reports tr) = flat_map text_nodes l /\ Forall (fun x => ~ stops x) (reports tr).
  Proof.
    induction 1 as [c|c p t l tr Hd [H1 [H2 H3]]|c p t m l tr Hd [H1 [H2 H3]]|c p ds m l tr tr' Hd [H1 [H2 H3]] Hd' [H1' [H2' H3']]].
    - splits; auto. constructor.
    - splits; auto; [cbn; now f_equal|constructor; auto; discriminate].
    - splits; auto; [cbn; now f_equal|constructor; auto; discriminate].
    - cbn [reports map]. fold (reports (tr ++ silent :: tr')). rewrite reports_app. cbn [reports map]. fold (reports tr').
      splits.
      + cbn. fold (prototype_side (reports tr ++ None :: reports tr')). rewrite psides_app, H1. exact H1'.
      + cbn. fold (target_side (reports tr ++ None :: reports tr')). rewrite tsides_app, H2. cbn. now f_equal.
      + constructor; [intros []|]. apply Forall_app. split; auto.
  Qed.
  Lemma sc_sides a c (ps ts : list L) tr r : sc P a c ps ts tr r ->
    covers (prototype_side (reports tr)) (flat_map text_nodes ps) r /\
    covers (target_side (reports tr)) (flat_map text_nodes ts) r /\ ends_well (reports tr) r.
  Proof.
    induction 1; cbn [reports map]; try (fold (reports tr));
      try destruct IHsc as [IH1 [IH2 IH3]].
    - splits; auto; [reflexivity|reflexivity|constructor].
    - match goal with H : quiet _ _ _ _ _ |- _ => apply quiet_sides in H as [Q1 [Q2 Q3]] end.
      change (snd e :: reports tr) with ([snd e] ++ reports tr). rewrite psides_app, tsides_app, Q2. splits; auto.
      + now apply covers_app.
      + now apply ends_cons.
    - splits; [now eexists|now eexists|]. exists [], (snd (leaving p c)). splits; auto. reflexivity.
    - splits; auto. apply ends_cons; auto; discriminate.
    - splits; auto. apply ends_cons; auto; intros [] .
    - splits; auto; [apply (covers_app [_] _ [_]); auto|apply ends_cons; auto; discriminate].
    - match goal with H : dels _ _ _ _ _ |- _ => apply dels_sides in H as [D1 [D2 D3]] end.
      fold (reports (tr ++ silent :: tr')). rewrite reports_app. cbn [reports map]. fold (reports tr'). splits.
      + cbn [flat_map text_nodes]. cbn. fold (prototype_side (reports tr ++ None :: reports tr')). rewrite psides_app. now apply covers_app.
      + cbn. fold (target_side (reports tr ++ None :: reports tr')). rewrite tsides_app, D2. exact IH2.
      + apply ends_cons; [intros []|]. apply ends_app; auto. apply ends_cons; [intros []|auto].
    - match goal with H : dels _ _ _ _ _ |- _ => apply dels_sides in H as [D1 [D2 D3]] end. splits.
      + cbn [flat_map text_nodes]. apply covers_left. exact D1.
      + cbn. fold (target_side (reports tr)). rewrite D2. now eexists.
      + apply ends_cons; [intros []|auto].
    - splits; auto. apply ends_cons; auto; intros [] .
    - splits; auto; [apply (covers_app [_] _ [_]); auto|apply ends_cons; auto; discriminate].
    - splits; auto; [apply (covers_app [_] _ [_]); auto|apply ends_cons; auto; discriminate].
    - match goal with H : inserts _ _ _ _ |- _ => apply inserts_sides in H as [D1 [D2 D3]] end.
      fold (reports (tr ++ silent :: tr')). rewrite reports_app. cbn [reports map]. fold (reports tr'). splits.
      + cbn. fold (prototype_side (reports tr ++ None :: reports tr')). rewrite psides_app, D1. exact IH1.
      + cbn [flat_map text_nodes]. cbn. fold (target_side (reports tr ++ None :: reports tr')). rewrite tsides_app. now apply covers_app.
      + apply ends_cons; [intros []|]. apply ends_app; auto. apply ends_cons; [intros []|auto].
    - splits; auto. apply ends_cons; auto; intros [] .
    - splits; auto; [apply (covers_app [_] _ [_]); auto|apply (covers_app [_] _ [_]); auto|apply ends_cons; auto; discriminate].
    - destruct IHsc1 as [A1 [A2 A3]]. destruct IHsc2 as [B1 [B2 B3]].
      fold (reports (tr ++ silent :: tr')). rewrite reports_app. cbn [reports map]. fold (reports tr'). splits.
      + cbn [flat_map text_nodes]. cbn. fold (prototype_side (reports tr ++ None :: reports tr')). rewrite psides_app. now apply covers_app.
      + cbn [flat_map text_nodes]. cbn. fold (target_side (reports tr ++ None :: reports tr')). rewrite tsides_app. now apply covers_app.
      + apply ends_cons; [intros []|]. apply ends_app; auto. apply ends_cons; [intros []|auto].
    - splits.
      + cbn [flat_map text_nodes]. apply covers_left. exact IH1.
      + cbn [flat_map text_nodes]. apply covers_left. exact IH2.
      + apply ends_cons; [intros []|auto].
  Qed.
  (** Kept nodes are the same on both sides. *)
  Definition true_keep (ps ts : list L) (x : option einfo) : Prop :=
    match x with
    | Some f => act f = Keep -> exists i j v, proto_node f = Some i /\ target_node f = Some j /\
        In (i, v) (flat_map token_nodes ps) /\ In (j, v) (flat_map token_nodes ts)
    | None => True
    end.
  Lemma true_keep_mono (ps ts ps' ts' : list L) x : true_keep ps ts x ->
    incl (flat_map token_nodes ps) (flat_map token_nodes ps') -> incl (flat_map token_nodes ts) (flat_map token_nodes ts') ->
    true_keep ps' ts' x.
  Proof.
    intros H I1 I2. destruct x as [f|]; auto. intros Hk. destruct (H Hk) as [i [j [v [E1 [E2 [A B]]]]]]. exists i, j, v. splits; auto.
  Qed.
  Lemma keeps_mono (ps ts ps' ts' : list L) l : Forall (true_keep ps ts) l ->
    incl (flat_map token_nodes ps) (flat_map token_nodes ps') -> incl (flat_map token_nodes ts) (flat_map token_nodes ts') ->
    Forall (true_keep ps' ts') l.
  Proof. intros F I1 I2. eapply Forall_impl; [|exact F]. intros x Hx. now apply true_keep_mono with ps ts. Qed.
  Lemma dels_keeps c (l : list L) tr r ps ts : dels P c l tr r -> Forall (true_keep ps ts) (reports tr).
  Proof.
    induction 1; try (constructor; auto; discriminate).
    - constructor; auto. destruct H; cbn; auto; discriminate.
    - constructor; [exact I|]. fold (reports (tr ++ silent :: tr')). rewrite reports_app. apply Forall_app. split; auto. constructor; auto; exact I.
    - constructor; auto; exact I.
  Qed.
  Lemma inserts_keeps c (l : list L) tr ps ts : inserts P c l tr -> Forall (true_keep ps ts) (reports tr).
  Proof.
    induction 1; try (constructor; auto; discriminate).
    constructor; [exact I|]. fold (reports (tr ++ silent :: tr')). rewrite reports_app. apply Forall_app. split; auto. constructor; auto; exact I.
  Qed.
  Lemma sc_keeps a c (ps ts : list L) tr r : sc P a c ps ts tr r -> Forall (true_keep ps ts) (reports tr).
  Proof.
    assert (R : forall l : list (nat * (text * M)), incl l l) by (intros l x; auto).
    assert (Tl : forall a b : list (nat * (text * M)), incl b (a ++ b)) by (intros x y z Hz; apply in_or_app; auto).
    assert (Hd : forall a b : list (nat * (text * M)), incl a (a ++ b)) by (intros x y z Hz; apply in_or_app; auto).
    assert (S1 : forall (ps ts : list L) f l, (act f <> Keep) -> Forall (true_keep ps ts) l -> Forall (true_keep ps ts) (Some f :: l)).
    { intros ps' ts' f l Hf F. constructor; auto. intros C. now destruct (Hf C). }
    assert (S2 : forall (ps ts : list L) l, Forall (true_keep ps ts) l -> Forall (true_keep ps ts) (None :: l)).
    { intros ps' ts' l F. constructor; auto. exact I. }
    assert (G : forall ps ts ps' ts' : list L, forall l, Forall (true_keep ps ts) l ->
      incl (flat_map token_nodes ps) (flat_map token_nodes ps') -> incl (flat_map token_nodes ts) (flat_map token_nodes ts') ->
      Forall (true_keep ps' ts') l) by (intros; eapply keeps_mono; eauto).
    induction 1; cbn [reports map]; try fold (reports tr).
    - constructor.
    - assert (Q : Forall (true_keep (x :: ps) ts) (reports tr)) by (eapply G; [exact IHsc| |]; cbn [flat_map]; auto).
      match goal with H : quiet _ _ _ _ _ |- _ => destruct H end; cbn [snd deciding]; auto; apply S1; auto; discriminate.
    - apply S1; [discriminate|constructor].
    - apply S1; [discriminate|auto].
    - auto.
    - apply S1; [discriminate|]. eapply G; [exact IHsc| |]; cbn [flat_map]; auto.
    - apply S2. fold (reports (tr ++ silent :: tr')). rewrite reports_app. apply Forall_app. split; [now apply dels_keeps with c cs (Some c')|].
      apply S2. eapply G; [exact IHsc| |]; cbn [flat_map]; auto.
    - apply S2. now apply dels_keeps with c cs None.
    - auto.
    - apply S1; [discriminate|]. eapply G; [exact IHsc| |]; cbn [flat_map]; auto.
    - apply S1; [discriminate|]. eapply G; [exact IHsc| |]; cbn [flat_map]; auto.
    - apply S2. fold (reports (tr ++ silent :: tr')). rewrite reports_app. apply Forall_app. split; [now apply inserts_keeps with c ds|].
      apply S2. eapply G; [exact IHsc| |]; cbn [flat_map]; auto.
    - auto.
    - constructor; [|eapply G; [exact IHsc| |]; cbn [flat_map]; auto].
      cbn. intros _. exists (pre p), (pre p'), (t, m). splits; auto; now left.
    - apply S2. fold (reports (tr ++ silent :: tr')). rewrite reports_app. apply Forall_app. split.
      + eapply G; [exact IHsc1| |]; cbn [flat_map token_nodes]; auto.
      + apply S2. eapply G; [exact IHsc2| |]; cbn [flat_map]; auto.
    - apply S2. eapply G; [exact IHsc| |]; cbn [flat_map token_nodes]; auto.
  Qed.

  (** ** Decisions come in preorder. *)
  Lemma one_within (p : nat) k : p = k -> within p (p + 1) [k].
  Proof. intros <-. split; repeat constructor; lia. Qed.
  Lemma quiet_within c (x : L) e c' : quiet P c x e c' -> forall p, number x = p -> within p (p + 1) (positions (decided [e])) /\ lsize x = 1.
  Proof. intros H p Hp; destruct H; cbn in *; (split; [first [apply within_nil|apply one_within; auto]|reflexivity]). Qed.
  Lemma dels_within c (l : list L) tr r : dels P c l tr r -> forall p, numbered p l -> within p (p + lsizes l) (positions (decided tr)).
  Proof.
    induction 1 as [c|c x e c' l tr r Hq Hd IH|c p l|c p t m l tr r Hd IH|c p cs m l tr c' tr' r Hd IH Hd' IH'|c p cs m l tr Hd IH]; intros q Hn;
      try (apply within_nil); rewrite lsizes_cons.
    - pose proof (numbered_number _ _ _ Hn) as Nx. apply (quiet_within _ _ _ _ Hq) in Nx as [W E]. apply numbered_one in Hn as [_ Hn].
      rewrite E in *. apply IH in Hn. change (e :: tr) with ([e] ++ tr). rewrite decided_app, positions_app.
      apply (within_app _ (q + 1)); auto; [|lia]. eapply within_mono; [exact Hn|lia|lia].
    - pose proof (numbered_number _ _ _ Hn) as Nx. unfold number in Nx. cbn in *. eapply within_mono; [apply one_within; eauto|lia|lia].
    - pose proof (numbered_number _ _ _ Hn) as Nx. unfold number in Nx. cbn [label] in Nx. apply numbered_one in Hn as [_ Hn]. cbn [lsize] in *. apply IH in Hn.
      rewrite decided_cons. cbn [snd fst deleting app positions map]. apply within_cons; [|lia]. eapply within_mono; [exact Hn|lia|lia].
    - pose proof (numbered_kids _ _ _ _ _ Hn) as [-> Hk]. apply numbered_one in Hn as [_ Hn]. rewrite lsize_group in *.
      rewrite decided_cons, decided_app. cbn [snd fst entering deciding app positions map].
      apply within_cons; [|lia]. fold (positions (decided tr ++ decided (silent :: tr'))). rewrite positions_app.
      apply (within_app _ (S (pre p) + lsizes cs)); [exact (IH _ Hk)| |lia]. eapply within_mono; [exact (IH' _ Hn)|lia|lia].
    - pose proof (numbered_kids _ _ _ _ _ Hn) as [-> Hk]. rewrite lsize_group.
      rewrite decided_cons. cbn [snd fst entering deciding app positions map].
      apply within_cons; [|lia]. eapply within_mono; [exact (IH _ Hk)|lia|lia].
  Qed.
  Lemma sc_within a c (ps ts : list L) tr r : sc P a c ps ts tr r -> forall p, numbered p ps -> within p (p + lsizes ps) (positions (decided tr)).
  Proof.
    induction 1; intros q Hn; rewrite ?lsizes_cons; try (apply within_nil); try (apply IHsc; exact Hn).
    - pose proof (numbered_number _ _ _ Hn) as Nx. match goal with H : quiet _ _ _ _ _ |- _ => apply (quiet_within _ _ _ _ H) in Nx as [W E] end.
      apply numbered_one in Hn as [_ Hn].
      rewrite E in *. apply IHsc in Hn. change (e :: tr) with ([e] ++ tr). rewrite decided_app, positions_app.
      apply (within_app _ (q + 1)); auto; [|lia]. eapply within_mono; [exact Hn|lia|lia].
    - pose proof (numbered_number _ _ _ Hn) as Nx. unfold number in Nx. cbn in *. eapply within_mono; [apply one_within; eauto|lia|lia].
    - pose proof (numbered_number _ _ _ Hn) as Nx. unfold number in Nx. cbn [label] in Nx. apply numbered_one in Hn as [_ Hn]. cbn [lsize] in *. apply IHsc in Hn.
      rewrite decided_cons. cbn [snd fst deleting app positions map]. apply within_cons; [|lia]. eapply within_mono; [exact Hn|lia|lia].
    - pose proof (numbered_kids _ _ _ _ _ Hn) as [-> Hk]. apply numbered_one in Hn as [_ Hn]. rewrite lsize_group in *.
      match goal with H : dels _ _ _ _ _ |- _ => pose proof (dels_within _ _ _ _ H _ Hk) as IH end.
      rewrite decided_cons, decided_app. cbn [snd fst entering deciding app positions map].
      apply within_cons; [|lia]. fold (positions (decided tr ++ decided (silent :: tr'))). rewrite positions_app.
      apply (within_app _ (S (pre p) + lsizes cs)); [exact IH| |lia]. eapply within_mono; [exact (IHsc _ Hn)|lia|lia].
    - pose proof (numbered_kids _ _ _ _ _ Hn) as [-> Hk]. rewrite lsize_group.
      match goal with H : dels _ _ _ _ _ |- _ => pose proof (dels_within _ _ _ _ H _ Hk) as IH end.
      rewrite decided_cons. cbn [snd fst entering deciding app positions map].
      apply within_cons; [|lia]. eapply within_mono; [exact IH|lia|lia].
    - match goal with H : inserts _ _ _ _ |- _ => apply inserts_added in H as [_ [_ E2]] end.
      rewrite decided_cons, decided_app, E2. apply IHsc. exact Hn.
    - pose proof (numbered_number _ _ _ Hn) as Nx. unfold number in Nx. cbn [label] in Nx. apply numbered_one in Hn as [_ Hn]. cbn [lsize] in *. apply IHsc in Hn.
      rewrite decided_cons. cbn [snd fst keeping app positions map]. apply within_cons; [|lia]. eapply within_mono; [exact Hn|lia|lia].
    - pose proof (numbered_kids _ _ _ _ _ Hn) as [-> Hk]. apply numbered_one in Hn as [_ Hn]. rewrite lsize_group in *.
      rewrite decided_cons, decided_app. cbn [snd fst entering deciding app positions map].
      apply within_cons; [|lia]. fold (positions (decided tr ++ decided (silent :: tr'))). rewrite positions_app.
      apply (within_app _ (S (pre p) + lsizes cs)); [exact (IHsc1 _ Hk)| |lia]. eapply within_mono; [exact (IHsc2 _ Hn)|lia|lia].
    - pose proof (numbered_kids _ _ _ _ _ Hn) as [-> Hk]. rewrite lsize_group.
      rewrite decided_cons. cbn [snd fst entering deciding app positions map].
      apply within_cons; [|lia]. eapply within_mono; [exact (IHsc _ Hk)|lia|lia].
  Qed.

  (** ** Every choice of regions can be edited into every target. *)
  Definition at_ (b : bool) : conf := if b then Low else High.
  Lemma inside_dels_upto n : forall (l : list L), lsizes l <= n -> exists tr, dels P Low l tr (Some Low) /\ decided tr = flat_map inside l.
  Proof.
    induction n as [|n IH]; intros [|x l] Hn; try (exists []; split; [constructor|reflexivity]); rewrite lsizes_cons in Hn; pose proof (lsize_pos x); [lia|].
    destruct (IH l ltac:(lia)) as [tr [D E]]. cbn [flat_map]. rewrite <- E.
    destruct x as [p t|p t m|p|p|p|p cs m].
    1: eexists; split; [eapply d_quiet; [apply q_deco|exact D]|reflexivity].
    1: eexists; split; [apply d_token; exact D|reflexivity].
    1: eexists; split; [eapply d_quiet; [apply q_start_in|exact D]|reflexivity].
    1: eexists; split; [eapply d_quiet; [apply q_no_end|exact D]|reflexivity].
    1: eexists; split; [eapply d_quiet; [apply q_no_exit|exact D]|reflexivity].
    rewrite lsize_group in Hn. destruct (IH cs ltac:(lia)) as [tr' [D' E']].
    eexists; split; [eapply d_group; [exact D'|exact D]|]. rewrite decided_cons, decided_app, E'. reflexivity.
  Qed.
  Lemma inside_dels (l : list L) : exists tr, dels P Low l tr (Some Low) /\ decided tr = flat_map inside l.
  Proof. now apply (inside_dels_upto (lsizes l)). Qed.
  Lemma dels_app c (l1 : list L) tr1 r1 : dels P c l1 tr1 r1 -> forall c' l2 tr2 r, r1 = Some c' -> dels P c' l2 tr2 r -> dels P c (l1 ++ l2) (tr1 ++ tr2) r.
  Proof.
    induction 1; intros c0 l2 tr2 r0 E D; try discriminate; cbn [app].
    - now injection E as <-.
    - eapply d_quiet; eauto.
    - apply d_token; eauto.
    - rewrite <- app_assoc. cbn [app]. eapply d_group; eauto.
  Qed.
  Lemma inside_exits_dels (l : list L) a : inside_exits l a -> exists tr, dels P Low l tr None /\ decided tr = a.
  Proof.
    induction 1 as [i l|i cs m l a Hi [tr [D E]]|x l a Hi [tr [D E]]].
    - eexists; split; [apply d_exit|reflexivity].
    - eexists; split; [apply d_group_exit; exact D|]. rewrite decided_cons, E. reflexivity.
    - destruct (inside_dels [x]) as [tr' [D' E']]. exists (tr' ++ tr). split; [eapply (dels_app _ [x]); eauto|].
      rewrite decided_app, E, E'. cbn. now rewrite app_nil_r.
  Qed.
  Lemma crun_dels b (l : list L) a r : crun b l a r -> exists tr, dels P (at_ b) l tr (option_map at_ r) /\ decided tr = a.
  Proof.
    induction 1;
      try (match goal with IH : exists tr, dels _ _ _ _ _ /\ _ |- _ => destruct IH as [tr [D E]] end);
      try (match goal with |- context [flat_map inside ?cs ++ _] => destruct (inside_dels cs) as [tr' [D' E']] end);
      try (match goal with IH : exists tr, dels _ _ _ _ _ /\ _ |- _ => destruct IH as [tr0 [D0 E0]] end);
      cbn [option_map at_] in *.
    - exists []. split; [apply d_nil|reflexivity].
    - eexists; split; [eapply d_quiet; [apply q_deco|exact D]|exact E].
    - eexists; split; [apply d_token; exact D|]. rewrite decided_cons, E. now destruct b.
    - eexists; split; [eapply d_group; [exact D0|exact D]|]. rewrite decided_cons, decided_app, decided_cons, E, E0. reflexivity.
    - eexists; split; [eapply d_group_exit; exact D|]. rewrite decided_cons, E. reflexivity.
    - eexists; split; [eapply d_group; [exact D'|exact D]|]. rewrite decided_cons, decided_app, decided_cons, E, E'. reflexivity.
    - match goal with H : inside_exits _ _ |- _ => apply inside_exits_dels in H as [tr [D E]] end.
      eexists; split; [eapply d_group_exit; exact D|]. rewrite decided_cons, E. reflexivity.
    - eexists; split; [eapply d_quiet; [apply q_no_start|exact D]|]. rewrite decided_cons, E. reflexivity.
    - eexists; split; [eapply d_quiet; [apply q_start|exact D]|]. rewrite decided_cons, E. reflexivity.
    - eexists; split; [eapply d_quiet; [apply q_start_in|exact D]|]. rewrite decided_cons, E. reflexivity.
    - eexists; split; [eapply d_quiet; [apply q_no_end|exact D]|]. rewrite decided_cons, E. reflexivity.
    - eexists; split; [eapply d_quiet; [apply q_end|exact D]|]. rewrite decided_cons, E. reflexivity.
    - eexists; split; [eapply d_quiet; [apply q_end_out|exact D]|]. rewrite decided_cons, E. reflexivity.
    - eexists; split; [apply d_exit|reflexivity].
    - eexists; split; [eapply d_quiet; [apply q_no_exit|exact D]|]. rewrite decided_cons, E. reflexivity.
  Qed.
  Lemma dels_sc c (l : list L) tr r : dels P c l tr r ->
    match r with
    | Some c' => forall ts tr' r', sc P INSERT c' [] ts tr' r' -> sc P DELETE c l ts (tr ++ silent :: tr') r'
    | None => forall ts, sc P DELETE c l ts tr None
    end.
  Proof.
    induction 1.
    - intros ts tr' r' H. now apply sc_deleted.
    - destruct r; intros; cbn [app]; eapply sc_quiet; eauto.
    - intros. apply sc_exit; auto.
    - destruct r; intros; cbn [app]; apply sc_delete; auto.
    - destruct r; intros; cbn [app]; rewrite <- ?app_assoc; cbn [app]; eapply sc_delete_group; eauto.
    - intros. now apply sc_delete_exit.
  Qed.
  Lemma inserts_sc c (l : list L) tr : inserts P c l tr -> exists tr', sc P INSERT c [] l tr' (Some c) /\ decided tr' = [].
  Proof.
    induction 1 as [c|c p t l tr Hi [tr' [S E]]|c p t m l tr Hi [tr' [S E]]|c p ds m l tr tr' Hi _ Hi' [tr'' [S E]]].
    - eexists; split; [apply sc_inserted, sc_end|reflexivity].
    - eexists; split; [apply sc_skip; eauto|]. rewrite decided_cons, E. reflexivity.
    - eexists; split; [apply sc_insert; eauto|]. rewrite decided_cons, E. reflexivity.
    - eexists; split; [apply sc_insert_group; [exact Hi|exact S]|]. apply inserts_added in Hi as [_ [_ E2]].
      rewrite decided_cons, decided_app, decided_cons, E2, E. reflexivity.
  Qed.
  Theorem choice_edit (root troot : list L) ds : Forall text_only troot -> region_choice root ds -> exists k, edit P root troot k ds.
  Proof.
    intros Ht Hc. destruct (added_inserts P High troot Ht) as [ti Hi]. apply inserts_sc in Hi as [ti' [Si Ei]].
    apply crun_region_choice in Hc as [Hc|Hc]; apply crun_dels in Hc as [tr [D E]]; cbn [option_map at_] in D; pose proof (dels_sc _ _ _ _ D) as S; cbn in S.
    - apply S in Si. apply sc_begin in Si. apply sc_edited with (g := Untouched) in Si as [k [Hk _]]; [|reflexivity].
      exists k. left. rewrite decided_cons, decided_app, decided_cons, Ei, E in Hk. cbn in Hk. now rewrite app_nil_r in Hk.
    - specialize (S troot). apply sc_begin in S. apply sc_edited with (g := Untouched) in S as [k [Hk _]]; [|reflexivity].
      exists k. right. rewrite decided_cons, E in Hk. exact Hk.
  Qed.
  Lemma csum_finite l k : csum l = Fin k -> Forall (fun c => exists q, c = Fin q) l.
  Proof.
    revert k. induction l as [|c l IH]; intros k H; [constructor|]. cbn in H. fold (csum l) in H.
    destruct c as [q| |], (csum l) as [q'| |] eqn:E; try discriminate. constructor; eauto.
  Qed.
  Theorem edit_packs (ns ts : list (node M)) d : Forall text_only (labelled ts) -> construct_edit_dag P (pack ns) (pack ts) = Ok d ->
    exists r, pack_edit_dag (prune_to_reachable d) = Ok r.
  Proof.
    intros Ht. rewrite construct_edit_ok. intros E. injection E as <-. unfold pack_edit_dag.
    apply builder_packs; cbn [edges].
    - apply all_topological; apply labelled_numbered.
    - destruct (choice_edit (labelled ns) (labelled ts) _ Ht (or_introl (no_regions_chosen _))) as [k Hk].
      apply edits_are_paths in Hk as [p [Hp [Ek _]]]. exists p. splits; auto.
      + apply csum_finite in Ek. rewrite Forall_map in Ek. exact Ek.
      + intros ->. apply is_path_nil_inv in Hp. discriminate.
    - intros p Hp. unfold complete_path in Hp. cbn in Hp.
      change (StronglySorted lt (positions (path_assignments (As := decision) p))). rewrite <- effects_decided.
      apply path_script in Hp as [Hs|[tr [E Hs]]]; try apply labelled_numbered.
      + apply (sc_within _ _ _ _ _ _ Hs 0 (labelled_numbered ns)).
      + rewrite E, decided_app. cbn. rewrite app_nil_r. apply (sc_within _ _ _ _ _ _ Hs 0 (labelled_numbered ns)).
  Qed.
End Theorems.
