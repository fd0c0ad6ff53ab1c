(** The paths of the constraint DAG are exactly the well-formed region choices. *)

From Coq Require Import List Bool Arith ZArith Lia QArith Qcanon.
From Verif Require Import Base Graph GatedDag Blocks SeqNodes PackedSeq Numbered Decisions Convert ConstraintDag ConstraintSpec.
Import ListNotations.
Close Scope Qc_scope. Close Scope Q_scope. Close Scope Z_scope. Open Scope nat_scope.

Section Proofs.
  Context {M : Type}.
  Notation L := (lnode M).

  Lemma inside_group q lvl k i (cs : list L) m :
    inside_node q lvl k (LGroup i cs m) =
      deciding (CAt Forced q k lvl) (CAt Forced (Z.of_nat (pre i)) 0 lvl) (pre i) NodeInRegion DTrue ::
      inside_list (Z.of_nat (pre i)) lvl 0 cs ++
      [free (CAt Forced (Z.of_nat (pre i)) (length cs) lvl) (CAt Forced q (S k) lvl)].
  Proof.
    cbn [inside_node]. do 2 f_equal. generalize 0. induction cs as [|c cs IH]; intros n; auto.
    cbn [inside_list]. now rewrite <- IH.
  Qed.
  Lemma outside_group q lvl k i (cs : list L) m :
    outside_node q lvl k (LGroup i cs m) =
      (deciding (CAt Outside q k lvl) (CAt Outside (Z.of_nat (pre i)) 0 (S lvl)) (pre i) NodeInRegion DFalse ::
       outside_list (Z.of_nat (pre i)) (S lvl) 0 cs ++
       [free (CAt Outside (Z.of_nat (pre i)) (length cs) (S lvl)) (CAt Outside q (S k) lvl)]) ++
      (deciding (CAt Temporary q k lvl) (CAt Forced (Z.of_nat (pre i)) 0 lvl) (pre i) NodeInRegion DTrue ::
       inside_list (Z.of_nat (pre i)) lvl 0 cs ++
       [free (CAt Forced (Z.of_nat (pre i)) (length cs) lvl) (CAt Temporary q (S k) lvl)]).
  Proof.
    cbn [outside_node]. do 3 f_equal. generalize 0. induction cs as [|c cs IH]; intros n; auto.
    cbn [outside_list]. now rewrite <- IH.
  Qed.

  (** ** Where the edges of a block start and end. *)
  Definition along (forced : bool) (q : Z) (lvl k0 k1 : nat) (s : cstate) : Prop :=
    match s with
    | CAt c q' k l => (forced = true <-> c = Forced) /\ q' = q /\ l = lvl /\ k0 <= k < k1
    | CFinal => False
    end.
  Definition deep (forced : bool) (lo hi lvl : nat) (s : cstate) : Prop :=
    match s with
    | CAt c q _ l => (Z.of_nat lo <= q < Z.of_nat hi)%Z /\
        if forced then l = lvl /\ c = Forced else lvl < l \/ (l = lvl /\ c = Forced)
    | CFinal => False
    end.
  Definition src (f : bool) q lvl k n lo hi (s : cstate) : Prop := along f q lvl k (k + n) s \/ deep f lo hi lvl s.
  Definition dst (f : bool) q lvl k n lo hi (s : cstate) : Prop :=
    s = CFinal \/ along f q lvl (S k) (S (k + n)) s \/ deep f lo hi lvl s.
  Definition block (f : bool) q lvl k n lo hi (es : list cedge) : Prop :=
    Forall (fun e => src f q lvl k n lo hi (source e) /\ dst f q lvl k n lo hi (dest e)) es.

  Ltac states := repeat match goal with
    | s : cstate |- _ => destruct s as [? ? ? ?|]
    end.
  Ltac crush := cbn [source dest free deciding exiting src dst along deep] in *;
    unfold src, dst, along, deep in *;
    intuition (try congruence; try lia).
  Lemma block_mono f q lvl k n lo hi k' n' lo' hi' es : block f q lvl k n lo hi es ->
    k' <= k -> k + n <= k' + n' -> lo' <= lo -> hi <= hi' -> block f q lvl k' n' lo' hi' es.
  Proof.
    intros B H1 H2 H3 H4. eapply Forall_impl; [|exact B]. intros [s t c a i]. cbn [source dest].
    intros [S D]. split.
    - destruct s; unfold src, along, deep in *; destruct f; intuition lia.
    - destruct t; unfold dst, along, deep in *; destruct f; intuition (try lia; auto).
  Qed.

  Ltac edge_ok := repeat (apply Forall_cons; [split; cbn; unfold src, dst, along, deep; cbn; first [left; repeat split; (congruence || lia) | right; left; repeat split; (congruence || lia) | right; right; intuition lia | right; intuition lia | left; reflexivity]|]); try apply Forall_nil.
  Lemma inside_block_upto n : forall (l : list L), lsizes l <= n -> forall q lvl k p, numbered p l ->
    block true q lvl k (length l) p (p + lsizes l) (inside_list q lvl k l).
  Proof.
    induction n as [|n IH]; intros [|x l] Hs q lvl k p Hn; try apply Forall_nil; rewrite lsizes_cons in Hs;
      [pose proof (lsize_pos x); lia|].
    cbn [inside_list]. rewrite lsizes_cons. apply Forall_app. split.
    - inversion Hn as [|? ? ? E1 E2 E3|? i cs m ? E1 E2 E3]; subst.
      + destruct x as [i t|i t m|i|i|i|i cs m]; try (now destruct (E2 i cs m)); cbn [inside_node lsize length] in *;
          unfold number in *; cbn [label] in *; edge_ok.
      + rewrite inside_group. rewrite lsize_group in *. cbn [length].
        apply Forall_cons; [|apply Forall_app; split].
        * edge_ok. split; cbn; unfold src, dst, along, deep; cbn; [left|right; right]; intuition (try lia; try congruence).
        * assert (B : block true (Z.of_nat (pre i)) lvl 0 (length cs) (S (pre i)) (S (pre i) + lsizes cs) (inside_list (Z.of_nat (pre i)) lvl 0 cs))
            by (apply IH; auto; lia).
          eapply Forall_impl; [|exact B]. intros [s t c a inf]. cbn [source dest]. intros [S D].
          split; [destruct s|destruct t]; crush; subst; try tauto; right; right; intuition (try lia; try congruence).
        * apply Forall_cons; [|apply Forall_nil]. split; crush.
    - inversion Hn as [|? ? ? E1 E2 E3|? i cs m ? E1 E2 E3]; subst.
      + eapply block_mono; [apply (IH l); [|exact E3]|..]; cbn [length]; try lia.
        * pose proof (lsize_pos x). lia.
        * destruct x; cbn [lsize]; try lia.
      + eapply block_mono; [apply (IH l); [|exact E3]|..]; cbn [length]; rewrite ?lsize_group in *; try lia.
  Qed.

  Lemma inside_block (l : list L) q lvl k p : numbered p l ->
    block true q lvl k (length l) p (p + lsizes l) (inside_list q lvl k l).
  Proof. apply (inside_block_upto (lsizes l)). lia. Qed.
  Lemma outside_block_upto n : forall (l : list L), lsizes l <= n -> forall q lvl k p, numbered p l ->
    block false q lvl k (length l) p (p + lsizes l) (outside_list q lvl k l).
  Proof.
    induction n as [|n IH]; intros [|x l] Hs q lvl k p Hn; try apply Forall_nil; rewrite lsizes_cons in Hs;
      [pose proof (lsize_pos x); lia|].
    cbn [outside_list]. rewrite lsizes_cons. apply Forall_app. split.
    - inversion Hn as [|? ? ? E1 E2 E3|? i cs m ? E1 E2 E3]; subst.
      + destruct x as [i t|i t m|i|i|i|i cs m]; try (now destruct (E2 i cs m)); cbn [outside_node lsize length] in *;
          unfold number in *; cbn [label] in *; edge_ok.
      + rewrite outside_group. rewrite lsize_group in *. cbn [length].
        apply Forall_app; split; (apply Forall_cons; [|apply Forall_app; split]).
        * split; crush.
        * assert (B : block false (Z.of_nat (pre i)) (S lvl) 0 (length cs) (S (pre i)) (S (pre i) + lsizes cs) (outside_list (Z.of_nat (pre i)) (S lvl) 0 cs))
            by (apply IH; auto; lia).
          eapply Forall_impl; [|exact B]. intros [s t c a inf]. cbn [source dest]. intros [S D].
          split; [destruct s|destruct t]; crush; subst; try tauto.
        * apply Forall_cons; [|apply Forall_nil]. split; crush.
        * split; crush.
        * pose proof (inside_block cs (Z.of_nat (pre i)) lvl 0 (S (pre i)) E2) as B.
          eapply Forall_impl; [|exact B]. intros [s t c a inf]. cbn [source dest]. intros [S D].
          split; [destruct s|destruct t]; crush; subst; try tauto.
        * apply Forall_cons; [|apply Forall_nil]. split; crush.
    - inversion Hn as [|? ? ? E1 E2 E3|? i cs m ? E1 E2 E3]; subst.
      + eapply block_mono; [apply (IH l); [|exact E3]|..]; cbn [length]; try lia.
        * pose proof (lsize_pos x). lia.
        * destruct x; cbn [lsize]; try lia.
      + eapply block_mono; [apply (IH l); [|exact E3]|..]; cbn [length]; rewrite ?lsize_group in *; try lia.
  Qed.
  Lemma outside_block (l : list L) q lvl k p : numbered p l ->
    block false q lvl k (length l) p (p + lsizes l) (outside_list q lvl k l).
  Proof. apply (outside_block_upto (lsizes l)). lia. Qed.
  Lemma numbered_one p (x : L) l : numbered p (x :: l) -> numbered p [x] /\ numbered (p + lsize x) l.
  Proof.
    intros Hn. apply (numbered_app p [x] l) in Hn. unfold lsizes at 1 in Hn. cbn [map list_sum fold_right] in Hn.
    now rewrite Nat.add_0_r in Hn.
  Qed.
  Lemma numbered_kids p i (cs : list L) m l : numbered p (LGroup i cs m :: l) -> p = pre i /\ numbered (S p) cs.
  Proof. intros Hn. inversion Hn as [|? ? ? E1 E2 E3|? ? ? ? ? E1 E2 E3]; subst; auto. now destruct (E2 i cs m). Qed.

  (** ** The edges come in topological order. *)
  Lemma block_edge f q lvl k n lo hi es (e : cedge) : block f q lvl k n lo hi es -> In e es ->
    src f q lvl k n lo hi (source e) /\ dst f q lvl k n lo hi (dest e).
  Proof. intros B. unfold block in B. rewrite Forall_forall in B. auto. Qed.
  Lemma leaf_topological (es : list cedge) f q lvl k :
    Forall (fun e => along f q lvl k (S k) (source e) /\ (dest e = CFinal \/ along f q lvl (S k) (S (S k)) (dest e))) es ->
    topological es.
  Proof.
    induction 1 as [|e es [H1 H2] HF IH]; [apply topological_nil|]. apply topological_cons; auto.
    - destruct (source e); [|destruct H1]. destruct (dest e); [|discriminate]. unfold along in *. destruct H2 as [|]; [discriminate|].
      intros [= -> -> -> ->]. lia.
    - intros e' He'. rewrite Forall_forall in HF. destruct (HF e' He') as [_ H3].
      destruct (source e); [|destruct H1]. destruct (dest e'); [|discriminate]. unfold along in *. destruct H3 as [|]; [discriminate|].
      intros [= -> -> -> ->]. lia.
  Qed.
  Ltac leaf_ok f q lvl k := apply (leaf_topological _ f q lvl k);
    repeat (apply Forall_cons; [split; cbn; auto; try (left; reflexivity); try right; intuition (try congruence; lia)|]); apply Forall_nil.
  Ltac apart_states := match goal with
    | |- ?d <> ?s => let E := fresh in intros E; destruct s; destruct d; try discriminate; try injection E as -> -> -> ->; crush
    end.
  Lemma inside_topological_upto n : forall (l : list L), lsizes l <= n -> forall q lvl k p, numbered p l -> (q < Z.of_nat p)%Z ->
    topological (inside_list q lvl k l).
  Proof.
    induction n as [|n IH]; intros [|x l] Hs q lvl k p Hn Hq; try apply topological_nil; rewrite lsizes_cons in Hs;
      [pose proof (lsize_pos x); lia|].
    destruct (numbered_one _ _ _ Hn) as [N1 N2]. cbn [inside_list]. pose proof (lsize_pos x) as Px.
    pose proof (inside_block [x] q lvl k p N1) as B1. cbn [inside_list length] in B1. rewrite app_nil_r in B1.
    pose proof (inside_block l q lvl (S k) _ N2) as B2.
    apply topological_app; [|apply (IH l) with (p := p + lsize x); auto; lia|].
    - destruct x as [i t|i t m|i|i|i|i cs m]; try (leaf_ok true q lvl k).
      rewrite inside_group. destruct (numbered_kids _ _ _ _ _ Hn) as [-> Nc]. rewrite lsize_group in *.
      pose proof (inside_block cs (Z.of_nat (pre i)) lvl 0 _ Nc) as B.
      apply topological_cons; [intros [= E]; lia| |].
      + apply topological_app; [apply (IH cs) with (p := S (pre i)); auto; lia| |].
        * apply topological_one. intros [= E]. lia.
        * intros e e' He [<-|[]]. destruct (block_edge _ _ _ _ _ _ _ _ _ B He) as [S _]. cbn [dest free].
          intros E. rewrite <- E in S. crush.
      + intros e' He'. apply in_app_or in He' as [He'|[<-|[]]]; cbn [source dest deciding free].
        * destruct (block_edge _ _ _ _ _ _ _ _ _ B He') as [_ D]. intros E. rewrite E in D. crush.
        * intros [= E]. lia.
    - intros e e' He He'. destruct (block_edge _ _ _ _ _ _ _ _ _ B1 He) as [S _]. destruct (block_edge _ _ _ _ _ _ _ _ _ B2 He') as [_ D].
      intros E. rewrite E in D. destruct (source e) as [c q0 k0 l0|]; unfold lsizes in *; cbn [map list_sum fold_right] in *; crush.
  Qed.
  Lemma inside_topological (l : list L) q lvl k p : numbered p l -> (q < Z.of_nat p)%Z -> topological (inside_list q lvl k l).
  Proof. apply (inside_topological_upto (lsizes l)). lia. Qed.
  Lemma outside_topological_upto n : forall (l : list L), lsizes l <= n -> forall q lvl k p, numbered p l -> (q < Z.of_nat p)%Z ->
    topological (outside_list q lvl k l).
  Proof.
    induction n as [|n IH]; intros [|x l] Hs q lvl k p Hn Hq; try apply topological_nil; rewrite lsizes_cons in Hs;
      [pose proof (lsize_pos x); lia|].
    destruct (numbered_one _ _ _ Hn) as [N1 N2]. cbn [outside_list]. pose proof (lsize_pos x) as Px.
    pose proof (outside_block [x] q lvl k p N1) as B1. cbn [outside_list length] in B1. rewrite app_nil_r in B1.
    pose proof (outside_block l q lvl (S k) _ N2) as B2.
    apply topological_app; [|apply (IH l) with (p := p + lsize x); auto; lia|].
    - destruct x as [i t|i t m|i|i|i|i cs m]; try (leaf_ok false q lvl k).
      rewrite outside_group. destruct (numbered_kids _ _ _ _ _ Hn) as [-> Nc]. rewrite lsize_group in *.
      pose proof (outside_block cs (Z.of_nat (pre i)) (S lvl) 0 _ Nc) as B.
      pose proof (inside_block cs (Z.of_nat (pre i)) lvl 0 _ Nc) as B'.
      apply topological_app; [| |].
      + apply topological_cons; [intros [= E]; lia| |].
        * apply topological_app; [apply (IH cs) with (p := S (pre i)); auto; lia| |].
          -- apply topological_one. intros [= E]. lia.
          -- intros e e' He [<-|[]]. destruct (block_edge _ _ _ _ _ _ _ _ _ B He) as [S _]. cbn [dest free].
             intros E. rewrite <- E in S. crush.
        * intros e' He'. apply in_app_or in He' as [He'|[<-|[]]]; cbn [source dest deciding free].
          -- destruct (block_edge _ _ _ _ _ _ _ _ _ B He') as [_ D]. intros E. rewrite E in D. crush.
          -- intros [= E]. lia.
      + apply topological_cons; [intros [= E]; lia| |].
        * apply topological_app; [apply (inside_topological cs) with (p := S (pre i)); auto; lia| |].
          -- apply topological_one. intros [= E]. 
          -- intros e e' He [<-|[]]. destruct (block_edge _ _ _ _ _ _ _ _ _ B' He) as [S _]. cbn [dest free].
             intros E. rewrite <- E in S. crush.
        * intros e' He'. apply in_app_or in He' as [He'|[<-|[]]]; cbn [source dest deciding free].
          -- destruct (block_edge _ _ _ _ _ _ _ _ _ B' He') as [_ D]. intros E. rewrite E in D. crush.
          -- intros [= E]. lia.
      + intros e e' He He'.
        assert (S : source e = CAt Outside q k lvl \/ match source e with CAt _ _ _ l0 => lvl < l0 | CFinal => False end).
        { destruct He as [<-|He]; [now left|]. apply in_app_or in He as [He|[<-|[]]]; right; cbn; [|lia].
          destruct (block_edge _ _ _ _ _ _ _ _ _ B He) as [S _]. destruct (source e); crush. }
        assert (D : dest e' = CAt Temporary q (Datatypes.S k) lvl \/ dest e' = CFinal \/ match dest e' with CAt c _ _ l0 => l0 = lvl /\ c = Forced | CFinal => False end).
        { destruct He' as [<-|He']; [cbn; auto|]. apply in_app_or in He' as [He'|[<-|[]]]; [|cbn; auto]. right.
          destruct (block_edge _ _ _ _ _ _ _ _ _ B' He') as [_ D]. destruct (dest e'); crush. }
        intros E. rewrite E in D. destruct (source e) as [c q0 k0 l0|]; intuition (try congruence; try lia).
        injection H0; intros; subst; lia.
    - intros e e' He He'. destruct (block_edge _ _ _ _ _ _ _ _ _ B1 He) as [S _]. destruct (block_edge _ _ _ _ _ _ _ _ _ B2 He') as [_ D].
      intros E. rewrite E in D. destruct (source e) as [c q0 k0 l0|]; unfold lsizes in *; cbn [map list_sum fold_right] in *; crush.
  Qed.
  Lemma outside_topological (l : list L) q lvl k p : numbered p l -> (q < Z.of_nat p)%Z -> topological (outside_list q lvl k l).
  Proof. apply (outside_topological_upto (lsizes l)). lia. Qed.

  (** ** Runs: the paths of a block as a function of the tree. *)
  Inductive crun : bool -> list L -> list decision -> option bool -> Prop :=
  | cr_nil b : crun b [] [] (Some b)
  | cr_deco b i t l a r : crun b l a r -> crun b (LDeco i t :: l) a r
  | cr_token b i t m l a r : crun b l a r ->
      crun b (LToken i t m :: l) (((pre i, NodeInRegion), if b then DTrue else DFalse) :: a) r
  | cr_group i cs m l a a' r : crun false cs a (Some false) -> crun false l a' r ->
      crun false (LGroup i cs m :: l) (((pre i, NodeInRegion), DFalse) :: a ++ a') r
  | cr_group_exit i cs m l a : crun false cs a None ->
      crun false (LGroup i cs m :: l) (((pre i, NodeInRegion), DFalse) :: a) None
  | cr_group_in i cs m l a r : crun true l a r ->
      crun true (LGroup i cs m :: l) (((pre i, NodeInRegion), DTrue) :: flat_map inside cs ++ a) r
  | cr_group_in_exit i cs m l a : inside_exits cs a ->
      crun true (LGroup i cs m :: l) (((pre i, NodeInRegion), DTrue) :: a) None
  | cr_no_start i l a r : crun false l a r -> crun false (LStart i :: l) (((pre i, RegionShouldStart), DFalse) :: a) r
  | cr_start i l a r : crun true l a r -> crun false (LStart i :: l) (((pre i, RegionShouldStart), DTrue) :: a) r
  | cr_start_in i l a r : crun true l a r -> crun true (LStart i :: l) (((pre i, RegionShouldStart), DNA) :: a) r
  | cr_no_end i l a r : crun true l a r -> crun true (LEnd i :: l) (((pre i, RegionShouldEnd), DFalse) :: a) r
  | cr_end i l a r : crun false l a r -> crun true (LEnd i :: l) (((pre i, RegionShouldEnd), DTrue) :: a) r
  | cr_end_out i l a r : crun false l a r -> crun false (LEnd i :: l) (((pre i, RegionShouldEnd), DNA) :: a) r
  | cr_exit b i l : crun b (LExit i :: l) [((pre i, ShouldEarlyExit), DTrue)] None
  | cr_no_exit b i l a r : crun b l a r -> crun b (LExit i :: l) (((pre i, ShouldEarlyExit), DFalse) :: a) r.

  Definition mode (b : bool) : ccategory := if b then Temporary else Outside.
  Definition goal (r : option bool) q k lvl : cstate :=
    match r with Some b => CAt (mode b) q k lvl | None => CFinal end.

  Ltac take := match goal with
    | |- opath (?e :: ?es) ?s (?e :: ?p) ?t => apply (op_take e es p t)
    | |- opath (?e :: ?es) ?s ?p ?t => apply op_skip
    | |- opath [] _ [] _ => apply op_nil
    end.
  Lemma opath_left (A B : list cedge) s p t : opath A s p t -> opath (A ++ B) s p t.
  Proof. intros Hp. apply opath_app. exists t, p, []. rewrite app_nil_r. splits; auto. apply opath_refl. Qed.
  Lemma opath_right (A B : list cedge) s p t : opath B s p t -> opath (A ++ B) s p t.
  Proof. intros Hp. apply opath_app. exists s, [], p. splits; auto. apply opath_refl. Qed.
  Lemma opath_join (A B : list cedge) s p t p' u : opath A s p t -> opath B t p' u -> opath (A ++ B) s (p ++ p') u.
  Proof. intros Hp Hp'. apply opath_app. eauto 6. Qed.
  Lemma opath_edge (e : cedge) es s p t : source e = s -> opath es (dest e) p t -> opath (e :: es) s (e :: p) t.
  Proof. intros <-. apply op_take. Qed.

  Lemma inside_opath_upto n : forall l : list L, lsizes l <= n -> forall q lvl k, exists p,
    opath (inside_list q lvl k l) (CAt Forced q k lvl) p (CAt Forced q (k + length l) lvl) /\
    path_assignments p = flat_map inside l.
  Proof.
    assert (Z : forall q lvl k, exists p, opath (inside_list q lvl k (@nil L)) (CAt Forced q k lvl) p (CAt Forced q (k + 0) lvl) /\
      path_assignments p = []) by (intros q lvl k; exists []; rewrite Nat.add_0_r; split; [apply op_nil|reflexivity]).
    induction n as [|n IH]; intros [|x l] Hs q lvl k; [apply Z|pose proof (lsize_pos x); rewrite lsizes_cons in Hs; lia|apply Z|].
    rewrite lsizes_cons in Hs.
    pose proof (lsize_pos x) as Px.
    destruct (IH l ltac:(lia) q lvl (S k)) as [p [Hp Ep]]. replace (k + length (x :: l)) with (S k + length l) by (cbn [length]; lia).
    cbn [inside_list flat_map]. rewrite <- Ep.
    destruct x as [i t|i t m|i|i|i|i cs m].
    - exists (free (CAt Forced q k lvl) (CAt Forced q (S k) lvl) :: p). split; auto. cbn [inside_node app]. apply op_take. exact Hp.
    - eexists (_ :: p). split; [cbn [inside_node app]; apply op_take; exact Hp|]. reflexivity.
    - eexists (_ :: p). split; [cbn [inside_node app]; apply op_take; exact Hp|]. reflexivity.
    - eexists (_ :: p). split; [cbn [inside_node app]; apply op_take; exact Hp|]. reflexivity.
    - eexists (_ :: p). split; [cbn [inside_node app]; apply op_skip; apply op_take; exact Hp|]. reflexivity.
    - rewrite inside_group. destruct (IH cs) with (q := Z.of_nat (pre i)) (lvl := lvl) (k := 0) as [pc [Hpc Epc]].
      { rewrite lsize_group in Hs. lia. }
      eexists ((_ :: pc ++ [_]) ++ p). split.
      + eapply opath_join; [|exact Hp]. apply op_take. eapply opath_join; [exact Hpc|]. apply op_take. apply op_nil.
      + rewrite path_assignments_app. cbn [path_assignments assignment deciding]. rewrite path_assignments_app, Epc. cbn. now rewrite app_nil_r.
  Qed.
  Lemma inside_opath (l : list L) q lvl k : exists p,
    opath (inside_list q lvl k l) (CAt Forced q k lvl) p (CAt Forced q (k + length l) lvl) /\
    path_assignments p = flat_map inside l.
  Proof. apply (inside_opath_upto (lsizes l)). lia. Qed.
  Lemma inside_exits_opath (l : list L) a : inside_exits l a -> forall q lvl k, exists p,
    opath (inside_list q lvl k l) (CAt Forced q k lvl) p CFinal /\ path_assignments p = a.
  Proof.
    induction 1 as [i l|i cs m l a Ha IH|x l a Ha IH]; intros q lvl k.
    - eexists [_]. split; [cbn; apply op_take; apply opath_refl|reflexivity].
    - destruct (IH (Z.of_nat (pre i)) lvl 0) as [p [Hp Ep]]. cbn [inside_list]. rewrite inside_group.
      eexists (_ :: p). split.
      { apply opath_left. apply op_take. now apply opath_left. }
      cbn. now rewrite Ep.
    - destruct (inside_opath [x] q lvl k) as [p [Hp Ep]]. cbn in Hp, Ep. rewrite app_nil_r in Hp, Ep.
      destruct (IH q lvl (S k)) as [p' [Hp' Ep']]. exists (p ++ p'). split.
      + cbn [inside_list]. eapply opath_join; [exact Hp|]. now rewrite Nat.add_1_r.
      + now rewrite path_assignments_app, Ep, Ep'.
  Qed.
  Lemma crun_opath b (l : list L) a r : crun b l a r -> forall q lvl k, exists p,
    opath (outside_list q lvl k l) (CAt (mode b) q k lvl) p (goal r q (k + length l) lvl) /\ path_assignments p = a.
  Proof.
    assert (Nx : forall k (x : L) l, k + length (x :: l) = S k + length l) by (intros; cbn; lia).
    induction 1; intros q lvl k; rewrite ?Nx; cbn [outside_list].
    - exists []. cbn. rewrite Nat.add_0_r. split; [apply op_nil|reflexivity].
    - destruct (IHcrun q lvl (S k)) as [p [Hp Ep]]. cbn [outside_node app]. destruct b; eexists (_ :: p).
      + split; [apply op_skip; apply op_take; exact Hp|exact Ep].
      + split; [apply op_take; apply op_skip; exact Hp|exact Ep].
    - destruct (IHcrun q lvl (S k)) as [p [Hp Ep]]. cbn [outside_node app].
      destruct b; eexists (_ :: p).
      + split; [apply op_skip; apply op_take; exact Hp|]. cbn. now rewrite Ep.
      + split; [apply op_take; apply op_skip; exact Hp|]. cbn. now rewrite Ep.
    - destruct (IHcrun1 (Z.of_nat (pre i)) (S lvl) 0) as [pc [Hpc Epc]]. destruct (IHcrun2 q lvl (S k)) as [p [Hp Ep]].
      rewrite outside_group. eexists ((_ :: pc ++ [_]) ++ p). split.
      + eapply opath_join; [|exact Hp]. apply opath_left. apply op_take. eapply opath_join; [exact Hpc|]. apply op_take. apply op_nil.
      + rewrite path_assignments_app. cbn [path_assignments assignment deciding]. rewrite path_assignments_app, Epc, Ep. cbn. now rewrite app_nil_r.
    - destruct (IHcrun (Z.of_nat (pre i)) (S lvl) 0) as [pc [Hpc Epc]].
      rewrite outside_group. eexists (_ :: pc). split.
      { apply opath_left. apply opath_left. apply op_take. now apply opath_left. }
      cbn. now rewrite Epc.
    - destruct (inside_opath cs (Z.of_nat (pre i)) lvl 0) as [pc [Hpc Epc]]. destruct (IHcrun q lvl (S k)) as [p [Hp Ep]].
      rewrite outside_group. eexists ((_ :: pc ++ [_]) ++ p). split.
      + eapply opath_join; [|exact Hp]. apply opath_right. apply op_take. eapply opath_join; [exact Hpc|]. apply op_take. apply op_nil.
      + rewrite path_assignments_app. cbn [path_assignments assignment deciding]. rewrite path_assignments_app, Epc, Ep. cbn. now rewrite app_nil_r.
    - destruct (inside_exits_opath cs a H (Z.of_nat (pre i)) lvl 0) as [pc [Hpc Epc]].
      rewrite outside_group. eexists (_ :: pc). split.
      { apply opath_left. apply opath_right. apply op_take. now apply opath_left. }
      cbn. now rewrite Epc.
    - destruct (IHcrun q lvl (S k)) as [p [Hp Ep]]. eexists (_ :: p). split.
      { cbn [outside_node app]. apply op_take. do 2 apply op_skip. exact Hp. }
      cbn. now rewrite Ep.
    - destruct (IHcrun q lvl (S k)) as [p [Hp Ep]]. eexists (_ :: p). split.
      { cbn [outside_node app]. apply op_skip. apply op_take. apply op_skip. exact Hp. }
      cbn. now rewrite Ep.
    - destruct (IHcrun q lvl (S k)) as [p [Hp Ep]]. eexists (_ :: p). split.
      { cbn [outside_node app]. do 2 apply op_skip. apply op_take. exact Hp. }
      cbn. now rewrite Ep.
    - destruct (IHcrun q lvl (S k)) as [p [Hp Ep]]. eexists (_ :: p). split.
      { cbn [outside_node app]. apply op_take. do 2 apply op_skip. exact Hp. }
      cbn. now rewrite Ep.
    - destruct (IHcrun q lvl (S k)) as [p [Hp Ep]]. eexists (_ :: p). split.
      { cbn [outside_node app]. apply op_skip. apply op_take. apply op_skip. exact Hp. }
      cbn. now rewrite Ep.
    - destruct (IHcrun q lvl (S k)) as [p [Hp Ep]]. eexists (_ :: p). split.
      { cbn [outside_node app]. do 2 apply op_skip. apply op_take. exact Hp. }
      cbn. now rewrite Ep.
    - cbn [outside_node app]. destruct b; eexists [_].
      + split; [do 2 apply op_skip; apply op_take; apply opath_refl|reflexivity].
      + split; [apply op_take; apply opath_refl|reflexivity].
    - destruct (IHcrun q lvl (S k)) as [p [Hp Ep]]. cbn [outside_node app].
      destruct b; eexists (_ :: p).
      + split; [do 3 apply op_skip; apply op_take; exact Hp|]. cbn. now rewrite Ep.
      + split; [apply op_skip; apply op_take; do 2 apply op_skip; exact Hp|]. cbn. now rewrite Ep.
  Qed.

  Ltac leaf_runs H := let Hp := fresh "Hp" in let He := fresh "He" in
    destruct H as [Hp He];
    repeat match goal with
    | HH : opath (_ :: _) _ _ _ |- _ => inversion HH; clear HH; subst
    | HH : opath [] _ _ _ |- _ => inversion HH; clear HH; subst
    end;
    repeat match goal with
    | HH : source _ = _ |- _ => cbn in HH; first [discriminate HH | injection HH as HH; lia | clear HH]
    | HH : ends (_ :: _) _ |- _ => let A := fresh in apply ends_cons in HH as [A HH]; cbn in A; try (exfalso; apply A; reflexivity)
    end; try (exfalso; lia).
  Ltac distinct B := apply (block_edge _ _ _ _ _ _ _ _ _ B).
  Lemma inside_runs_upto n : forall l : list L, lsizes l <= n -> forall q lvl k p pa t, numbered p l -> (q < Z.of_nat p)%Z ->
    runs (inside_list q lvl k l) (CAt Forced q k lvl) pa t ->
    (t = CAt Forced q (k + length l) lvl /\ path_assignments pa = flat_map inside l) \/
    (t = CFinal /\ inside_exits l (path_assignments pa)).
  Proof.
    induction n as [|n IH]; intros [|x l] Hs q lvl k p pa t Hn Hq Hr;
      try (apply runs_nil in Hr as [-> ->]; left; rewrite Nat.add_0_r; auto; fail);
      rewrite lsizes_cons in Hs; pose proof (lsize_pos x) as Px; [lia|].
    destruct (numbered_one _ _ _ Hn) as [N1 N2]. cbn [inside_list] in Hr.
    pose proof (inside_block [x] q lvl k p N1) as B1. cbn [inside_list length] in B1. rewrite app_nil_r in B1.
    pose proof (inside_block l q lvl (S k) _ N2) as B2.
    assert (Bs : lsizes [x] = lsize x) by (unfold lsizes; cbn; lia). rewrite Bs in B1.
    apply runs_app in Hr as [_ [u [p1 [p2 [-> [R1 R2]]]]]].
    2: { intros e e' He He'. destruct (block_edge _ _ _ _ _ _ _ _ _ B1 He) as [S1 _]. destruct (block_edge _ _ _ _ _ _ _ _ _ B2 He') as [S2 _].
         intros E. rewrite E in S1. destruct (source e'); crush. }
    assert (K : (u = CAt Forced q (S k) lvl /\ path_assignments p1 = inside x) \/
                (u = CFinal /\ inside_exits (x :: l) (path_assignments p1))).
    { destruct x as [i t0|i t0 m|i|i|i|i cs m]; try (cbn [inside_node] in R1; leaf_runs R1; cbn; auto; fail).
      - cbn [inside_node] in R1. leaf_runs R1; cbn; auto. right. split; auto. apply ie_here.
      - destruct (numbered_kids _ _ _ _ _ Hn) as [-> Nc]. rewrite lsize_group in *.
        pose proof (inside_block cs (Z.of_nat (pre i)) lvl 0 _ Nc) as B.
        rewrite inside_group in R1. apply runs_take in R1 as [p' [-> R1]].
        2: { apply ends_app. split; [|apply ends_cons; split; [cbn; intros [= C]; lia|intros e []]].
             intros e He. destruct (block_edge _ _ _ _ _ _ _ _ _ B He) as [S1 _]. intros E. rewrite E in S1. crush. }
        cbn [dest deciding] in R1. apply runs_app in R1 as [_ [v [q1 [q2 [-> [R3 R4]]]]]].
        2: { intros e e' He [<-|[]]. destruct (block_edge _ _ _ _ _ _ _ _ _ B He) as [S1 _]. intros E. rewrite E in S1. crush. }
        apply (IH cs) with (p := S (pre i)) in R3 as [[-> E3]|[-> E3]]; auto; try lia.
        + apply (runs_take (free _ _)) in R4 as [r4 [-> R4]]; [|intros e []]. apply runs_nil in R4 as [-> ->]. left. split; auto.
          cbn [path_assignments assignment deciding inside]. rewrite path_assignments_app, E3. cbn. now rewrite app_nil_r.
        + apply runs_pass in R4; [|discriminate]. apply runs_nil in R4 as [-> ->]. right. split; auto.
          rewrite app_nil_r. cbn [path_assignments assignment deciding]. now apply ie_group. }
    destruct K as [[-> E1]|[-> E1]].
    - apply (IH l) with (p := p + lsize x) in R2 as [[-> E2]|[-> E2]]; auto; try lia.
      + left. rewrite path_assignments_app, E1, E2. split; auto. f_equal. cbn; lia.
      + right. rewrite path_assignments_app, E1. split; auto. now apply ie_skip.
    - apply runs_idle in R2 as [-> ->].
      + right. now rewrite app_nil_r.
      + intros e He. destruct (block_edge _ _ _ _ _ _ _ _ _ B2 He) as [S1 _]. intros E. rewrite E in S1. crush.
  Qed.
  Lemma inside_runs (l : list L) q lvl k p pa t : numbered p l -> (q < Z.of_nat p)%Z ->
    runs (inside_list q lvl k l) (CAt Forced q k lvl) pa t ->
    (t = CAt Forced q (k + length l) lvl /\ path_assignments pa = flat_map inside l) \/
    (t = CFinal /\ inside_exits l (path_assignments pa)).
  Proof. apply (inside_runs_upto (lsizes l)). lia. Qed.

  Lemma outside_runs_upto n : forall l : list L, lsizes l <= n -> forall b q lvl k p pa t, numbered p l -> (q < Z.of_nat p)%Z ->
    runs (outside_list q lvl k l) (CAt (mode b) q k lvl) pa t ->
    (exists r, t = goal r q (k + length l) lvl /\ crun b l (path_assignments pa) r) \/
    deep false p (p + lsizes l) lvl t.
  Proof.
    induction n as [|n IH]; intros [|x l] Hs b q lvl k p pa t Hn Hq Hr;
      try (apply runs_nil in Hr as [-> ->]; left; exists (Some b); rewrite Nat.add_0_r; split; [reflexivity|apply cr_nil]; fail);
      rewrite lsizes_cons in Hs; pose proof (lsize_pos x) as Px; [lia|].
    destruct (numbered_one _ _ _ Hn) as [N1 N2]. cbn [outside_list] in Hr.
    pose proof (outside_block [x] q lvl k p N1) as B1. cbn [outside_list length] in B1. rewrite app_nil_r in B1.
    pose proof (outside_block l q lvl (S k) _ N2) as B2.
    assert (Bs : lsizes [x] = lsize x) by (unfold lsizes; cbn; lia). rewrite Bs in B1.
    apply runs_app in Hr as [_ [u [p1 [p2 [-> [R1 R2]]]]]].
    2: { intros e e' He He'. destruct (block_edge _ _ _ _ _ _ _ _ _ B1 He) as [S1 _]. destruct (block_edge _ _ _ _ _ _ _ _ _ B2 He') as [S2 _].
         intros E. rewrite E in S1. destruct (source e'); crush. }
    assert (K : (exists b', u = CAt (mode b') q (S k) lvl /\ forall l a r, crun b' l a r -> crun b (x :: l) (path_assignments p1 ++ a) r) \/
                (u = CFinal /\ forall l, crun b (x :: l) (path_assignments p1) None) \/
                deep false p (p + lsize x) lvl u).
    { destruct x as [i t0|i t0 m|i|i|i|i cs m].
      - left. exists b. cbn [outside_node] in R1. destruct b; leaf_runs R1; cbn; (split; [reflexivity|]); intros; now constructor.
      - left. exists b. cbn [outside_node] in R1. destruct b; leaf_runs R1; cbn; (split; [reflexivity|]); intros.
        + now apply (cr_token true).
        + now apply (cr_token false).
      - left. cbn [outside_node] in R1. destruct b; leaf_runs R1; cbn.
        + exists true. split; [reflexivity|]. intros. now apply cr_start_in.
        + exists true. split; [reflexivity|]. intros. now apply cr_start.
        + exists false. split; [reflexivity|]. intros. now apply cr_no_start.
      - left. cbn [outside_node] in R1. destruct b; leaf_runs R1; cbn.
        + exists false. split; [reflexivity|]. intros. now apply cr_end.
        + exists true. split; [reflexivity|]. intros. now apply cr_no_end.
        + exists false. split; [reflexivity|]. intros. now apply cr_end_out.
      - cbn [outside_node] in R1. destruct b; leaf_runs R1; cbn.
        + left. exists true. split; [reflexivity|]. intros. now apply cr_no_exit.
        + right; left. split; [reflexivity|]. intros. now apply cr_exit.
        + left. exists false. split; [reflexivity|]. intros. now apply cr_no_exit.
        + right; left. split; [reflexivity|]. intros. now apply cr_exit.
      - destruct (numbered_kids _ _ _ _ _ Hn) as [-> Nc]. rewrite lsize_group in *.
        pose proof (outside_block cs (Z.of_nat (pre i)) (S lvl) 0 _ Nc) as B.
        pose proof (inside_block cs (Z.of_nat (pre i)) lvl 0 _ Nc) as B'.
        rewrite outside_group in R1.
        set (h1 := deciding (CAt Outside q k lvl) (CAt Outside (Z.of_nat (pre i)) 0 (S lvl)) (pre i) NodeInRegion DFalse) in *.
        set (h2 := deciding (CAt Temporary q k lvl) (CAt Forced (Z.of_nat (pre i)) 0 lvl) (pre i) NodeInRegion DTrue) in *.
        set (x1 := free (CAt Outside (Z.of_nat (pre i)) (length cs) (S lvl)) (CAt Outside q (S k) lvl)) in *.
        set (x2 := free (CAt Forced (Z.of_nat (pre i)) (length cs) lvl) (CAt Temporary q (S k) lvl)) in *.
        assert (F1 : forall e, In e (h1 :: outside_list (Z.of_nat (pre i)) (S lvl) 0 cs ++ [x1]) ->
                  source e = CAt Outside q k lvl \/ match source e with CAt _ _ _ l0 => lvl < l0 | CFinal => False end).
        { intros e [<-|He]; [now left|]. apply in_app_or in He as [He|[<-|[]]]; right; [|cbn; lia].
          destruct (block_edge _ _ _ _ _ _ _ _ _ B He) as [S1 _]. destruct (source e); crush. }
        assert (F2 : forall e, In e (h2 :: inside_list (Z.of_nat (pre i)) lvl 0 cs ++ [x2]) ->
                  source e = CAt Temporary q k lvl \/ match source e with CAt c q' _ l0 => l0 = lvl /\ c = Forced /\ q' <> q | CFinal => False end).
        { intros e [<-|He]; [now left|]. apply in_app_or in He as [He|[<-|[]]]; right; [|cbn; splits; auto; lia].
          destruct (block_edge _ _ _ _ _ _ _ _ _ B' He) as [S1 _]. destruct (source e); crush. }
        apply runs_app in R1 as [_ [w [w1 [w2 [-> [R1 R1']]]]]].
        2: { intros e e' He He' E. apply F1 in He. apply F2 in He'. rewrite E in He. destruct He as [He|He], He' as [He'|He'].
             - congruence.
             - rewrite He in He'. intuition congruence.
             - rewrite He' in He. lia.
             - destruct (source e'); [lia|auto]. }
        destruct b; cbn [mode] in R1.
        + (* in a region *)
          apply runs_idle in R1 as [-> ->].
          2: { intros e He E. apply F1 in He as [He|He]; [congruence|]. rewrite E in He. lia. }
          apply (runs_take h2) in R1' as [p' [-> R1]].
          2: { apply ends_app. split; [|apply ends_cons; split; [cbn; intros [= C]; lia|intros e []]].
               intros e He. destruct (block_edge _ _ _ _ _ _ _ _ _ B' He) as [S1 _]. intros E. rewrite E in S1. subst h1 h2 x1 x2. crush. }
          cbn [dest deciding h2] in R1. apply runs_app in R1 as [_ [v [q1 [q2 [-> [R3 R4]]]]]].
          2: { intros e e' He [<-|[]]. destruct (block_edge _ _ _ _ _ _ _ _ _ B' He) as [S1 _]. intros E. rewrite E in S1. subst h1 h2 x1 x2. crush. }
          apply (inside_runs cs) with (p := S (pre i)) in R3 as [[-> E3]|[-> E3]]; auto; try lia.
          * apply (runs_take x2) in R4 as [r4 [-> R4]]; [|intros e []]. apply runs_nil in R4 as [-> ->]. left. exists true. split; auto.
            intros l0 a r Hc. cbn [app path_assignments assignment h2 deciding]. rewrite path_assignments_app, E3.
            cbn [path_assignments assignment x2 free]. rewrite app_nil_r. now apply cr_group_in.
          * apply runs_pass in R4; [|discriminate]. apply runs_nil in R4 as [-> ->]. right. left. split; auto.
            intros l0. rewrite app_nil_r. cbn [app path_assignments assignment h2 deciding]. now apply cr_group_in_exit.
        + (* outside *)
          apply (runs_take h1) in R1 as [p' [-> R1]].
          2: { apply ends_app. split; [|apply ends_cons; split; [cbn; intros [= C]; lia|intros e []]].
               intros e He. destruct (block_edge _ _ _ _ _ _ _ _ _ B He) as [S1 _]. intros E. rewrite E in S1. subst h1 h2 x1 x2. crush. }
          cbn [dest deciding h1] in R1. apply runs_app in R1 as [_ [v [q1 [q2 [-> [R3 R4]]]]]].
          2: { intros e e' He [<-|[]]. destruct (block_edge _ _ _ _ _ _ _ _ _ B He) as [S1 _]. intros E. rewrite E in S1. subst h1 h2 x1 x2. crush. }
          apply (IH cs) with (p := S (pre i)) (b := false) in R3 as [[r [-> E3]]|Dv]; auto; try lia.
          * destruct r as [[|]|]; cbn [goal mode] in R4.
            -- (* the region is still open at the end of the group *)
               apply runs_pass in R4; [|discriminate]. apply runs_nil in R4 as [-> ->].
               apply runs_idle in R1' as [-> ->].
               2: { intros e He E. apply F2 in He as [He|He]; rewrite E in He; [injection He; intros; lia|intuition congruence]. }
               right. right. crush.
            -- apply (runs_take x1) in R4 as [r4 [-> R4]]; [|intros e []]. apply runs_nil in R4 as [-> ->]. cbn [dest x1 free] in R1'.
               apply runs_idle in R1' as [-> ->].
               2: { intros e He E. apply F2 in He as [He|He]; rewrite E in He; [discriminate|intuition congruence]. }
               left. exists false. split; auto. intros l0 a r Hc. rewrite app_nil_r.
               cbn [app path_assignments assignment h1 deciding]. rewrite path_assignments_app.
               cbn [path_assignments assignment x1 free]. rewrite app_nil_r. now apply cr_group.
            -- apply runs_pass in R4; [|discriminate]. apply runs_nil in R4 as [-> ->].
               apply runs_idle in R1' as [-> ->].
               2: { intros e He E. apply F2 in He as [He|He]; rewrite E in He; [discriminate|intuition congruence]. }
               right. left. split; auto. intros l0. rewrite !app_nil_r. cbn [app path_assignments assignment h1 deciding]. now apply cr_group_exit.
          * destruct v as [cv qv kv lv|]; [|destruct Dv]. 
            apply runs_pass in R4; [|cbn; intros C; injection C; intros; subst; crush]. apply runs_nil in R4 as [-> ->].
            apply runs_idle in R1' as [-> ->].
            2: { intros e He E. apply F2 in He as [He|He]; rewrite E in He; crush. injection He; intros; subst; lia. }
            right. right. crush. }
    destruct K as [[b' [-> E1]]|[[-> E1]|D]].
    - apply (IH l) with (p := p + lsize x) in R2 as [[r [-> E2]]|D]; auto; try lia.
      + left. exists r. rewrite path_assignments_app. split; auto. f_equal. cbn; lia.
      + right. rewrite lsizes_cons. destruct t; crush.
    - apply runs_idle in R2 as [-> ->].
      + left. exists None. rewrite app_nil_r. split; auto.
      + intros e He. destruct (block_edge _ _ _ _ _ _ _ _ _ B2 He) as [S1 _]. intros E. rewrite E in S1. crush.
    - apply runs_idle in R2 as [-> ->].
      + right. rewrite lsizes_cons. destruct u; crush.
      + intros e He. destruct (block_edge _ _ _ _ _ _ _ _ _ B2 He) as [S1 _]. intros E. rewrite E in S1. destruct u; crush.
  Qed.

  (** ** Runs are the choices of the specification. *)
  Lemma crun_app b (l1 : list L) a1 r1 : crun b l1 a1 r1 -> forall b' l2 a2 r, r1 = Some b' -> crun b' l2 a2 r ->
    crun b (l1 ++ l2) (a1 ++ a2) r.
  Proof.
    induction 1; intros b' l2 a2 r2 E Hr; try discriminate; cbn [app]; try (econstructor; eauto; fail).
    - injection E as <-. exact Hr.
    - rewrite <- app_assoc. apply cr_group; eauto.
    - rewrite <- app_assoc. apply cr_group_in; eauto.
  Qed.
  Lemma crun_inside (l : list L) : crun true l (flat_map inside l) (Some true).
  Proof.
    induction l as [|x l IH]; [apply cr_nil|]. cbn [flat_map].
    destruct x as [i t0|i t0 m|i|i|i|i cs m]; cbn [inside app].
    - now apply cr_deco.
    - now apply (cr_token true).
    - now apply cr_start_in.
    - now apply cr_no_end.
    - now apply cr_no_exit.
    - now apply cr_group_in.
  Qed.
  Lemma crun_inside_exits (l : list L) a : inside_exits l a -> crun true l a None.
  Proof.
    induction 1 as [i l|i cs m l a Ha IH|x l a Ha IH]; [apply cr_exit|now apply cr_group_in_exit|].
    pose proof (crun_inside [x]) as H1. cbn [flat_map] in H1. rewrite app_nil_r in H1.
    apply (crun_app _ _ _ _ H1 true l a None eq_refl IH).
  Qed.
  Lemma chosen_crun (l : list L) a : chosen l a -> crun false l a (Some false).
  Proof.
    induction 1; try (econstructor; eauto; fail).
    apply cr_start. apply (crun_app true inner (flat_map inside inner) (Some true) (crun_inside inner) true); auto.
    now apply cr_end.
  Qed.
  Lemma exits_crun (l : list L) a : exits l a -> crun false l a None.
  Proof.
    induction 1; [apply cr_exit|now apply cr_group_exit| |].
    - apply cr_start. now apply crun_inside_exits.
    - eapply crun_app; [apply chosen_crun; eassumption|reflexivity|auto].
  Qed.
  Lemma crun_region b (l : list L) a r : crun b l a r -> b = true ->
    (r = Some true /\ a = flat_map inside l) \/ (r = None /\ inside_exits l a) \/
    (exists inner j l' a', l = inner ++ LEnd j :: l' /\
       a = flat_map inside inner ++ ((pre j, RegionShouldEnd), DTrue) :: a' /\ crun false l' a' r).
  Proof.
    assert (St : forall (x : L) l a r, 
      (r = Some true /\ a = flat_map inside l) \/ (r = None /\ inside_exits l a) \/
      (exists inner j l' a', l = inner ++ LEnd j :: l' /\
         a = flat_map inside inner ++ ((pre j, RegionShouldEnd), DTrue) :: a' /\ crun false l' a' r) ->
      (r = Some true /\ inside x ++ a = flat_map inside (x :: l)) \/ (r = None /\ inside_exits (x :: l) (inside x ++ a)) \/
      (exists inner j l' a', x :: l = inner ++ LEnd j :: l' /\
         inside x ++ a = flat_map inside inner ++ ((pre j, RegionShouldEnd), DTrue) :: a' /\ crun false l' a' r)).
    { intros x l0 a0 r0 [[-> ->]|[[-> Hx]|[inner [j [l' [a' [-> [-> Hc]]]]]]]].
      - left. auto.
      - right. left. split; auto. now apply ie_skip.
      - right. right. exists (x :: inner), j, l', a'. splits; auto. cbn [flat_map]. now rewrite app_assoc. }
    induction 1 as [b|b i t l a r Hr IH|b i t m l a r Hr IH|i cs m l a a' r H1 IH1 H2 IH2|i cs m l a H1 IH1|i cs m l a r H1 IH1|i cs m l a H1
      |i l a r H1 IH1|i l a r H1 IH1|i l a r H1 IH1|i l a r H1 IH1|i l a r H1 IH1|i l a r H1 IH1|b i l|b i l a r H1 IH1]; intros Eb; try discriminate; try subst b.
    - left. auto.
    - apply (St (LDeco i t)). auto.
    - apply (St (LToken i t m)). auto.
    - apply (St (LGroup i cs m)). auto.
    - right. left. split; auto. now apply ie_group.
    - apply (St (LStart i)). auto.
    - apply (St (LEnd i)). auto.
    - right. right. exists [], i, l, a. splits; auto.
    - right. left. split; auto. apply ie_here.
    - apply (St (LExit i)). auto.
  Qed.
  Lemma crun_choice n : forall (l : list L) a r, lsizes l <= n -> crun false l a r ->
    (r = Some false -> chosen l a) /\ (r = None -> exits l a).
  Proof.
    induction n as [|n IH]; intros l a r Hs Hr.
    { destruct l as [|x l]; [|rewrite lsizes_cons in Hs; pose proof (lsize_pos x); lia]. inversion Hr; subst.
      split; [intros _; apply ch_nil|discriminate]. }
    assert (Sk : forall (x : L) a1 l1 a2 (r : option bool), chosen [x] a1 -> (r = None -> exits l1 a2) -> r = None -> exits (x :: l1) (a1 ++ a2)).
    { intros x a1 l1 a2 r0 Hx He E. apply (ex_skip [x]); auto. }
    inversion Hr as [b|b i t l' a' r' H1|b i t m l' a' r' H1|i cs m l' a1 a' r' H1 H2|i cs m l' a' H1|i cs m l' a' r' H1|i cs m l' a' H1
      |i l' a' r' H1|i l' a' r' H1|i l' a' r' H1|i l' a' r' H1|i l' a' r' H1|i l' a' r' H1|b i l'|b i l' a' r' H1]; subst;
      rewrite ?lsizes_cons, ?lsize_group in Hs; cbn [lsize] in Hs;
      try (pose proof (fun h => IH _ _ _ h H1) as I0; specialize (I0 ltac:(lia)); destruct I0 as [I1 I2]).
    - split; [intros _; apply ch_nil|discriminate].
    - split; intros E; [apply ch_deco; auto|]. apply (Sk (LDeco i t) [] l' a r); auto. repeat constructor.
    - split; intros E; [apply ch_token; auto|]. apply (Sk (LToken i t m) [_] l' a' r); auto. repeat constructor.
    - pose proof (fun h => IH _ _ _ h H2) as I0; specialize (I0 ltac:(lia)); destruct I0 as [I3 I4]. split; intros E; [apply ch_group; auto|].
      apply (Sk (LGroup i cs m) (_ :: a1) l' a' r); auto. rewrite <- (app_nil_r a1). apply ch_group; auto. apply ch_nil.
    - split; [discriminate|]. intros _. apply ex_group. auto.
    - split; intros E; [apply ch_no_start; auto|]. apply (Sk (LStart i) [_] l' a' r); auto. repeat constructor.
    - apply crun_region in H1 as [[-> ->]|[[-> Hx]|[inner [j [l1 [a1 [-> [-> Hc]]]]]]]]; auto.
      + split; discriminate.
      + split; [discriminate|]. intros _. now apply ex_region.
      + rewrite lsizes_app, lsizes_cons in Hs. pose proof (fun h => IH _ _ _ h Hc) as I0; specialize (I0 ltac:(lia)); destruct I0 as [I1 I2]. split; intros E.
        * apply ch_region. auto.
        * replace (LStart i :: inner ++ LEnd j :: l1) with ((LStart i :: inner ++ [LEnd j]) ++ l1) by (cbn; now rewrite <- app_assoc).
          replace ((pre i, RegionShouldStart, DTrue) :: flat_map inside inner ++ (pre j, RegionShouldEnd, DTrue) :: a1)
            with (((pre i, RegionShouldStart, DTrue) :: flat_map inside inner ++ [(pre j, RegionShouldEnd, DTrue)]) ++ a1)
            by (cbn; now rewrite <- app_assoc).
          apply ex_skip; auto. apply ch_region. apply ch_nil.
    - split; intros E; [apply ch_no_end; auto|]. apply (Sk (LEnd i) [_] l' a' r); auto. repeat constructor.
    - split; [discriminate|]. intros _. apply ex_here.
    - split; intros E; [apply ch_no_exit; auto|]. apply (Sk (LExit i) [_] l' a' r); auto. repeat constructor.
  Qed.
  Theorem crun_region_choice (l : list L) a : region_choice l a <-> crun false l a (Some false) \/ crun false l a None.
  Proof.
    split.
    - intros [Hc|Hx]; [left; now apply chosen_crun|right; now apply exits_crun].
    - intros [Hc|Hx]; [left; now apply (crun_choice (lsizes l) l a (Some false))|right; now apply (crun_choice (lsizes l) l a None)].
  Qed.

  (** ** The whole DAG. *)
  Definition constraint_edges (tree : list L) : list cedge :=
    outside_list ROOT 0 0 tree ++ [free (CAt Outside ROOT (length tree) 0) CFinal].
  Lemma constraint_topological (tree : list L) : numbered 0 tree -> topological (constraint_edges tree).
  Proof.
    intros Hn. pose proof (outside_block tree ROOT 0 0 0 Hn) as B. unfold constraint_edges. apply topological_app.
    - now apply (outside_topological tree ROOT 0 0 0).
    - apply topological_one. discriminate.
    - intros e e' He [<-|[]]. destruct (block_edge _ _ _ _ _ _ _ _ _ B He) as [S1 _]. cbn [dest free]. intros E. rewrite <- E in S1. crush.
  Qed.
  Theorem construct_ok (ns : list (node M)) :
    construct_constraint_dag (pack ns) = Ok (mkDag (CAt Outside ROOT 0 0) (constraint_edges (labelled ns)) CFinal).
  Proof.
    unfold construct_constraint_dag. rewrite read_pack. cbn [bind].
    replace (length (root_sequence (pack ns))) with (length (labelled ns)) by (rewrite pack_labelled; cbn; now rewrite map_length).
    fold (constraint_edges (labelled ns)).
    pose proof (constraint_topological _ (labelled_numbered ns)) as [T _].
    pose proof (partial_inv_start (As := decision) (In := cinfo) (CAt Outside ROOT 0 0)) as I0.
    destruct (proj2 (add_edges_ok_iff (constraint_edges (labelled ns)) _ I0) T) as [d' E].
    rewrite E. cbn [bind]. apply add_edges_inv in E as [_ [E1 E2]]; auto. unfold partial_finish. rewrite E1, E2. reflexivity.
  Qed.
  Theorem constraint_paths (tree : list L) p : numbered 0 tree ->
    is_path (constraint_edges tree) (CAt Outside ROOT 0 0) p CFinal -> region_choice tree (path_assignments p).
  Proof.
    intros Hn Hp. apply is_path_opath in Hp; [|now apply constraint_topological].
    pose proof (outside_block tree ROOT 0 0 0 Hn) as B. unfold constraint_edges in Hp.
    assert (R : runs (outside_list ROOT 0 0 tree ++ [free (CAt Outside ROOT (length tree) 0) CFinal]) (CAt Outside ROOT 0 0) p CFinal).
    { split; auto. apply ends_app. split; [|apply ends_cons; split; [discriminate|intros e []]].
      intros e He. destruct (block_edge _ _ _ _ _ _ _ _ _ B He) as [S1 _]. intros E. rewrite E in S1. crush. }
    apply runs_app in R as [_ [u [p1 [p2 [-> [R1 R2]]]]]].
    2: { intros e e' He [<-|[]]. destruct (block_edge _ _ _ _ _ _ _ _ _ B He) as [S1 _]. intros E. rewrite E in S1. crush. }
    apply (outside_runs_upto (lsizes tree)) with (b := false) (p := 0) in R1 as [[r [-> E]]|D]; auto; [| |reflexivity].
    - rewrite path_assignments_app. apply crun_region_choice. destruct r as [[|]|]; cbn [goal mode] in R2.
      + apply runs_pass in R2; [|discriminate]. apply runs_nil in R2 as [_ C]. discriminate.
      + apply (runs_take (free _ _)) in R2 as [r4 [-> R2]]; [|intros e []]. apply runs_nil in R2 as [-> _]. cbn. rewrite app_nil_r. auto.
      + apply runs_pass in R2; [|discriminate]. apply runs_nil in R2 as [-> _]. cbn. rewrite app_nil_r. auto.
    - destruct u as [c q0 k0 l0|]; [|destruct D]. apply runs_pass in R2; [|cbn; intros C; injection C; intros; subst; unfold ROOT in *; crush].
      apply runs_nil in R2 as [_ C]. discriminate.
  Qed.
  Theorem constraint_choices (tree : list L) ds : region_choice tree ds ->
    exists p, is_path (constraint_edges tree) (CAt Outside ROOT 0 0) p CFinal /\ path_assignments p = ds.
  Proof.
    intros Hc. apply crun_region_choice in Hc as [Hc|Hc]; apply (crun_opath false) with (q := ROOT) (lvl := 0) (k := 0) in Hc as [p [Hp Ep]];
      cbn [goal mode Nat.add] in Hp; unfold constraint_edges.
    - eexists (p ++ [_]). split; [apply opath_is_path; eapply opath_join; [exact Hp|apply op_take; apply op_nil]|].
      rewrite path_assignments_app, Ep. cbn. apply app_nil_r.
    - exists p. split; auto. apply opath_is_path. now apply opath_left.
  Qed.
  (** Costs and early-exit marks. *)
  Definition plain (e : cedge) : Prop :=
    ecost e = Fin 0 /\
    (info e = EarlyExitInfo <-> exists i, assignment e = Some ((i, ShouldEarlyExit), DTrue)).
  Ltac plain_ok := repeat (apply Forall_cons; [split; [reflexivity|]; cbn; split; [try discriminate; eauto|intros [? C]; (discriminate C || reflexivity)]|]); try apply Forall_nil.
  Lemma inside_plain_upto n : forall l : list L, lsizes l <= n -> forall q lvl k, Forall plain (inside_list q lvl k l).
  Proof.
    induction n as [|n IH]; intros [|x l] Hs q lvl k; try apply Forall_nil; rewrite lsizes_cons in Hs; pose proof (lsize_pos x) as Px; [lia|].
    cbn [inside_list]. apply Forall_app. split; [|apply IH; lia].
    destruct x as [i t0|i t0 m|i|i|i|i cs m]; try (cbn [inside_node]; plain_ok; fail).
    rewrite inside_group. apply Forall_cons; [split; [reflexivity|]; cbn; split; [discriminate|intros [? C]; discriminate C]|].
    apply Forall_app. split; [apply IH; rewrite lsize_group in Hs; lia|plain_ok].
  Qed.
  Lemma outside_plain_upto n : forall l : list L, lsizes l <= n -> forall q lvl k, Forall plain (outside_list q lvl k l).
  Proof.
    induction n as [|n IH]; intros [|x l] Hs q lvl k; try apply Forall_nil; rewrite lsizes_cons in Hs; pose proof (lsize_pos x) as Px; [lia|].
    cbn [outside_list]. apply Forall_app. split; [|apply IH; lia].
    destruct x as [i t0|i t0 m|i|i|i|i cs m]; try (cbn [outside_node]; plain_ok; fail).
    rewrite outside_group. rewrite lsize_group in Hs. apply Forall_app. split.
    - apply Forall_cons; [split; [reflexivity|]; cbn; split; [discriminate|intros [? C]; discriminate C]|].
      apply Forall_app. split; [apply IH; lia|plain_ok].
    - apply Forall_cons; [split; [reflexivity|]; cbn; split; [discriminate|intros [? C]; discriminate C]|].
      apply Forall_app. split; [apply (inside_plain_upto n); lia|plain_ok].
  Qed.
  Lemma constraint_plain (tree : list L) : Forall plain (constraint_edges tree).
  Proof. apply Forall_app. split; [apply (outside_plain_upto (lsizes tree)); lia|plain_ok]. Qed.
  Lemma zero_cost (p : list cedge) : Forall plain p -> path_cost p = Fin 0.
  Proof.
    induction 1 as [|e p [E _] HF IH]; [reflexivity|].
    change (path_cost (e :: p)) with (cadd (ecost e) (path_cost p)). rewrite E, IH. reflexivity.
  Qed.
End Proofs.
