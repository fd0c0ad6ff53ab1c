(** Every path of the edit DAG is an edit script. *)

From Coq Require Import List Bool Arith ZArith Lia QArith Qcanon.
From Verif Require Import Base Graph GatedDag SeqNodes PackedSeq Numbered Decisions ConstraintProofs EditDag EditScript.
Import ListNotations.
Close Scope Qc_scope. Close Scope Q_scope. Close Scope Z_scope. Open Scope nat_scope.

Section Sound.
  Context {M : Type} {md : EqDec M} (P : parameters).
  Notation L := (lnode M).
  Notation silent := (silent).

  (** ** Small steps on what is left of the two trees: the remaining siblings at
      every level, innermost first. *)
  Inductive cfg := At (a : align) (c : conf) (Kp Kt : list (list L)) | Done.
  Definition out_mode {A B} (K : list A) (K' : list B) (deep flat : align) : align :=
    if length K =? length K' then flat else deep.
  Definition walks (a : align) : Prop := a = PROCESS \/ a = DELETE \/ a = RDELETE.
  Definition cuts (a : align) : Prop := a = DELETE \/ a = RDELETE.
  Definition skips (a : align) : Prop := a = INSERT \/ a = MATCH \/ a = RINSERT.
  Definition puts (a : align) : Prop := a = INSERT \/ a = RINSERT.
  Inductive step : cfg -> effect -> cfg -> Prop :=
  | st_quiet a c x e c' ps Kp Kt : walks a -> quiet P c x e c' ->
      step (At a c ((x :: ps) :: Kp) Kt) e (At a c' (ps :: Kp) Kt)
  | st_exit a c p ps Kp Kt : walks a -> step (At a c ((LExit p :: ps) :: Kp) Kt) (leaving p c) Done
  | st_delete a c p t m ps Kp Kt : cuts a ->
      step (At a c ((LToken p t m :: ps) :: Kp) Kt) (deleting P p t c) (At a c (ps :: Kp) Kt)
  | st_delete_group a c p cs m ps Kp Kt : cuts a ->
      step (At a c ((LGroup p cs m :: ps) :: Kp) Kt) (entering p c) (At RDELETE c (cs :: ps :: Kp) Kt)
  | st_delete_out c Kp Kt : step (At RDELETE c ([] :: Kp) Kt) silent (At (out_mode Kp Kt RDELETE DELETE) c Kp Kt)
  | st_begin c Kp Kt : step (At PROCESS c Kp Kt) (beginning P c) (At DELETE c Kp Kt)
  | st_ready c Kp Kt : step (At PROCESS c Kp Kt) silent (At MATCH c Kp Kt)
  | st_deleted c Kp Kt : step (At DELETE c Kp Kt) silent (At INSERT c Kp Kt)
  | st_skip a c p t Kp ts Kt : skips a ->
      step (At a c Kp ((LDeco p t :: ts) :: Kt)) (decorating p c) (At a c Kp (ts :: Kt))
  | st_insert a c p t m Kp ts Kt : puts a ->
      step (At a c Kp ((LToken p t m :: ts) :: Kt)) (inserting P p t) (At a c Kp (ts :: Kt))
  | st_insert_group a c p ds m Kp ts Kt : puts a ->
      step (At a c Kp ((LGroup p ds m :: ts) :: Kt)) silent (At RINSERT c Kp (ds :: ts :: Kt))
  | st_insert_out c Kp Kt : step (At RINSERT c Kp ([] :: Kt)) silent (At (out_mode Kt Kp RINSERT INSERT) c Kp Kt)
  | st_inserted c Kp Kt : step (At INSERT c Kp Kt) silent (At MATCH c Kp Kt)
  | st_keep c p p' t m ps Kp ts Kt :
      step (At MATCH c ((LToken p t m :: ps) :: Kp) ((LToken p' t m :: ts) :: Kt)) (keeping P p p' t c)
        (At PROCESS c (ps :: Kp) (ts :: Kt))
  | st_match c p cs p' ds m ps Kp ts Kt :
      step (At MATCH c ((LGroup p cs m :: ps) :: Kp) ((LGroup p' ds m :: ts) :: Kt)) (entering p c)
        (At PROCESS c (cs :: ps :: Kp) (ds :: ts :: Kt))
  | st_match_out c ps Kp ts Kt :
      step (At MATCH c ([] :: ps :: Kp) ([] :: ts :: Kt)) silent (At PROCESS c (ps :: Kp) (ts :: Kt))
  | st_done : step (At MATCH High [[]] [[]]) silent Done.
  Inductive steps : cfg -> list effect -> cfg -> Prop :=
  | ss_nil s : steps s [] s
  | ss_cons s e t tr u : step s e t -> steps t tr u -> steps s (e :: tr) u.
  Lemma steps_done tr : steps Done tr Done -> tr = [].
  Proof. intros H. inversion H as [|? ? ? ? ? S]; subst; auto. inversion S. Qed.

  (** ** From steps to scripts. *)
  Lemma steps_dels n : forall c ps Kp Kt tr, length tr <= n -> length Kt < S (length Kp) ->
    steps (At RDELETE c (ps :: Kp) Kt) tr Done ->
    dels P c ps tr None \/
    exists tr1 c1 tr2, tr = tr1 ++ silent :: tr2 /\ dels P c ps tr1 (Some c1) /\
      steps (At (out_mode Kp Kt RDELETE DELETE) c1 Kp Kt) tr2 Done.
  Proof.
    induction n as [|n IH]; intros c ps Kp Kt tr Hn Hk Hs; (inversion Hs as [|? e s' tr' ? S1 S2]; subst); [cbn in Hn; lia|].
    cbn [length] in Hn. inversion S1; subst; clear S1;
      repeat match goal with H : _ \/ _ |- _ => destruct H; try discriminate end;
      try match goal with H : skips _ |- _ => destruct H as [|[|]]; discriminate end;
      try match goal with H : puts _ |- _ => destruct H as [|]; discriminate end.
    - apply IH in S2 as [S2|[tr1 [c1 [tr2 [-> [D S2]]]]]]; [left; eapply d_quiet; eauto| |lia|lia].
      right. exists (e :: tr1), c1, tr2. splits; auto. eapply d_quiet; eauto.
    - apply steps_done in S2 as ->. left. apply d_exit.
    - apply IH in S2 as [S2|[tr1 [c1 [tr2 [-> [D S2]]]]]]; [left; apply d_token; auto| |lia|lia].
      right. eexists (_ :: tr1), c1, tr2. splits; [reflexivity| |exact S2]. apply d_token; auto.
    - apply IH in S2 as [S2|[tr1 [c1 [tr2 [-> [D S2]]]]]]; [left; now apply d_group_exit| |lia|cbn; lia].
      rewrite app_length in Hn. cbn [length] in Hn.
      assert (E : out_mode (ps0 :: Kp) Kt RDELETE DELETE = RDELETE).
      { unfold out_mode. cbn [length]. destruct (Nat.eqb_spec (S (length Kp)) (length Kt)); auto. lia. }
      rewrite E in S2.
      apply IH in S2 as [S2|[tr3 [c3 [tr4 [-> [D2 S2]]]]]]; [left; eapply d_group; eauto| |lia|lia].
      right. exists (entering p c :: tr1 ++ silent :: tr3), c3, tr4. splits; auto.
      + cbn [app]. rewrite <- app_assoc. reflexivity.
      + eapply d_group; eauto.
    - right. exists [], c, tr'. splits; auto. constructor.
  Qed.
  Lemma steps_inserts n : forall c Kp ts Kt tr, length tr <= n -> length Kp < S (length Kt) ->
    steps (At RINSERT c Kp (ts :: Kt)) tr Done ->
    exists tr1 tr2, tr = tr1 ++ silent :: tr2 /\ inserts P c ts tr1 /\
      steps (At (out_mode Kt Kp RINSERT INSERT) c Kp Kt) tr2 Done.
  Proof.
    induction n as [|n IH]; intros c Kp ts Kt tr Hn Hk Hs; (inversion Hs as [|? e s' tr' ? S1 S2]; subst); [cbn in Hn; lia|].
    cbn [length] in Hn. inversion S1; subst; clear S1;
      try match goal with H : walks _ |- _ => destruct H as [|[|]]; discriminate end;
      try match goal with H : cuts _ |- _ => destruct H as [|]; discriminate end.
    - apply IH in S2 as [tr1 [tr2 [-> [D S2]]]]; [|lia|lia].
      eexists (_ :: tr1), tr2. splits; [reflexivity| |exact S2]. now constructor.
    - apply IH in S2 as [tr1 [tr2 [-> [D S2]]]]; [|lia|lia].
      eexists (_ :: tr1), tr2. splits; [reflexivity| |exact S2]. now constructor.
    - apply IH in S2 as [tr1 [tr2 [-> [D S2]]]]; [|lia|cbn; lia].
      rewrite app_length in Hn. cbn [length] in Hn.
      assert (E : out_mode (ts0 :: Kt) Kp RINSERT INSERT = RINSERT).
      { unfold out_mode. cbn [length]. destruct (Nat.eqb_spec (S (length Kt)) (length Kp)); auto. lia. }
      rewrite E in S2. apply IH in S2 as [tr3 [tr4 [-> [D2 S2]]]]; [|lia|lia].
      exists (silent :: tr1 ++ silent :: tr3), tr4. splits; auto.
      + cbn [app]. rewrite <- app_assoc. reflexivity.
      + now constructor.
    - exists [], tr'. splits; auto. constructor.
  Qed.
  Definition flat (a : align) : Prop := a <> RDELETE /\ a <> RINSERT.
  Lemma steps_script n : forall a c ps Kp ts Kt tr, length tr <= n -> flat a -> length Kp = length Kt ->
    steps (At a c (ps :: Kp) (ts :: Kt)) tr Done ->
    sc P a c ps ts tr None \/
    exists tr1 c1 tr2, tr = tr1 ++ tr2 /\ sc P a c ps ts tr1 (Some c1) /\ steps (At MATCH c1 ([] :: Kp) ([] :: Kt)) tr2 Done.
  Proof.
    induction n as [|n IH]; intros a c ps Kp ts Kt tr Hn Hf Hk Hs; (inversion Hs as [|? e s' tr' ? S1 S2]; subst); [cbn in Hn; lia|].
    cbn [length] in Hn.
    inversion S1; subst; clear S1; try (now destruct Hf as [Hf1 Hf2]; congruence).
    - (* quiet *) assert (W : a = PROCESS \/ a = DELETE) by (match goal with H : walks a |- _ => destruct H as [|[|]] end; auto; destruct Hf; congruence).
      apply IH in S2 as [S2|[tr1 [c1 [tr2 [-> [D S2]]]]]]; auto; try lia.
      + left. eapply sc_quiet; eauto.
      + right. exists (e :: tr1), c1, tr2. splits; auto. eapply sc_quiet; eauto.
    - (* exit *) assert (W : a = PROCESS \/ a = DELETE) by (match goal with H : walks a |- _ => destruct H as [|[|]] end; auto; destruct Hf; congruence).
      apply steps_done in S2 as ->. left. now apply sc_exit.
    - (* delete token *) assert (W : a = DELETE) by (match goal with H : cuts a |- _ => destruct H as [|] end; auto; destruct Hf; congruence). subst a.
      apply IH in S2 as [S2|[tr1 [c1 [tr2 [-> [D S2]]]]]]; auto; try lia.
      + left. now apply sc_delete.
      + right. eexists (_ :: tr1), c1, tr2. splits; [reflexivity| |exact S2]. now apply sc_delete.
    - (* delete group *) assert (W : a = DELETE) by (match goal with H : cuts a |- _ => destruct H as [|] end; auto; destruct Hf; congruence). subst a.
      apply (steps_dels n) in S2 as [S2|[tr1 [c1 [tr2 [-> [D S2]]]]]]; [left; now apply sc_delete_exit| |lia|cbn; lia].
      rewrite app_length in Hn. cbn [length] in Hn.
      assert (E : out_mode (ps0 :: Kp) (ts :: Kt) RDELETE DELETE = DELETE).
      { unfold out_mode. cbn [length]. rewrite Hk. now rewrite Nat.eqb_refl. }
      rewrite E in S2.
      apply IH in S2 as [S2|[tr3 [c3 [tr4 [-> [D2 S2]]]]]]; auto; try lia.
      + left. eapply sc_delete_group; eauto.
      + right. exists (entering p c :: tr1 ++ silent :: tr3), c3, tr4. splits; auto.
        * cbn [app]. now rewrite <- app_assoc.
        * eapply sc_delete_group; eauto.
    - (* begin *) apply IH in S2 as [S2|[tr1 [c1 [tr2 [-> [D S2]]]]]]; auto; try lia; try (now split).
      + left. now apply sc_begin.
      + right. eexists (_ :: tr1), c1, tr2. splits; [reflexivity| |exact S2]. now apply sc_begin.
    - (* ready *) apply IH in S2 as [S2|[tr1 [c1 [tr2 [-> [D S2]]]]]]; auto; try lia; try (now split).
      + left. now apply sc_ready.
      + right. eexists (_ :: tr1), c1, tr2. splits; [reflexivity| |exact S2]. now apply sc_ready.
    - (* deleted *) apply IH in S2 as [S2|[tr1 [c1 [tr2 [-> [D S2]]]]]]; auto; try lia; try (now split).
      + left. now apply sc_deleted.
      + right. eexists (_ :: tr1), c1, tr2. splits; [reflexivity| |exact S2]. now apply sc_deleted.
    - (* skip *) assert (W : a = INSERT \/ a = MATCH) by (match goal with H : skips a |- _ => destruct H as [|[|]] end; auto; destruct Hf; congruence).
      apply IH in S2 as [S2|[tr1 [c1 [tr2 [-> [D S2]]]]]]; auto; try lia.
      + left. now apply sc_skip.
      + right. eexists (_ :: tr1), c1, tr2. splits; [reflexivity| |exact S2]. now apply sc_skip.
    - (* insert *) assert (W : a = INSERT) by (match goal with H : puts a |- _ => destruct H as [|] end; auto; destruct Hf; congruence). subst a.
      apply IH in S2 as [S2|[tr1 [c1 [tr2 [-> [D S2]]]]]]; auto; try lia.
      + left. now apply sc_insert.
      + right. eexists (_ :: tr1), c1, tr2. splits; [reflexivity| |exact S2]. now apply sc_insert.
    - (* insert group *) assert (W : a = INSERT) by (match goal with H : puts a |- _ => destruct H as [|] end; auto; destruct Hf; congruence). subst a.
      apply (steps_inserts n) in S2 as [tr1 [tr2 [-> [D S2]]]]; [|lia|cbn; lia].
      rewrite app_length in Hn. cbn [length] in Hn.
      assert (E : out_mode (ts0 :: Kt) (ps :: Kp) RINSERT INSERT = INSERT).
      { unfold out_mode. cbn [length]. rewrite Hk. now rewrite Nat.eqb_refl. }
      rewrite E in S2.
      apply IH in S2 as [S2|[tr3 [c3 [tr4 [-> [D2 S2]]]]]]; auto; try lia.
      + left. eapply sc_insert_group; eauto.
      + right. exists (silent :: tr1 ++ silent :: tr3), c3, tr4. splits; auto.
        * cbn [app]. now rewrite <- app_assoc.
        * eapply sc_insert_group; eauto.
    - (* inserted *) apply IH in S2 as [S2|[tr1 [c1 [tr2 [-> [D S2]]]]]]; auto; try lia; try (now split).
      + left. now apply sc_inserted.
      + right. eexists (_ :: tr1), c1, tr2. splits; [reflexivity| |exact S2]. now apply sc_inserted.
    - (* keep *) apply IH in S2 as [S2|[tr1 [c1 [tr2 [-> [D S2]]]]]]; auto; try lia; try (now split).
      + left. now apply sc_keep.
      + right. eexists (_ :: tr1), c1, tr2. splits; [reflexivity| |exact S2]. now apply sc_keep.
    - (* match *) apply IH in S2 as [S2|[tr1 [c1 [tr2 [-> [D S2]]]]]]; try lia; try (now split); try (cbn; lia); [left; now apply sc_match_exit|].
      rewrite app_length in Hn. inversion S2 as [|? e s' tr'' ? S3 S4]; subst.
      inversion S3; subst; clear S3; try match goal with H : walks _ |- _ => destruct H as [|[|]]; discriminate end;
        try match goal with H : cuts _ |- _ => destruct H as [|]; discriminate end.
      cbn [length] in Hn.
      apply IH in S4 as [S4|[tr3 [c3 [tr4 [-> [D2 S4]]]]]]; auto; try lia; try (now split).
      + left. eapply sc_match; eauto.
      + right. exists (entering p c :: tr1 ++ silent :: tr3), c3, tr4. splits; auto.
        * cbn [app]. now rewrite <- app_assoc.
        * eapply sc_match; eauto.
    - (* match out *) right. exists [], c, (silent :: tr'). splits; auto. apply sc_end.
    - (* done *) right. exists [], High, (silent :: tr'). splits; auto. apply sc_end.
  Qed.
  Theorem steps_scripts ps ts tr : steps (At PROCESS High [ps] [ts]) tr Done ->
    sc P PROCESS High ps ts tr None \/ exists tr', tr = tr' ++ [silent] /\ sc P PROCESS High ps ts tr' (Some High).
  Proof.
    intros Hs. apply (steps_script (length tr)) in Hs as [Hs|[tr1 [c1 [tr2 [-> [D Hs]]]]]]; auto; [|now split].
    right. inversion Hs as [|? e s' tr' ? S1 S2]; subst.
    inversion S1; subst; clear S1; try match goal with H : walks _ |- _ => destruct H as [|[|]]; discriminate end;
      try match goal with H : cuts _ |- _ => destruct H as [|]; discriminate end.
    apply steps_done in S2 as ->. eauto.
  Qed.
End Sound.
