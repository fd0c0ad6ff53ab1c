(** Paths of the packed DAG and paths of the original. *)

From Coq Require Import List Bool Arith Lia ZArith Sorted Permutation QArith Qcanon.
From Verif Require Import Base Graph PackedDag PackedDagProofs PackedTables Convert ConvertLists ConvertProofs ConvertLayout.
Import ListNotations.
Close Scope Qc_scope. Close Scope Q_scope. Open Scope nat_scope.

(** [p] consists of the elements of [l] at the positions [ks]. *)
Definition at_indices {X} (l : list X) (ks : list nat) (p : list X) : Prop :=
  Forall2 (fun k e => nth_error l k = Some e) ks p.
Lemma at_indices_fun {X} (l : list X) ks p p' : at_indices l ks p -> at_indices l ks p' -> p = p'.
Proof.
  intros H1; revert p'. induction H1; intros p' H2; inversion H2; subst; auto.
  f_equal; [congruence|auto].
Qed.
Lemma at_indices_app {X} (l : list X) ks ks' p p' :
  at_indices l ks p -> at_indices l ks' p' -> at_indices l (ks ++ ks') (p ++ p').
Proof. apply Forall2_app. Qed.
Lemma at_indices_In {X} (l : list X) ks p : at_indices l ks p -> forall e, In e p -> In e l.
Proof.
  induction 1 as [|k e ks p Hk Hf IH]; simpl; [tauto|]. intros e' [<-|He]; auto.
  eapply nth_error_In; eauto.
Qed.
Lemma at_indices_ex {X} (l p : list X) : (forall e, In e p -> In e l) -> exists ks, at_indices l ks p.
Proof.
  induction p as [|e p IH]; intros Hi.
  - exists []. constructor.
  - destruct (In_nth_error l e) as [k Hk]; [apply Hi; simpl; auto|].
    destruct IH as [ks Hks]; [intros; apply Hi; simpl; auto|]. exists (k :: ks). constructor; auto.
Qed.
Lemma at_indices_inj {X} (l : list X) ks ks' p : NoDup l -> at_indices l ks p -> at_indices l ks' p -> ks = ks'.
Proof.
  intros Hn H1; revert ks'. induction H1 as [|k e ks p Hk Hf IH]; intros ks' H2; inversion H2 as [|k' e' ks2 p2 Hk' Hf']; subst; auto.
  f_equal; [|auto]. eapply (proj1 (NoDup_nth_error l)); auto; [eapply nth_error_lt; eauto|congruence].
Qed.

Lemma FOP_NoDup {A} (l : list A) : ForallOrdPairs (fun x y => x <> y) l -> NoDup l.
Proof.
  induction 1 as [|a l Ha Hp IH]; constructor; auto.
  rewrite Forall_forall in Ha. intros C. now apply (Ha a).
Qed.
Lemma NoDup_FOP {A} (l : list A) : NoDup l -> ForallOrdPairs (fun x y => x <> y) l.
Proof.
  induction 1 as [|a l Ha Hp IH]; constructor; auto.
  rewrite Forall_forall. intros x Hx ->. auto.
Qed.
Lemma FOP_impl {A} (R R' : A -> A -> Prop) l : (forall x y, R x y -> R' x y) ->
  ForallOrdPairs R l -> ForallOrdPairs R' l.
Proof.
  intros Hr. induction 1 as [|a l Ha Hp IH]; constructor; auto.
  eapply Forall_impl; [|exact Ha]. auto.
Qed.

Lemma FOP_filter {A} (R : A -> A -> Prop) f l : ForallOrdPairs R l -> ForallOrdPairs R (filter f l).
Proof.
  induction 1 as [|a l Ha Hp IH]; simpl; [constructor|]. destruct (f a); auto. constructor; auto.
  rewrite Forall_forall in *. intros x Hx. apply filter_In in Hx as [Hx _]. auto.
Qed.
Lemma FOP_unmap {A B} (f : A -> B) (R : B -> B -> Prop) l :
  ForallOrdPairs R (map f l) -> ForallOrdPairs (fun a b => R (f a) (f b)) l.
Proof.
  induction l as [|a l IH]; simpl; intros Hf; constructor; inversion Hf; subst; auto.
  rewrite Forall_forall in *. intros x Hx. apply H1. now apply in_map.
Qed.
Lemma map_fst_enumerate {A} (l : list A) : map fst (enumerate l) = seq 0 (length l).
Proof.
  unfold enumerate. generalize 0. induction l as [|x l IH]; intros n; simpl; auto. f_equal. auto.
Qed.

Lemma firstn_skipn_step {X} (l : list X) i n x :
  nth_error l i = Some x -> 0 < n -> firstn n (skipn i l) = x :: firstn (n - 1) (skipn (i + 1) l).
Proof.
  revert i; induction l as [|y l IH]; intros [|i] Hx Hn; cbn in Hx; try discriminate.
  - injection Hx as ->. destruct n; [lia|]. cbn. now rewrite Nat.sub_0_r.
  - cbn [skipn]. replace (S i + 1) with (S (i + 1)) by lia. cbn [skipn]. auto.
Qed.

(** The value an assignment list gives to a key, [missing] if none. *)
Definition value_of {Ky Vl} `{EqDec Ky} (l : list (Ky * Vl)) (missing : Vl) (k : Ky) : Vl :=
  match assoc k l with Some v => v | None => missing end.

Section Paths.
  Context {St Ky Vl In : Type} `{EqDec St} `{EqDec Ky} `{EqDec Vl}.
  Context (kle : Ky -> Ky -> bool).
  Notation E := (edge St (Ky * Vl) In).
  Notation D := (dag St (Ky * Vl) In).
  Notation tstate := (St * Z)%type.
  Notation tedge := (edge (St * Z) (Ky * Vl) (option nat)).
  Context (d : D) (missing : Vl).
  Context (R : stage kle d missing).
  Context (T : topological (edges d)).
  Notation es := (edges d).
  Notation keys := (p_keys kle _ _ R).
  Notation K := (p_K kle _ _ R).
  Notation P := (p_possible kle _ _ R).
  Notation G := (p_guaranteed kle _ _ R).
  Notation Af := (p_after kle _ _ R).
  Notation sources := (p_sources kle _ _ R).
  Notation groups := (p_groups kle _ _ R).
  Notation emitted := (p_emitted kle _ _ R).
  Notation tedges := (p_tedges kle _ _ R).
  Notation tagged := (tagged kle d missing R).
  Notation upper := (upper kle d missing R).

  Definition origin (te : tedge) : list nat := match info te with Some i => [i] | None => [] end.
  Definition origins (tp : list tedge) : list nat := flat_map origin tp.

  Lemma tagged_kind g te : tagged g te ->
    (exists k, te = mkEdge (fst (source te), snd (source te)) (fst (source te), (snd (source te) + 1)%Z)
                      (Fin 0%Qc) (Some (k, missing)) None) \/
    (exists i e, nth_error es i = Some e /\ ecost e <> Inf /\
       te = mkEdge (source e, snd (source te)) (dest e, snd (dest te)) (ecost e) (assignment e) (Some i) /\
       match assignment e with
       | None => assoc (source e) P = Some (snd (source te)) /\ snd (dest te) = snd (source te)
       | Some (k, _) => key_index keys k = Ok (snd (dest te)) /\ snd (source te) = (snd (dest te) - 1)%Z
       end).
  Proof.
    destruct 1 as [s tag k lo hi Hs Elo Ehi Htag Hk|i e t Hi Hd Hc' Ha Ht'|i e k v u Hi Hd Hc' Ha Hu]; cbn.
    - left. exists k. reflexivity.
    - right. exists i, e. rewrite Ha. splits; auto.
    - right. exists i, e. rewrite Ha. splits; auto.
  Qed.

  Lemma tagged_tags g te : tagged g te ->
    (-1 <= snd (source te))%Z /\ (snd (source te) <= snd (dest te))%Z /\
    match assignment te with
    | None => snd (dest te) = snd (source te)
    | Some (k, _) => snd (dest te) = (snd (source te) + 1)%Z /\ nth_error keys (Z.to_nat (snd (dest te))) = Some k
    end.
  Proof.
    intros Ht. destruct (tagged_shape kle _ _ R _ _ Ht) as [[i [Hi [Eg [Ea [Es Ed]]]]]|[i [k [v [Hi [Eg [Ea [Ek [Es Ed]]]]]]]]];
      rewrite Ea; splits; try lia.
    rewrite Ed, Nat2Z.id. now apply index_of_Some.
  Qed.

  (** Every path of tagged edges comes from a path of original edges. *)
  Lemma tpath_sound x tp y : is_path tedges x tp y ->
    exists q, at_indices es (origins tp) q /\ is_path es (fst x) q (fst y) /\
      path_cost tp = path_cost q /\ (forall e, List.In e q -> ecost e <> Inf) /\
      (snd x <= snd y)%Z /\
      map fst (path_assignments tp) =
        firstn (Z.to_nat (snd y - snd x)) (skipn (Z.to_nat (snd x + 1)) keys) /\
      (forall k, List.In k (map fst (path_assignments q)) -> List.In k (map fst (path_assignments tp))) /\
      (NoDup (map fst (path_assignments tp)) ->
       path_assignments tp =
         map (fun k => (k, value_of (path_assignments q) missing k)) (map fst (path_assignments tp))).
  Proof.
    induction 1 as [x|te tp y Hte Hp IH].
    - exists []. cbn. rewrite Z.sub_diag. cbn. splits; auto; try (intros; contradiction); try lia.
      + constructor.
      + constructor.
    - destruct IH as [q [I1 [I2 [I3 [I4 [I5 [I6 [I7 I8]]]]]]]].
      apply (tedges_In kle _ _ R) in Hte as [g Ht].
      pose proof (tagged_tags _ _ Ht) as [Tg1 [Tg2 Tg3]].
      assert (Hkeys : map fst (path_assignments (te :: tp)) =
        firstn (Z.to_nat (snd y - snd (source te))) (skipn (Z.to_nat (snd (source te) + 1)) keys)).
      { cbn [path_assignments]. destruct (assignment te) as [[k v]|].
        - destruct Tg3 as [Td Tk]. cbn [map fst]. rewrite I6.
          rewrite (firstn_skipn_step keys (Z.to_nat (snd (source te) + 1)) _ k).
          + f_equal. f_equal; [lia|]. f_equal. lia.
          + rewrite <- Tk. f_equal. lia.
          + lia.
        - rewrite I6, Tg3. reflexivity. }
      destruct (tagged_kind _ _ Ht) as [[k Ek]|[i [e [Hi [Hinf [Ee Hm]]]]]].
      + exists q. unfold origins. cbn [flat_map]. rewrite Ek at 1. cbn [origin info app].
        splits; auto; try lia.
        * rewrite Ek in I2. cbn [dest fst] in I2. auto.
        * rewrite path_cost_cons, I3. rewrite Ek. cbn [ecost]. apply cadd_0_l.
        * intros k0 Hk0. cbn [path_assignments]. rewrite Ek. cbn [assignment map fst]. right. auto.
        * cbn [path_assignments]. rewrite Ek. cbn [assignment map fst]. intros Hn.
          inversion Hn as [|? ? Hn1 Hn2]; subst. f_equal; auto. f_equal.
          unfold value_of. destruct (assoc k (path_assignments q)) as [v|] eqn:Ea; auto.
          exfalso. apply Hn1, I7. apply assoc_In in Ea. now apply (in_map fst) in Ea.
      + exists (e :: q). unfold origins. cbn [flat_map]. rewrite Ee at 1. cbn [origin info app].
        assert (Es : fst (source te) = source e) by (rewrite Ee; reflexivity).
        assert (Ed : fst (dest te) = dest e) by (rewrite Ee; reflexivity).
        assert (Ea : assignment te = assignment e) by (rewrite Ee; reflexivity).
        splits; auto; try lia.
        * constructor; auto.
        * rewrite Es. constructor; [eapply nth_error_In; eauto|]. rewrite Ed in I2. auto.
        * rewrite !path_cost_cons, I3. f_equal. rewrite Ee. reflexivity.
        * intros e' [<-|He']; auto.
        * cbn [path_assignments]. rewrite Ea. intros k Hk. destruct (assignment e) as [[k' v']|]; auto.
          destruct Hk as [<-|Hk]; [left; auto|right; auto].
        * cbn [path_assignments]. rewrite Ea. destruct (assignment e) as [[k' v']|]; auto.
          cbn [map fst]. intros Hn. inversion Hn as [|? ? Hn1 Hn2]; subst.
          unfold value_of at 1. cbn [assoc]. rewrite eqb_refl. f_equal.
          rewrite I8 at 1 by auto. apply map_ext_in. intros k Hk. f_equal.
          unfold value_of. cbn [assoc]. rewrite neq_eqb; auto. intros ->. auto.
  Qed.

  (** Chains of edges giving variables the missing value. *)
  Lemma upper_range s hi : upper s = Some hi -> (-1 <= hi < Z.of_nat K)%Z.
  Proof.
    unfold ConvertLayout.upper. destruct (assoc s Af) as [a|] eqn:Ea.
    - intros [= <-]. apply A_range in Ea. lia.
    - apply P_range.
  Qed.
  Lemma upper_ge_P s t : assoc s P = Some t -> exists hi, upper s = Some hi /\ (t <= hi)%Z.
  Proof.
    intros Ep. unfold ConvertLayout.upper. destruct (assoc s Af) as [a|] eqn:Ea.
    - exists (a - 1)%Z. split; auto. pose proof (P_lt_A kle _ _ R _ _ _ Ea Ep). lia.
    - exists t. split; auto. lia.
  Qed.
  Lemma chain_path s lo hi : List.In s sources -> assoc s G = Some lo -> upper s = Some hi ->
    forall n t, (lo <= t)%Z -> (t + Z.of_nat n <= hi)%Z ->
    exists tp, is_path tedges (s, t) tp (s, (t + Z.of_nat n)%Z) /\ origins tp = [] /\
      (0 < n -> exists te, List.In te tp /\ List.In te tedges /\ dest te = (s, (t + Z.of_nat n)%Z)).
  Proof.
    intros Hs Hlo Hhi. induction n as [|n IH]; intros t Ht Hn.
    - exists []. splits; auto; [|lia]. replace (t + Z.of_nat 0)%Z with t by lia. constructor.
    - destruct (IH (t + 1)%Z) as [tp [Hp [Ho Hl]]]; [lia|lia|].
      pose proof (upper_range _ _ Hhi) as Hr. apply G_range in Hlo as Hlr.
      destruct (nth_error keys (Z.to_nat (t + 1))) as [k|] eqn:Ek.
      2:{ apply nth_error_None in Ek. unfold p_K in Hr. lia. }
      set (te := mkEdge (s, t) (s, (t + 1)%Z) (Fin 0%Qc) (Some (k, missing)) None : tedge).
      assert (Hte : List.In te tedges).
      { apply (tedges_In kle _ _ R). eexists. eapply tg_chain; eauto. lia. }
      exists (te :: tp). splits.
      + replace (t + Z.of_nat (S n))%Z with (t + 1 + Z.of_nat n)%Z by lia.
        apply (path_cons tedges te tp). auto. exact Hp.
      + cbn. exact Ho.
      + intros _. destruct n as [|n].
        * exists te. cbn. splits; auto. 
        * destruct Hl as [te' [H2 [H3 H4]]]; [lia|]. exists te'. cbn. splits; auto. rewrite H4. f_equal. lia.
  Qed.

  Lemma dest_bounds e : List.In e es -> List.In (dest e) sources ->
    exists u lo t, target keys P e u /\ assoc (dest e) G = Some lo /\ assoc (dest e) P = Some t /\ (lo <= u <= t)%Z.
  Proof.
    intros He Hd. destruct (PF kle _ _ R T) as [_ [_ [F3 _]]]. destruct (GF kle _ _ R) as [_ [_ [G3 _]]].
    destruct (F3 e He) as [u [t [Hu [Et Hle]]]]. destruct (G3 e He) as [u' [lo [Hu' [El Hle']]]].
    rewrite (target_det kle _ _ R _ _ _ Hu' Hu) in Hle'. exists u, lo, t. splits; auto.
  Qed.

  (** Every original path to the final state, from any tag with which its first
      state can be entered, is represented. *)
  Lemma final_in : List.In (final_state d) sources.
  Proof. apply (sources_In kle _ _ R). auto. Qed.
  Lemma path_source_in s q : is_path es s q (final_state d) -> List.In s sources.
  Proof.
    intros Hp. inversion Hp as [|e q' t He Hq]; subst; [apply final_in|].
    apply (sources_In kle _ _ R). left. eauto.
  Qed.
  Lemma tpath_complete s q : is_path es s q (final_state d) ->
    forall qs, at_indices es qs q -> (forall e, List.In e q -> ecost e <> Inf) ->
    forall t lo p, assoc s G = Some lo -> assoc s P = Some p -> (lo <= t <= p)%Z ->
    exists tp tl, assoc (final_state d) P = Some tl /\
      is_path tedges (s, t) tp (final_state d, tl) /\ origins tp = qs /\
      (q <> [] -> exists te, List.In te tedges /\ dest te = (final_state d, tl)).
  Proof.
    intros Hp. remember (final_state d) as f eqn:Ef.
    induction Hp as [s|e q f He Hq IH]; intros qs Hqs Hfin t lo p Elo Ep Ht.
    - inversion Hqs; subst. destruct (upper_ge_P _ _ Ep) as [hi [Hu Hle]].
      destruct (chain_path (final_state d) lo hi final_in Elo Hu (Z.to_nat (p - t)) t) as [tp [H2 [H3 _]]]; [lia|lia|].
      exists tp, p. splits; auto; [|congruence]. replace p with (t + Z.of_nat (Z.to_nat (p - t)))%Z by lia. auto.
    - specialize (IH Ef).
      inversion Hqs as [|i e' qs' q' Hi Hqs']; subst.
      assert (Hds : List.In (dest e) sources) by (eapply path_source_in; eauto).
      assert (Hss : List.In (source e) sources) by (apply (sources_In kle _ _ R); eauto).
      destruct (dest_bounds e He Hds) as [u [lo' [p' [Hu [El' [Ep' Hr]]]]]].
      destruct (IH qs' Hqs' (fun e0 H0 => Hfin e0 (or_intror H0)) u lo' p' El' Ep' Hr)
        as [tp [tl [Etl [Htp [Ho Hlast]]]]].
      assert (Hce : ecost e <> Inf) by (apply Hfin; simpl; auto).
      destruct (upper_ge_P _ _ Ep) as [hi [Hup Hle]].
      assert (Hx : exists tag te, (t <= tag <= hi)%Z /\ List.In te tedges /\ source te = (source e, tag) /\
        dest te = (dest e, u) /\ origin te = [i]).
      { unfold target in Hu. destruct (assignment e) as [[k v]|] eqn:Ea.
        - destruct (AF kle _ _ R) as [_ [F2 _]].
          destruct (F2 e k v He Ea) as [u' [t' [a [Hu' [Et' [Hlt [Ea' Hle']]]]]]].
          rewrite Hu in Hu'. injection Hu' as <-. rewrite Ep in Et'. injection Et' as <-.
          assert (hi = a - 1)%Z by (unfold ConvertLayout.upper in Hup; rewrite Ea' in Hup; congruence).
          exists (u - 1)%Z, (mkEdge (source e, (u - 1)%Z) (dest e, u) (ecost e) (Some (k, v)) (Some i)).
          splits; auto; try lia. apply (tedges_In kle _ _ R). eexists. eapply tg_assign; eauto.
        - rewrite Ep in Hu. injection Hu as <-.
          exists p, (mkEdge (source e, p) (dest e, p) (ecost e) None (Some i)).
          splits; auto; try lia. apply (tedges_In kle _ _ R). eexists. eapply tg_free; eauto. }
      destruct Hx as [tag [te [Htag [Hte [Es [Ed Eo]]]]]].
      destruct (chain_path (source e) lo hi Hss Elo Hup (Z.to_nat (tag - t)) t) as [cp [Hc [Hco _]]]; [lia|lia|].
      replace (t + Z.of_nat (Z.to_nat (tag - t)))%Z with tag in Hc by lia.
      exists (cp ++ te :: tp), tl. splits; auto.
      + eapply is_path_app; [exact Hc|]. rewrite <- Es. constructor; auto. rewrite Ed. exact Htp.
      + unfold origins. rewrite flat_map_app. cbn [flat_map]. fold (origins cp) (origins tp).
        rewrite Hco, Ho, Eo. reflexivity.
      + intros _. destruct q as [|e2 q].
        * destruct tp as [|te2 tp2].
          -- apply is_path_nil_inv in Htp. exists te. split; auto. congruence.
          -- assert (Hne : te2 :: tp2 <> []) by discriminate.
             destruct (path_last _ _ _ _ Htp Hne) as [te3 [Hi3 Hd3]].
             exists te3. split; [exact (is_path_In _ _ _ _ _ Htp Hi3)|exact Hd3].
        * apply Hlast. discriminate.
  Qed.

  Lemma emit_NoDup s out : List.In s sources ->
    emit_state keys missing es sources P G Af s = Ok out -> NoDup out.
  Proof.
    intros Hs Ho. unfold emit_state in Ho.
    apply bind_ok_inv in Ho as [lo [H2 Ho]]. apply bind_ok_inv in Ho as [t [H3 Ho]].
    apply bind_ok_inv in Ho as [chain [Hc Ho]]. apply bind_ok_inv in Ho as [copies [Hcp Ho]].
    injection Ho as <-. apply FOP_NoDup, FOP_app.
    - pose proof Hc as Hc'. apply mapM_ok_iff in Hc'.
      eapply (FOP_F2 _ (fun a b => a <> b)); [exact Hc'| |].
      + intros x x' y y' Hx Hx' Hne Eyy. unfold chain_edge in Hx, Hx'.
        apply bind_ok_inv in Hx as [k [_ Hx]]. apply bind_ok_inv in Hx' as [k' [_ Hx']].
        injection Hx as <-. injection Hx' as <-. apply Hne. exact (f_equal (fun ge : nat * tedge => snd (source (snd ge))) Eyy).
      + apply NoDup_FOP. unfold zrange. apply FOP_NoDup, FOP_map.
        eapply FOP_impl; [|apply NoDup_FOP, seq_NoDup]. intros x y Hne C. apply Hne. lia.
    - pose proof Hcp as Hcp'. apply mapM_ok_iff in Hcp'.
      assert (Hcopy : forall (ie : nat * E) (ys : list (nat * tedge)), copy_edge keys sources t s ie = Ok ys ->
        ys = [] \/ exists g te, ys = [(g, te)] /\ info te = Some (fst ie)).
      { intros [i e] ys Hy. unfold copy_edge in Hy. cbn [fst snd] in Hy.
        destruct (negb (mem (dest e) sources)); [injection Hy as <-; auto|].
        destruct (eqb (ecost e) Inf); [injection Hy as <-; auto|].
        destruct (assignment e) as [[k v]|].
        - apply bind_ok_inv in Hy as [u [Hu Hy]]. injection Hy as <-. right. eexists. eexists. split; reflexivity.
        - injection Hy as <-. right. eexists. eexists. split; reflexivity. }
      apply FOP_concat.
      + rewrite Forall_forall. intros ys Hy. destruct (F2_In_r _ _ _ _ Hcp' Hy) as [ie [_ He]].
        destruct (Hcopy _ _ He) as [->|[g [te [-> _]]]]; repeat constructor.
      + eapply (FOP_F2 _ (fun a b : nat * E => fst a <> fst b)); [exact Hcp'| |].
        * intros x x' y y' Hx Hx' Hne a b Ha Hb C. subst b.
          destruct (Hcopy _ _ Hx) as [->|[g [te [-> Hte]]]]; [destruct Ha|].
          destruct (Hcopy _ _ Hx') as [->|[g' [te' [-> Hte']]]]; [destruct Hb|].
          destruct Ha as [<-|[]]. destruct Hb as [Hb|[]]. injection Hb as <- <-. congruence.
        * unfold edges_from. apply FOP_filter, (FOP_unmap fst (fun a b => a <> b)), NoDup_FOP. rewrite map_fst_enumerate. apply seq_NoDup.
    - intros x y Hx Hy C. subst y.
      apply (mapM_In _ _ _ _ Hc) in Hx as [tag [_ Hx]]. unfold chain_edge in Hx.
      apply bind_ok_inv in Hx as [k [_ Hx]]. injection Hx as <-.
      apply in_concat in Hy as [ys [Hys Hy]]. apply (mapM_In _ _ _ _ Hcp) in Hys as [[i e] [_ He]].
      unfold copy_edge in He. cbn [fst snd] in He.
      destruct (negb (mem (dest e) sources)); [injection He as <-; destruct Hy|].
      destruct (eqb (ecost e) Inf); [injection He as <-; destruct Hy|].
      destruct (assignment e) as [[k' v]|].
      + apply bind_ok_inv in He as [u [Hu He]]. injection He as <-. destruct Hy as [Hy|[]]. discriminate.
      + injection He as <-. destruct Hy as [Hy|[]]. discriminate.
  Qed.

  Lemma tedges_NoDup : NoDup tedges.
  Proof.
    assert (Hem : NoDup (concat emitted)).
    { apply FOP_NoDup, FOP_concat.
      - rewrite Forall_forall. intros out Ho.
        destruct (F2_In_r _ _ _ _ (emitted_F2 kle _ _ R) Ho) as [s [Hs Hout]].
        apply NoDup_FOP. eapply emit_NoDup; eauto.
      - eapply (FOP_F2 _ (fun s s' => List.In s sources /\ List.In s' sources /\ s <> s')); [apply emitted_F2| |].
        + intros s s' out out' Ho Ho' [Hs [Hs' Hne]] [g x] [g' y] Hx Hy C. injection C as <- <-.
          apply (emit_state_In kle _ _ R s out _ _ Hs Ho) in Hx as [_ Hx].
          apply (emit_state_In kle _ _ R s' out' _ _ Hs' Ho') in Hy as [_ Hy]. congruence.
        + apply FOP_before. intros s s' Hb.
          assert (Hs : List.In s sources) by (destruct Hb as [? [? [_ [Hn _]]]]; eapply nth_error_In; eauto).
          assert (Hs' : List.In s' sources) by (destruct Hb as [? [? [_ [_ Hn]]]]; eapply nth_error_In; eauto).
          splits; auto. intros ->. eapply before_irrefl; [apply (sources_NoDup kle _ _ R)|exact Hb]. }
    unfold p_tedges. apply FOP_NoDup, FOP_concat.
    - rewrite Forall_forall. intros grp Hg. apply In_nth with (d := []) in Hg as [g [Hg Eg]].
      rewrite (groups_length kle _ _ R) in Hg. rewrite <- Eg, (group_nth kle _ _ R) by auto.
      apply FOP_map, FOP_before. intros [g1 x] [g2 y] Hb. cbn [snd]. intros C. subst y.
      assert (Hx := Hb). destruct Hx as [i [j [_ [Hx Hy]]]].
      apply nth_error_In, filter_In in Hx as [_ Hx]. apply nth_error_In, filter_In in Hy as [_ Hy].
      cbn in Hx, Hy. apply Nat.eqb_eq in Hx. apply Nat.eqb_eq in Hy. subst g1 g2.
      eapply before_irrefl; [|exact Hb]. now apply NoDup_filter.
    - apply FOP_before. intros g1 g2 [i [j [Hij [Hi Hj]]]] x y Hx Hy C. subst y.
      pose proof (nth_error_lt _ _ _ Hi) as Li. pose proof (nth_error_lt _ _ _ Hj) as Lj.
      rewrite (groups_length kle _ _ R) in Li, Lj.
      apply nth_error_nth with (d := []) in Hi. apply nth_error_nth with (d := []) in Hj.
      rewrite <- Hi in Hx. rewrite <- Hj in Hy.
      apply (group_In kle _ _ R) in Hx; auto. apply (group_In kle _ _ R) in Hy; auto.
      pose proof (tagged_det kle _ _ R _ _ _ Hx Hy). lia.
  Qed.

  (** The copy of an original edge is determined by its index. *)
  Lemma copy_unique te te' i : List.In te tedges -> List.In te' tedges ->
    info te = Some i -> info te' = Some i -> te = te'.
  Proof.
    intros Hte Hte' Hi Hi'. apply (tedges_In kle _ _ R) in Hte as [g Ht]. apply (tedges_In kle _ _ R) in Hte' as [g' Ht'].
    destruct (tagged_kind _ _ Ht) as [[k Ek]|[j [e [Hj [_ [Ee Hm]]]]]]; [rewrite Ek in Hi; discriminate|].
    destruct (tagged_kind _ _ Ht') as [[k' Ek']|[j' [e' [Hj' [_ [Ee' Hm']]]]]]; [rewrite Ek' in Hi'; discriminate|].
    assert (j = i) by (rewrite Ee in Hi; cbn in Hi; congruence).
    assert (j' = i) by (rewrite Ee' in Hi'; cbn in Hi'; congruence).
    subst j j'. rewrite Hj in Hj'. injection Hj' as <-.
    rewrite Ee, Ee'. destruct (assignment e) as [[k v]|]; destruct Hm as [M1 M2]; destruct Hm' as [M1' M2'].
    - rewrite M1 in M1'. injection M1' as M1'. rewrite M2, M2', M1'. reflexivity.
    - rewrite M1 in M1'. injection M1' as M1'. rewrite M2, M2', M1'. reflexivity.
  Qed.
  Lemma chain_unique te te' : List.In te tedges -> List.In te' tedges ->
    info te = None -> info te' = None -> source te = source te' -> te = te'.
  Proof.
    intros Hte Hte' Hi Hi' Es. apply (tedges_In kle _ _ R) in Hte as [g Ht]. apply (tedges_In kle _ _ R) in Hte' as [g' Ht'].
    destruct (tagged_kind _ _ Ht) as [[k Ek]|[j [e [Hj [_ [Ee Hm]]]]]]; [|rewrite Ee in Hi; discriminate].
    destruct (tagged_kind _ _ Ht') as [[k' Ek']|[j' [e' [Hj' [_ [Ee' Hm']]]]]]; [|rewrite Ee' in Hi'; discriminate].
    pose proof (tagged_tags _ _ Ht) as [_ [_ A1]]. pose proof (tagged_tags _ _ Ht') as [_ [_ A2]].
    assert (Ha : assignment te = Some (k, missing)) by (rewrite Ek; reflexivity).
    assert (Ha' : assignment te' = Some (k', missing)) by (rewrite Ek'; reflexivity).
    rewrite Ha in A1. rewrite Ha' in A2. destruct A1 as [B1 C1]. destruct A2 as [B2 C2].
    assert (k = k'). { rewrite Es, <- B2 in B1. rewrite B1 in C1. congruence. }
    subst k'. rewrite Ek, Ek', Es. reflexivity.
  Qed.
  (** The first copied edge on a path leaves the path's first original state,
      at no smaller tag. *)
  Lemma first_copy tp : forall x y i qs, is_path tedges x tp y -> origins tp = i :: qs ->
    exists te, List.In te tedges /\ info te = Some i /\ (snd x <= snd (source te))%Z.
  Proof.
    induction tp as [|te tp IH]; intros x y i qs Hp Ho; [discriminate|].
    apply is_path_cons_inv in Hp as [-> [Hte Hp]].
    unfold origins in Ho. cbn [flat_map] in Ho. fold (origins tp) in Ho. unfold origin in Ho.
    destruct (info te) as [i'|] eqn:Ei.
    - injection Ho as <- _. exists te. splits; auto. lia.
    - destruct (IH _ _ _ _ Hp Ho) as [te' [H2 [H3 H4]]]. exists te'. splits; auto.
      apply (tedges_In kle _ _ R) in Hte as [g Ht]. apply tagged_tags in Ht as [_ [Ht _]]. lia.
  Qed.
  Lemma tpath_unique tp : forall tp' x y, is_path tedges x tp y -> is_path tedges x tp' y ->
    origins tp = origins tp' -> tp = tp'.
  Proof.
    induction tp as [|te tp IH]; intros tp' x y Hp Hp' Ho.
    - apply is_path_nil_inv in Hp. subst y.
      symmetry. apply (topological_acyclic _ _ _ (tedges_topological kle _ _ R T) Hp').
    - destruct tp' as [|te' tp'].
      + apply is_path_nil_inv in Hp'. subst y.
        apply (topological_acyclic _ _ _ (tedges_topological kle _ _ R T) Hp).
      + pose proof Hp as Hp0. pose proof Hp' as Hp0'.
        apply is_path_cons_inv in Hp as [Ex [Hte Hp]]. apply is_path_cons_inv in Hp' as [Ex' [Hte' Hp']].
        unfold origins in Ho. cbn [flat_map] in Ho. fold (origins tp) (origins tp') in Ho. unfold origin in Ho.
        destruct (info te) as [i|] eqn:Ei, (info te') as [i'|] eqn:Ei'; cbn [app] in Ho.
        * injection Ho as <- Ho. assert (te = te') by (eapply copy_unique; eauto). subst te'.
          f_equal. eapply IH; eauto.
        * exfalso. destruct (first_copy _ _ _ _ _ Hp' (eq_sym Ho)) as [te2 [H2 [H3 H4]]].
          assert (te2 = te) by (eapply copy_unique; eauto). subst te2.
          apply (tedges_In kle _ _ R) in Hte' as [g Ht].
          destruct (tagged_kind _ _ Ht) as [[k Ek]|[j [e [Hj [_ [Ee Hm]]]]]]; [|rewrite Ee in Ei'; discriminate].
          assert (snd (dest te') = snd (source te') + 1)%Z by (rewrite Ek; reflexivity).
          rewrite <- Ex, Ex' in H4. lia.
        * exfalso. destruct (first_copy _ _ _ _ _ Hp Ho) as [te2 [H2 [H3 H4]]].
          assert (te2 = te') by (eapply copy_unique; eauto). subst te2.
          apply (tedges_In kle _ _ R) in Hte as [g Ht].
          destruct (tagged_kind _ _ Ht) as [[k Ek]|[j [e [Hj [_ [Ee Hm]]]]]]; [|rewrite Ee in Ei; discriminate].
          assert (snd (dest te) = snd (source te) + 1)%Z by (rewrite Ek; reflexivity).
          rewrite <- Ex', Ex in H4. lia.
        * assert (te = te') by (eapply chain_unique; eauto; congruence). subst te'.
          f_equal. eapply IH; eauto.
  Qed.
End Paths.
