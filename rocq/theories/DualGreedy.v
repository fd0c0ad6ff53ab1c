(** [greedy_extract]: a finite cost is the cost of the cheapest solution making
    the returned assignment. *)

From Coq Require Import List Bool Arith Lia ZArith QArith Qcanon.
From Verif Require Import Base Graph PackedDag PackedDagProofs PackedTables PackedScale Convert
  DualSolver DualSpec DualLists DualPaths DualOps DualInvariant DualUpdates.
Import ListNotations.
Close Scope Qc_scope. Close Scope Q_scope. Open Scope nat_scope.

Lemma csum_Fin_In l q c : csum l = Fin q -> In c l -> exists x, c = Fin x.
Proof.
  revert q. induction l as [|d l IH]; intros q E Hi; [destruct Hi|]. rewrite csum_cons in E.
  destruct d as [x| |]; destruct (csum l) as [y| |] eqn:El; try discriminate.
  destruct Hi as [<-|Hi]; eauto.
Qed.
Lemma penalized_Fin P p q k b : penalized_cost P p = Fin q -> In (k, b) (path_assignments p) ->
  (exists x, path_cost p = Fin x) /\ exists x, nth b (nth k P []) NaN = Fin x.
Proof.
  unfold penalized_cost. intros E Hi.
  destruct (path_cost p) as [x| |]; destruct (csum _) as [y| |] eqn:Ec; try discriminate.
  split; eauto. eapply csum_Fin_In; eauto.
  apply in_map_iff. exists (k, b). auto.
Qed.
Lemma over_Fin n f q j : over n f = Fin q -> j < n -> exists x, f j = Fin x.
Proof.
  intros E Hj. eapply csum_Fin_In; [exact E|]. apply in_map_iff. exists j. split; auto. apply in_seq. lia.
Qed.

(** ** [np_argmin]. *)
Lemma argmin_from_spec l : forall i best bc, bc <> NaN -> no_nans l ->
  let r := argmin_from l i best bc in
  (r = best \/ exists k, r = i + k /\ k < length l) /\
  forall (full : nat -> cost), full best = bc -> (forall k, k < length l -> full (i + k) = nth k l NaN) ->
    cle (full r) bc /\ (forall k, k < length l -> cle (full r) (nth k l NaN)) /\ full r <> NaN.
Proof.
  induction l as [|c l IH]; intros i best bc Nb Nl; cbn [argmin_from].
  - split; auto. intros full Hb _. rewrite Hb. splits; auto; [now apply cle_refl|]. intros k Hk; simpl in Hk; lia.
  - inversion Nl as [|? ? Nc Nl']; subst. destruct (cltb c bc) eqn:Ec.
    + destruct (IH (S i) i c Nc Nl') as [H1 H2]. split.
      * right. destruct H1 as [->|[k [-> Hk]]]; [exists 0|exists (S k)]; simpl; split; lia.
      * intros full Hb Hf. destruct (H2 full) as [G1 [G2 G3]].
        -- specialize (Hf 0). rewrite Nat.add_0_r in Hf. apply Hf. simpl; lia.
        -- intros k Hk. specialize (Hf (S k)). cbn [nth] in Hf. replace (i + S k) with (S i + k) in Hf by lia.
           apply Hf. simpl; lia.
        -- splits; auto.
           ++ eapply cle_trans; [exact G1|]. now apply cltb_le.
           ++ intros [|k] Hk; cbn [nth]; auto. apply G2. simpl in Hk. lia.
    + destruct (IH (S i) best bc Nb Nl') as [H1 H2]. split.
      * destruct H1 as [->|[k [-> Hk]]]; [auto|right; exists (S k); simpl; split; lia].
      * intros full Hb Hf. destruct (H2 full Hb) as [G1 [G2 G3]].
        -- intros k Hk. specialize (Hf (S k)). cbn [nth] in Hf. replace (i + S k) with (S i + k) in Hf by lia.
           apply Hf. simpl; lia.
        -- splits; auto. intros [|k] Hk; cbn [nth]; [|apply G2; simpl in Hk; lia].
           eapply cle_trans; [exact G1|]. apply cltb_false; auto.
Qed.
Lemma np_argmin_spec l : 0 < length l -> no_nans l ->
  exists a, np_argmin l = Ok a /\ a < length l /\ get l a <> NaN /\ forall b, b < length l -> cle (get l a) (get l b).
Proof.
  intros Hl Nl. destruct l as [|c l]; [simpl in Hl; lia|]. cbn [np_argmin]. eexists. split; [reflexivity|].
  inversion Nl as [|? ? Nc Nl']; subst.
  destruct (argmin_from_spec l 1 0 c Nc Nl') as [H1 H2].
  destruct (H2 (get (c :: l))) as [G1 [G2 G3]].
  - reflexivity.
  - intros k Hk. reflexivity.
  - splits; auto.
    + destruct H1 as [->|[k [-> Hk]]]; simpl; lia.
    + intros [|b] Hb; auto. apply G2. simpl in Hb. lia.
Qed.

(** ** The loop. *)
(** [s] is [s0] with the variables of [xs] pinned to their values. *)
Record pinned (s0 s : sysdata) (xs : list (option nat)) : Prop := {
  pn_ok : sys_ok s;
  pn_keys : num_keys s = num_keys s0;
  pn_values : num_values s = num_values s0;
  pn_n : num_dags s = num_dags s0;
  pn_imap : imap s = imap s0;
  pn_dag : forall j, j < num_dags s0 -> dag_of s j = dag_of s0 j;
  pn_len : length xs = num_keys s0;
  pn_range : forall v c, nth v xs None = Some c -> c < num_values s0;
  pn_pens : forall j u a, j < num_dags s0 -> u < num_keys s0 -> a < num_values s0 ->
    pen_at s j u a = match nth u xs None with
                     | Some c => if a =? c then pen_at s0 j u a
                                 else match local s0 u j with Some _ => Inf | None => Fin 0%Qc end
                     | None => pen_at s0 j u a end
}.
Lemma pinned_local s0 s xs u j : pinned s0 s xs -> local s u j = local s0 u j.
Proof. intros P. unfold local. now rewrite (pn_imap _ _ _ P). Qed.
Lemma pinned_same s0 s s' xs : pinned s0 s xs -> same s s' -> pinned s0 s' xs.
Proof.
  intros P U. destruct P as [P1 P2 P3 P4 P5 P6 P7 P8 P9], U as [U1 U2 U3 U4 U5 U6 U7 U8 U9].
  constructor; auto; try congruence.
  - intros j Hj. rewrite U6 by lia. auto.
  - intros j u a Hj Hu Ha. rewrite <- P9 by auto.
    apply same_pen_at; [constructor; auto|lia].
Qed.
Lemma pinned_start s s' : sys_ok s -> same s s' -> pinned s s' (repeat None (num_keys s)).
Proof.
  intros O U. assert (E : forall u, nth u (repeat (@None nat) (num_keys s)) None = None).
  { intros u. destruct (Nat.lt_ge_cases u (num_keys s)).
    - now apply nth_repeat.
    - apply nth_overflow. now rewrite repeat_length. }
  destruct U as [U1 U2 U3 U4 U5 U6 U7 U8 U9]. constructor; auto.
  - apply repeat_length.
  - intros v c Hc. rewrite E in Hc. discriminate.
  - intros j u a Hj Hu Ha. rewrite E. apply same_pen_at; [constructor; auto|auto].
Qed.
Lemma pinned_commit s0 s s' xs v c : pinned s0 s xs -> v < num_keys s0 -> c < num_values s0 ->
  nth v xs None = None -> committed_to s s' v c -> pinned s0 s' (updnth v (Some c) xs).
Proof.
  intros P Hv Hc Hn [[rows [row U]] [HP _]].
  pose proof (pinned_local s0 s xs v) as Hloc.
  destruct P as [P1 P2 P3 P4 P5 P6 P7 P8 P9], U as [U1 U2 U3 U4 U5 U6 U7 U8 U9].
  assert (P : pinned s0 s xs) by (constructor; auto).
  constructor; auto; try congruence.
  - intros j Hj. rewrite U6 by lia. auto.
  - now rewrite updnth_length.
  - intros u d E. destruct (Nat.eq_dec v u) as [<-|Hne].
    + rewrite nth_updnth_same in E by lia. congruence.
    + rewrite nth_updnth_other in E by auto. eauto.
  - intros j u a Hj Hu Ha. rewrite HP by lia. rewrite (Hloc j P).
    destruct (Nat.eqb_spec u v) as [->|Hne]; cbn [andb].
    + rewrite nth_updnth_same by lia. destruct (Nat.eqb_spec a c) as [->|]; cbn [negb]; auto.
      rewrite P9 by auto. now rewrite Hn.
    + rewrite nth_updnth_other by auto. now apply P9.
Qed.

Definition complete_vector (x : list nat) (xs : list (option nat)) : Prop := xs = map Some x.

(** The result of the last iteration, once every other variable is pinned. *)
Lemma pinned_final s0 s xs v c x (M : nat -> cost) q : sys_ok s0 -> nearly_conserved s0 ->
  pinned s0 s xs -> v < num_keys s0 -> c < num_values s0 ->
  map Some x = updnth v (Some c) xs -> nth v xs None = None ->
  (forall j, j < num_dags s0 -> marginal_bound s v j c (M j)) ->
  over (num_dags s0) M = Fin q ->
  exists ps, solution s0 x ps /\ solution_cost s0 x ps = Fin q /\
    forall ps', solution s0 x ps' -> cle (Fin q) (solution_cost s0 x ps').
Proof.
  intros O0 NC P Hv Hc Hx Hnv HM HS.
  pose proof (pn_ok _ _ _ P) as O. pose proof (pinned_local s0 s xs) as Hloc.
  assert (Lx : length x = num_keys s0).
  { rewrite <- (pn_len _ _ _ P), <- (updnth_length v (Some c) xs), <- Hx. now rewrite map_length. }
  assert (Xv : nth v x 0 = c).
  { assert (E : nth v (map Some x) None = Some c) by (rewrite Hx; apply nth_updnth_same; rewrite (pn_len _ _ _ P); auto).
    rewrite nth_indep with (d' := Some 0) in E by (rewrite map_length; lia). rewrite map_nth in E. congruence. }
  assert (Xu : forall u, u < num_keys s0 -> u <> v -> nth u xs None = Some (nth u x 0)).
  { intros u Hu Hne. assert (E : nth u (map Some x) None = nth u xs None) by (rewrite Hx; apply nth_updnth_other; auto).
    rewrite <- E. rewrite nth_indep with (d' := Some 0) by (rewrite map_length; lia). now rewrite map_nth. }
  assert (Hpen : forall j u, j < num_dags s0 -> u < num_keys s0 -> nth u x 0 < num_values s0 ->
             pen_at s j u (nth u x 0) = pen_at s0 j u (nth u x 0)).
  { intros j u Hj Hu Ha. rewrite (pn_pens _ _ _ P) by auto. destruct (Nat.eq_dec u v) as [->|Hne].
    - now rewrite Hnv.
    - rewrite (Xu u Hu Hne). now rewrite Nat.eqb_refl. }
  assert (Xr : forall u, u < num_keys s0 -> nth u x 0 < num_values s0).
  { intros u Hu. destruct (Nat.eq_dec u v) as [->|Hne]; [now rewrite Xv|].
    eapply (pn_range _ _ _ P). apply Xu; auto. }
  (* the minimal path of each subproblem agrees with [x] *)
  assert (Hone : forall j, j < num_dags s0 -> exists p m,
     M j = Fin m /\ chooses s0 x j p /\ penalized_cost (pens (table s j)) p = Fin m /\
     forall p', chooses s0 x j p' -> cle (Fin m) (penalized_cost (pens (table s j)) p')).
  { intros j Hj. destruct (over_Fin _ _ _ j HS Hj) as [m Em]. cbn beta in Em.
    specialize (HM j Hj). unfold marginal_bound in HM. rewrite (Hloc v j P) in HM.
    assert (Hj' : j < num_dags s) by (rewrite (pn_n _ _ _ P); auto).
    destruct (table_facts s O j Hj') as [L _]. rewrite (pn_dag _ _ _ P j Hj) in *.
    assert (Hpath : forall p, packed_complete (dag_of s0 j) p -> penalized_cost (pens (table s j)) p = Fin m ->
              (forall k, local s0 v j = Some k -> In (k, c) (path_assignments p)) -> chooses s0 x j p).
    { intros p Hp Ep Hvc. split; auto. intros u k Hu El.
      assert (Hk : k < n_keys (dag_of s0 j)).
      { rewrite <- (pn_dag _ _ _ P j Hj). eapply (local_lt s O u); auto.
        - now rewrite (pn_keys _ _ _ P).
        - now rewrite (Hloc u j P). }
      destruct (Nat.eq_dec u v) as [->|Hne]; [rewrite Xv; auto|].
      destruct (complete_assigns _ _ k L Hp Hk) as [b [Hbl Hb]].
      assert (Hb2 : b < num_values s0).
      { destruct (table_facts s O j Hj') as [_ [_ [_ [V _]]]]. rewrite (pn_dag _ _ _ P j Hj) in V.
        rewrite <- (pn_values _ _ _ P). lia. }
      destruct (penalized_Fin _ _ _ _ _ Ep Hb) as [_ [y Ey]].
      assert (Epen : pen_at s j u b = Fin y) by (unfold pen_at; now rewrite (Hloc u j P), El).
      rewrite (pn_pens _ _ _ P), (Xu u Hu Hne), El in Epen by auto.
      destruct (Nat.eqb_spec b (nth u x 0)) as [<-|]; [auto|discriminate]. }
    destruct (local s0 v j) as [k|] eqn:El.
    - destruct HM as [_ [Hle [[p [Hp [Hi Ep]]]|HI]]]; [|congruence].
      exists p, m. splits; auto.
      + apply Hpath; auto; [congruence|]. intros k' E. injection E as <-. exact Hi.
      + congruence.
      + intros p' [Hp' Ha']. rewrite <- Em. apply Hle. exists p'. splits; auto.
        rewrite <- Xv. apply Ha'; auto.
    - destruct HM as [_ [Hle [[p [Hp Ep]]|HI]]]; [|congruence].
      exists p, m. splits; auto.
      + apply Hpath; auto; [congruence|]. intros k' E. discriminate.
      + congruence.
      + intros p' [Hp' Ha']. rewrite <- Em. apply Hle. exists p'. auto. }
  assert (Hall : exists ps, length ps = num_dags s0 /\ forall j, j < num_dags s0 ->
     exists m, M j = Fin m /\ chooses s0 x j (nth j ps []) /\ penalized_cost (pens (table s j)) (nth j ps []) = Fin m /\
     forall p', chooses s0 x j p' -> cle (Fin m) (penalized_cost (pens (table s j)) p')).
  { assert (G : forall n, n <= num_dags s0 -> exists ps, length ps = n /\ forall j, j < n ->
     exists m, M j = Fin m /\ chooses s0 x j (nth j ps []) /\ penalized_cost (pens (table s j)) (nth j ps []) = Fin m /\
     forall p', chooses s0 x j p' -> cle (Fin m) (penalized_cost (pens (table s j)) p')).
    { induction n as [|n IH]; intros Hn; [exists []; split; auto; lia|].
      destruct IH as [ps [Hl Hps]]; [lia|]. destruct (Hone n) as [p [m Hm]]; [lia|].
      exists (ps ++ [p]). rewrite app_length. cbn [length]. split; [lia|]. intros j Hj.
      destruct (Nat.eq_dec j n) as [->|].
      - exists m. rewrite app_nth2, Hl, Nat.sub_diag by lia. exact Hm.
      - rewrite app_nth1 by lia. apply Hps. lia. }
    apply G; auto. }
  destruct Hall as [ps [Hpl Hps]].
  assert (SOL : solution s0 x ps).
  { split; [exact Lx|]. split; [exact Hpl|]. intros j Hj. now destruct (Hps j Hj) as [m [_ [H _]]]. }
  assert (Hch : forall j p, j < num_dags s0 -> chooses s0 x j p -> chooses s x j p).
  { intros j p Hj [Hp Ha]. split; [now rewrite (pn_dag _ _ _ P j Hj)|].
    intros u k Hu El. rewrite (pn_keys _ _ _ P) in Hu. rewrite (Hloc u j P) in El. auto. }
  assert (Hpc : forall j p, j < num_dags s0 -> chooses s0 x j p ->
     penalized_cost (pens (table s j)) p = penalized_cost (pens (table s0 j)) p).
  { intros j p Hj Hcp. rewrite (chosen_penalized s0 O0 x j p Hj Hcp).
    rewrite (chosen_penalized s O x j p) by (auto; rewrite (pn_n _ _ _ P); auto).
    rewrite (pn_keys _ _ _ P). f_equal. apply over_ext. intros u Hu. auto. }
  (* total cost of any solution at [x] *)
  assert (Tot : forall ps', solution s0 x ps' ->
     over (num_dags s0) (fun j => penalized_cost (pens (table s0 j)) (nth j ps' [])) = solution_cost s0 x ps').
  { intros ps' HS'. rewrite (solution_penalized s0 O0 x ps' HS'). unfold solution_cost. f_equal.
    apply over_ext. intros u Hu. destruct (NC u (nth u x 0) Hu (Xr u Hu)) as [C|[C _]]; auto. exfalso.
    destruct (so_participant s0 O0 u Hu) as [j [Hj El]].
    specialize (C j Hj El). destruct (Hps j Hj) as [m [_ [Hcp [Em _]]]].
    rewrite (Hpc j _ Hj Hcp), (chosen_penalized s0 O0 x j _ Hj Hcp) in Em.
    apply cadd_fin_inv in Em as [y [z [_ Ez]]].
    destruct (over_Fin _ _ _ u Ez Hu) as [w Ew]. cbn beta in Ew. congruence. }
  exists ps. splits; auto.
  - rewrite <- (Tot ps SOL), <- HS. apply over_ext. intros j Hj.
    destruct (Hps j Hj) as [m [E1 [E2 [E3 _]]]]. rewrite <- (Hpc j _ Hj E2). congruence.
  - intros ps' HS'. rewrite <- (Tot ps' HS'), <- HS. apply over_le. intros j Hj.
    destruct (Hps j Hj) as [m [E1 [E2 [E3 E4]]]]. destruct HS' as [_ [_ HC]].
    rewrite <- (Hpc j _ Hj (HC j Hj)), E1. auto.
Qed.

Lemma all_some (xs : list (option nat)) : (forall u, u < length xs -> nth u xs None <> None) ->
  exists x, xs = map Some x.
Proof.
  induction xs as [|[a|] xs IH]; intros H.
  - exists []. reflexivity.
  - destruct IH as [x ->]; [|now exists (a :: x)]. intros u Hu. apply (H (S u)). simpl. lia.
  - exfalso. apply (H 0); simpl; auto. lia.
Qed.

Lemma greedy_loop_spec s0 : sys_ok s0 -> nearly_conserved s0 -> forall vs s xs last,
  pinned s0 s xs -> NoDup vs -> vs <> [] ->
  (forall v, v < num_keys s0 -> (nth v xs None = None <-> In v vs)) ->
  (forall v, In v vs -> v < num_keys s0) ->
  exists x c, greedy_loop s vs xs last = Ok (map Some x, c) /\ length x = num_keys s0 /\ c <> NaN /\
    (forall v, v < num_keys s0 -> nth v x 0 < num_values s0) /\
    forall q, c = Fin q ->
      exists ps, solution s0 x ps /\ solution_cost s0 x ps = Fin q /\
        forall ps', solution s0 x ps' -> cle (Fin q) (solution_cost s0 x ps').
Proof.
  intros O0 NC. induction vs as [|v vs IH]; intros s xs lst P ND Hne Hun Hin; [congruence|]. clear Hne.
  pose proof (pn_ok _ _ _ P) as O. inversion ND as [|? ? ND1 ND2]; subst.
  assert (Hv : v < num_keys s0) by (apply Hin; simpl; auto).
  assert (Hv' : v < num_keys s) by now rewrite (pn_keys _ _ _ P).
  cbn [greedy_loop].
  destruct (system_min_marginals_spec s v O Hv') as [mm [s1 [M [E [U [Lm [HM Hmm]]]]]]].
  rewrite E. cbn [bind fst snd].
  assert (Nm : no_nans mm).
  { unfold no_nans. rewrite Forall_forall. intros c Hc. apply In_nth with (d := NaN) in Hc as [a [Ha <-]].
    fold (get mm a). rewrite Hmm by lia. apply over_notnan. intros j Hj.
    specialize (HM j a Hj ltac:(lia)). unfold marginal_bound in HM. destruct (local s v j); now destruct HM. }
  destruct (np_argmin_spec mm) as [a [Ea [La [Na _]]]]; auto.
  { rewrite Lm. apply (so_values s O). }
  rewrite Ea. cbn [bind].
  assert (Ha : a < num_values s) by lia.
  assert (Ha0 : a < num_values s0) by (rewrite <- (pn_values _ _ _ P); lia).
  assert (P1 : pinned s0 s1 xs) by (eapply pinned_same; eauto).
  destruct (commit_choice_spec s1 v a) as [s2 [E2 C2]].
  { apply (pn_ok _ _ _ P1). }
  { now rewrite (pn_keys _ _ _ P1). }
  { now rewrite (pn_values _ _ _ P1). }
  rewrite E2. cbn [bind].
  assert (Hnv : nth v xs None = None) by (apply Hun; simpl; auto).
  assert (P2 : pinned s0 s2 (updnth v (Some a) xs)) by (eapply pinned_commit; eauto).
  assert (Hun2 : forall u, u < num_keys s0 -> (nth u (updnth v (Some a) xs) None = None <-> In u vs)).
  { intros u Hu. destruct (Nat.eq_dec v u) as [<-|Hnu].
    - rewrite nth_updnth_same by (rewrite (pn_len _ _ _ P); auto). split; [discriminate|tauto].
    - rewrite nth_updnth_other by auto. rewrite Hun by auto. simpl. tauto. }
  destruct vs as [|w vs].
  - cbn [greedy_loop].
    destruct (all_some (updnth v (Some a) xs)) as [x Hx].
    { intros u Hu C. rewrite (pn_len _ _ _ P2) in Hu. now apply (Hun2 u Hu) in C. }
    rewrite Hx. exists x, (get mm a). splits; auto.
    + rewrite <- (pn_len _ _ _ P2), Hx. now rewrite map_length.
    + intros u Hu. apply (pn_range _ _ _ P2 u). rewrite Hx.
      rewrite nth_indep with (d' := Some 0).
      * apply map_nth.
      * rewrite <- Hx, (pn_len _ _ _ P2). auto.
    + intros q Eq. eapply (pinned_final s0 s xs v a x (fun j => M j a) q); eauto.
      * intros j Hj. apply HM; auto. now rewrite (pn_n _ _ _ P).
      * rewrite <- Eq, Hmm by auto. now rewrite (pn_n _ _ _ P).
  - apply IH; auto; [discriminate|]. intros u Hu. apply Hin. simpl in *; auto.
Qed.

Lemma greedy_extract_spec s dir : sys_ok s -> nearly_conserved s -> 0 < num_keys s ->
  exists x c, greedy_extract s dir = Ok (map Some x, c) /\ length x = num_keys s /\ c <> NaN /\
    (forall v, v < num_keys s -> nth v x 0 < num_values s) /\
    forall q, c = Fin q ->
      exists ps, solution s x ps /\ solution_cost s x ps = Fin q /\
        forall ps', solution s x ps' -> cle (Fin q) (solution_cost s x ps').
Proof.
  intros O NC Hk. unfold greedy_extract.
  assert (Hin : forall v, In v (iteration_order dir (num_keys s)) <-> v < num_keys s).
  { intros v. destruct dir; cbn [iteration_order]; rewrite <- ?in_rev, in_seq; lia. }
  apply (greedy_loop_spec s O NC); auto.
  - apply pinned_start; auto. now apply clone_same.
  - destruct dir; cbn [iteration_order]; [|apply NoDup_rev]; apply seq_NoDup.
  - intros E. specialize (Hin 0). rewrite E in Hin. now apply Hin in Hk.
  - intros v Hv. rewrite Hin. rewrite nth_repeat. split; auto.
  - intros v Hv. now apply Hin.
Qed.
