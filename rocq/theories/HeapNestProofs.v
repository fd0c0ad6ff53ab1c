(** Proofs that the transplants on linked nodes give the tree of the functional model. *)

From Coq Require Import List Bool Arith Lia Permutation.
From Verif Require Import Base StackParser StackParserProofs HeapTree LinkSpec HeapProofs HeapSplitProofs.
Import ListNotations.

(** * Growing trees *)
Lemma grown_refl h t : NoDup t -> grown h h t t.
Proof. intros N. unfold grown. splits; auto. intros x I. exact I. Qed.
Lemma grown_trans h h1 h2 o n1 n2 : grown h h1 o n1 -> grown h1 h2 n1 n2 -> grown h h2 o n2.
Proof.
  intros (L1 & N1 & I1 & W1 & F1) (L2 & N2 & I2 & W2 & F2). unfold grown. splits; auto.
  - lia.
  - intros x I. auto.
  - intros x I. destruct (W2 x I) as [J|J]; [auto|right; lia].
  - intros x Lx NI. rewrite F2, F1; auto; [lia|]. intros J. destruct (W1 x J); [auto|lia].
Qed.
Lemma grown_perm h h' o n o' n' : Permutation o o' -> Permutation n n' -> grown h h' o n -> grown h h' o' n'.
Proof.
  intros Po Pn (L & N & I & W & F). unfold grown. splits; auto.
  - now apply (Permutation_NoDup Pn).
  - intros x J. apply (Permutation_in x Pn), I, (Permutation_in x (Permutation_sym Po) J).
  - intros x J. destruct (W x (Permutation_in x (Permutation_sym Pn) J)) as [K|K]; auto. left. exact (Permutation_in x Po K).
  - intros x Lx NI. apply F; auto. intros J. apply NI. exact (Permutation_in x Po J).
Qed.
Lemma grown_frame h h' o n r : grown h h' o n -> NoDup (r ++ o) -> (forall x, In x r -> x < length h) -> grown h h' (r ++ o) (r ++ n).
Proof.
  intros (L & N & I & W & F) ND B. unfold grown. splits; auto.
  - apply NoDup_app_intro; auto; [now apply NoDup_left in ND|]. intros x J K. destruct (W x K) as [K'|K']; [exact (NoDup_app_disjoint _ _ x ND J K')|].
    specialize (B x J). lia.
  - intros x J. apply in_app_iff in J as [J|J]; apply in_app_iff; auto.
  - intros x J. apply in_app_iff in J as [J|J]; [left; apply in_app_iff; auto|]. destruct (W x J); auto. left. apply in_app_iff. auto.
  - intros x Lx NI. apply F; auto. intros J. apply NI, in_app_iff. auto.
Qed.

Lemma Forall_holds_frame h h' p l : Forall (holds h p) l -> (forall u, In u l -> forall x, In x (addrs u) -> nth_error h' x = nth_error h x) ->
  Forall (holds h' p) l.
Proof. intros F E. rewrite Forall_forall in F. apply Forall_forall. intros u I. exact (holds_frame u h h' p (E u I) (F u I)). Qed.

(** * A tree inside a tree *)
Inductive ctx := Hole | CNode (a lo : nat) (hi : option nat) (ann : annotation_kind) (pre : list ltree) (k : ctx) (post : list ltree).
Fixpoint fill (k : ctx) (t : ltree) : ltree :=
  match k with Hole => t | CNode a lo hi ann pre k' post => LNode a lo hi ann (pre ++ fill k' t :: post) end.
Fixpoint ctx_addrs (k : ctx) : list nat :=
  match k with Hole => [] | CNode a _ _ _ pre k' post => a :: flat_map addrs pre ++ ctx_addrs k' ++ flat_map addrs post end.
Lemma fill_addrs k t : Permutation (addrs (fill k t)) (ctx_addrs k ++ addrs t).
Proof.
  induction k as [|a lo hi ann pre k IH post]; cbn [fill ctx_addrs addrs app]; auto. constructor. rewrite flat_map_app. cbn [flat_map].
  rewrite <- app_assoc. apply Permutation_app_head. rewrite IH. rewrite <- app_assoc. rewrite <- app_assoc. apply Permutation_app_head. apply Permutation_app_comm.
Qed.
Lemma fill_holds k : forall h q S, holds h q (fill k S) -> exists p, holds h p S /\
  forall h' S', addr S' = addr S -> holds h' p S' -> (forall x, In x (ctx_addrs k) -> nth_error h' x = nth_error h x) -> holds h' q (fill k S').
Proof.
  induction k as [|a lo hi ann pre k IH post]; intros h q S Hh.
  - exists q. split; auto.
  - cbn [fill] in Hh. apply holds_eq in Hh as [E K]. apply Forall_app in K as [Kp K]. apply Forall_cons_iff in K as [Kf Kq].
    destruct (IH _ _ _ Kf) as [p [Hp Re]]. exists p. split; auto. intros h' S' Ea Hs Fr. cbn [fill]. apply holds_eq. split.
    + rewrite Fr by (cbn; auto). rewrite E. f_equal. rewrite !map_app. cbn. f_equal. f_equal. f_equal. destruct k; cbn; auto.
    + assert (Fp : forall u, In u pre \/ In u post -> forall x, In x (addrs u) -> nth_error h' x = nth_error h x).
      { intros u I x J. apply Fr. cbn. right. apply in_app_iff. destruct I as [I|I]; [left|right; apply in_app_iff; right]; apply in_flat_map; eauto. }
      apply Forall_app. split; [|constructor].
      * apply (Forall_holds_frame h); auto. intros u I. apply (Fp u). auto.
      * apply (Re h' S'); auto. intros x I. apply Fr. cbn. right. apply in_app_iff. right. apply in_app_iff. auto.
      * apply (Forall_holds_frame h); auto. intros u I. apply (Fp u). auto.
Qed.
Lemma fill_step k h q S : holds h q (fill k S) -> NoDup (addrs (fill k S)) -> NoDup (addrs S) /\ exists p, holds h p S /\
  forall h' S', addr S' = addr S -> holds h' p S' -> grown h h' (addrs S) (addrs S') ->
    holds h' q (fill k S') /\ grown h h' (addrs (fill k S)) (addrs (fill k S')).
Proof.
  intros Hh N. pose proof (Permutation_NoDup (fill_addrs k S) N) as N'. split; [now apply NoDup_right in N'|].
  destruct (fill_holds k h q S Hh) as [p [Hp Re]]. exists p. split; auto. intros h' S' Ea Hs G.
  assert (B : forall x, In x (ctx_addrs k) -> x < length h).
  { intros x I. apply (holds_bound _ h q x Hh). apply (Permutation_in x (Permutation_sym (fill_addrs k S))). apply in_app_iff. auto. }
  split.
  - apply Re; auto. intros x I. destruct G as (_ & _ & _ & _ & F). apply F; auto. exact (NoDup_app_disjoint _ _ x N' I).
  - apply (grown_perm h h' (ctx_addrs k ++ addrs S) (ctx_addrs k ++ addrs S')); [symmetry; apply fill_addrs|symmetry; apply fill_addrs|].
    now apply grown_frame.
Qed.

(** * One transplant *)
Ltac by_counting := apply (Permutation_count_occ Nat.eq_dec); intros ?; repeat (rewrite ?count_occ_app; cbn [count_occ app]); repeat destruct (Nat.eq_dec _ _); lia.
Definition moved (P C : ltree) (n : nat) : ltree :=
  LNode (addr P) (l_lo P) (l_hi C) (l_ann P) [LNode n (l_lo P) (l_hi P) ASplit (l_kids P); C].
Lemma moved_shape P C n : shape (moved P C n) = transplant (shape P) (shape C).
Proof. destruct P, C. reflexivity. Qed.
Lemma remove_first_mid x (l m : list nat) : ~ In x l -> remove_first x (l ++ x :: m) = Some (l ++ m).
Proof.
  induction l as [|y l IH]; cbn; intros N.
  - now rewrite Nat.eqb_refl.
  - destruct (Nat.eqb_spec x y) as [->|D]; [exfalso; auto|]. now rewrite IH by auto.
Qed.
Lemma transplant_heap h q c lo hi ann pre P C post :
  holds h q (LNode c lo hi ann (pre ++ P :: C :: post)) -> NoDup (addrs (LNode c lo hi ann (pre ++ P :: C :: post))) ->
  exists h', heap_transplant h (addr C) (addr P) = Some (Ok h') /\
    holds h' q (LNode c lo hi ann (pre ++ moved P C (length h) :: post)) /\
    grown h h' (addrs (LNode c lo hi ann (pre ++ P :: C :: post))) (addrs (LNode c lo hi ann (pre ++ moved P C (length h) :: post))).
Proof.
  intros Hh N. set (n := length h).
  assert (Pm : Permutation (addrs (LNode c lo hi ann (pre ++ P :: C :: post)))
                 (c :: addr P :: flat_map addrs (l_kids P) ++ addrs C ++ flat_map addrs pre ++ flat_map addrs post)).
  { destruct P as [a0 lo0 hi0 ann0 kids0]. cbn [addrs]. rewrite flat_map_app. cbn [flat_map addrs addr l_kids app]. by_counting. }
  assert (Pm' : Permutation (addrs (LNode c lo hi ann (pre ++ moved P C n :: post)))
                 ([n] ++ (c :: addr P :: flat_map addrs (l_kids P) ++ addrs C ++ flat_map addrs pre ++ flat_map addrs post))).
  { cbn [addrs]. rewrite flat_map_app. cbn [flat_map moved addrs app]. rewrite app_nil_r. by_counting. }
  pose proof (Permutation_NoDup Pm N) as N'. remember (flat_map addrs (l_kids P)) as KP. remember (flat_map addrs pre ++ flat_map addrs post) as R.
  inversion N' as [|c0 l0 Nc N1]; subst c0 l0. inversion N1 as [|p0 l1 Np N2]; subst p0 l1.
  assert (NK : NoDup KP) by (now apply NoDup_left in N2). pose proof (NoDup_right _ _ N2) as N3.
  assert (NC : NoDup (addrs C)) by (now apply NoDup_left in N3).
  pose proof Hh as Hh0. apply holds_eq in Hh0 as [Ec K]. apply Forall_app in K as [Kpre K]. apply Forall_cons_iff in K as [KPP K]. apply Forall_cons_iff in K as [KC Kpost].
  pose proof (holds_cell _ _ _ KPP) as EP. pose proof (holds_cell _ _ _ KC) as EC.
  assert (B : forall x, In x (addrs (LNode c lo hi ann (pre ++ P :: C :: post))) -> x < n) by (intros x; exact (holds_bound _ h q x Hh)).
  assert (B' : forall x, In x (c :: addr P :: KP ++ addrs C ++ R) -> x < n) by (intros x I; apply B; exact (Permutation_in x (Permutation_sym Pm) I)).
  assert (Lc : c < n) by (apply B'; cbn; auto). assert (LP : addr P < n) by (apply B'; cbn; auto).
  assert (LC : addr C < n) by (apply B'; cbn; right; right; apply in_app_iff; right; apply in_app_iff; left; apply addr_in).
  assert (DcP : c <> addr P) by (intros ->; apply Nc; now left).
  assert (DcC : c <> addr C) by (intros E; apply Nc; right; apply in_app_iff; right; apply in_app_iff; left; rewrite E; apply addr_in).
  assert (DPC : addr P <> addr C) by (intros E; apply Np; apply in_app_iff; right; apply in_app_iff; left; rewrite E; apply addr_in).
  assert (IK : forall x, In x (map addr (l_kids P)) -> In x KP).
  { intros x I. apply in_map_iff in I as [u [<- Iu]]. subst KP. apply in_flat_map. exists u. split; auto. apply addr_in. }
  assert (DK : forall x, In x KP -> x <> c /\ x <> addr P /\ ~ In x (addrs C) /\ ~ In x R /\ x < n).
  { intros x I. splits.
    - intros ->. apply Nc. right. apply in_app_iff. auto.
    - intros ->. apply Np. apply in_app_iff. auto.
    - intros J. apply (NoDup_app_disjoint _ _ x N2 I). apply in_app_iff. auto.
    - intros J. apply (NoDup_app_disjoint _ _ x N2 I). apply in_app_iff. auto.
    - apply B'. right. right. apply in_app_iff. auto. }
  assert (CK : ~ In (addr C) KP) by (intros I; apply (proj1 (proj2 (proj2 (DK _ I)))); apply addr_in).
  assert (MP : l_kids P = l_kids P) by auto.
  set (h0 := h ++ [mkCell (l_lo P) (l_hi P) (Some (addr P)) ASplit []]).
  set (h1 := adopt n (map addr (l_kids P)) h0).
  set (h2 := update n (set_children (map addr (l_kids P))) h1).
  set (h3 := update (addr P) (set_children [n; addr C]) h2).
  set (h4 := update c (set_children (map addr pre ++ addr P :: map addr post)) h3).
  set (h5 := update (addr C) (set_parent (Some (addr P))) h4).
  set (h6 := update (addr P) (set_hi (l_hi C)) h5).
  assert (Lh0 : length h0 = S n) by (unfold h0; rewrite app_length; cbn; subst n; lia).
  assert (Nn : forall x, In x (map addr (l_kids P)) -> x <> n) by (intros x I; apply IK in I; apply DK in I; lia).
  assert (X1 : forall x, x < n -> ~ In x (map addr (l_kids P)) -> nth_error h1 x = nth_error h x).
  { intros x Lx NI. unfold h1. rewrite adopt_other by auto. unfold h0. now apply nth_error_app1. }
  assert (X1n : nth_error h1 n = Some (mkCell (l_lo P) (l_hi P) (Some (addr P)) ASplit [])).
  { unfold h1. rewrite adopt_other by (intros I; now apply (Nn n I)). unfold h0, n. apply nth_error_new. }
  assert (E3P : nth_error h3 (addr P) = Some (mkCell (l_lo P) (l_hi P) (Some c) (l_ann P) [n; addr C])).
  { unfold h3. erewrite update_same; [|unfold h2; rewrite update_other by lia; rewrite X1; [exact EP|auto|intros I; apply IK, DK in I; tauto]]. reflexivity. }
  assert (E3c : nth_error h3 c = Some (mkCell lo hi q ann (map addr (pre ++ P :: C :: post)))).
  { unfold h3, h2. rewrite !update_other by lia. rewrite X1; auto. intros I. apply IK, DK in I. tauto. }
  assert (E4C : nth_error h4 (addr C) = Some (cell_of (Some c) C)).
  { unfold h4, h3, h2. rewrite !update_other by lia. rewrite X1; auto. }
  exists h6. split.
  { unfold heap_transplant. rewrite (holds_node h _ P KPP). cbn [obind]. change (c_children (cell_of (Some c) P)) with (map addr (l_kids P)).
    change (c_lo (cell_of (Some c) P)) with (l_lo P). change (c_hi (cell_of (Some c) P)) with (l_hi P). fold n h0 h1 h2 h3.
    unfold node_at at 1. rewrite E3P. cbn [obind c_parent]. unfold node_at at 1. rewrite E3c. cbn [obind c_children].
    rewrite map_app. cbn [map]. change (map addr pre ++ addr P :: addr C :: map addr post) with (map addr pre ++ [addr P] ++ addr C :: map addr post).
    rewrite app_assoc. rewrite remove_first_mid.
    - rewrite <- app_assoc. cbn [app]. fold h4 h5. unfold node_at. unfold h5 at 1. rewrite (update_same _ _ _ _ E4C). cbn [obind]. reflexivity.
    - intros I. apply in_app_iff in I as [I|[I|[]]]; [|auto]. apply in_map_iff in I as [u [Eu Iu]].
      apply (NoDup_app_disjoint _ _ (addr C) N3 (addr_in C)). subst R. apply in_app_iff. left. apply in_flat_map. exists u. split; auto. rewrite <- Eu. apply addr_in. }
  assert (X6 : forall x, x < n -> x <> c -> x <> addr P -> x <> addr C -> ~ In x (map addr (l_kids P)) -> nth_error h6 x = nth_error h x).
  { intros x Lx D1 D2 D3 NI. unfold h6, h5, h4, h3, h2. rewrite !update_other by lia. now apply X1. }
  assert (KR : forall u, In u pre \/ In u post -> forall x, In x (addrs u) -> nth_error h6 x = nth_error h x).
  { intros u I x J. assert (JR : In x R) by (subst R; apply in_app_iff; destruct I as [I|I]; [left|right]; apply in_flat_map; eauto).
    assert (JJ : In x (addrs C ++ R)) by (apply in_app_iff; auto).
    apply X6.
    - apply B'. right. right. apply in_app_iff. auto.
    - intros ->. apply Nc. right. apply in_app_iff. auto.
    - intros ->. apply Np. apply in_app_iff. auto.
    - intros ->. exact (NoDup_app_disjoint _ _ _ N3 (addr_in C) JR).
    - intros M. apply IK, DK in M. tauto. }
  split.
  - apply holds_eq. split.
    + unfold h6, h5. rewrite !update_other by auto. unfold h4. rewrite (update_same _ _ _ _ E3c). unfold set_children. cbn. f_equal. f_equal.
      rewrite map_app. reflexivity.
    + apply Forall_app. split; [|constructor].
      * apply (Forall_holds_frame h); auto. intros u I. apply (KR u). auto.
      * unfold moved. apply holds_eq. split.
        -- unfold h6. erewrite update_same; [|unfold h5, h4; rewrite !update_other by auto; exact E3P]. reflexivity.
        -- constructor; [|constructor; [|constructor]].
           ++ apply holds_eq. split.
              ** unfold h6, h5, h4, h3. rewrite !update_other by lia. unfold h2. rewrite (update_same _ _ _ _ X1n). reflexivity.
              ** assert (Q : Forall (holds (adopt n (map addr (l_kids P)) h) (Some n)) (l_kids P)).
                 { apply adopt_forest; [|now rewrite <- HeqKP]. destruct P as [a0 lo0 hi0 ann0 kids0]. apply holds_eq in KPP as [_ KPP]. cbn [l_kids].
                   rewrite Forall_forall in *. eauto. }
                 rewrite Forall_forall in *. intros u I. apply (holds_frame u (adopt n (map addr (l_kids P)) h)); auto. intros x J.
                 assert (JK : In x KP) by (subst KP; apply in_flat_map; eauto). destruct (DK x JK) as (D1 & D2 & D3 & D4 & D5).
                 assert (x <> addr C) by (intros ->; auto).
                 unfold h6, h5, h4, h3, h2. rewrite !update_other by lia. unfold h1.
                 destruct (in_dec Nat.eq_dec x (map addr (l_kids P))) as [M|M].
                 --- destruct (nth_error h x) as [cx|] eqn:Ex; [|apply nth_error_None in Ex; subst n; lia].
                     rewrite (adopt_in n _ h x cx M Ex). apply adopt_in; auto. unfold h0. now rewrite nth_error_app1.
                 --- rewrite !adopt_other by auto. unfold h0. now apply nth_error_app1.
           ++ apply (holds_adopted C h h6 (Some c)); auto.
              ** intros cx Ex. assert (cx = cell_of (Some c) C) by congruence. subst cx. unfold h6. rewrite update_other by auto. unfold h5. now apply update_same.
              ** intros x J D. assert (JJ : In x (addrs C ++ R)) by (apply in_app_iff; auto). apply X6; auto.
                 --- apply B'. right. right. apply in_app_iff. auto.
                 --- intros ->. apply Nc. right. apply in_app_iff. auto.
                 --- intros ->. apply Np. apply in_app_iff. auto.
                 --- intros M. apply IK, DK in M. tauto.
      * apply (Forall_holds_frame h); auto. intros u I. apply (KR u). auto.
  - apply (grown_perm h h6 _ _ _ _ (Permutation_sym Pm) (Permutation_sym Pm')). unfold grown. splits.
    + unfold h6, h5, h4, h3, h2, h1. rewrite !update_length, adopt_length. lia.
    + cbn [app]. constructor; auto. intros I. specialize (B' n I). lia.
    + intros x I. cbn [app]. now right.
    + intros x [<-|I]; [right; lia|left; exact I].
    + intros x Lx NI. apply X6; auto.
      * intros ->. apply NI. now left.
      * intros ->. apply NI. right. now left.
      * intros ->. apply NI. right. right. apply in_app_iff. right. apply in_app_iff. left. apply addr_in.
      * intros M. apply NI. right. right. apply in_app_iff. left. auto.
Qed.

(** * All transplants *)
Lemma transplants_app l1 l2 h : heap_transplants (l1 ++ l2) h = let? h1 := heap_transplants l1 h in heap_transplants l2 h1.
Proof.
  revert h. induction l1 as [|[c p] l1 IH]; intros h; cbn [app heap_transplants obind]; auto.
  destruct (heap_transplant h c p) as [[h1|]|]; cbn [obind]; auto.
Qed.

Section Nest.
  Context {T : Type} `{EqDec T}.
  Variables (tokens : list T) (sub : T * T).

  Definition sp (D : ltree) : bool := match is_sub_pair tokens sub (shape D) with Ok b => b | Err _ => false end.
  Definition hook (prev : option ltree) (C D : ltree) : list (nat * nat) :=
    match prev with
    | Some P => if sp D && adjacent_splits (shape P) (shape C) then [(addr C, addr P)] else []
    | None => []
    end.
  (** What is yielded below a node, given its left neighbour. *)
  Fixpoint lv (prev : option ltree) (C : ltree) : list (nat * nat) :=
    let 'LNode _ _ _ _ kids := C in
    (fix go (pf : option ltree) (l : list ltree) : list (nat * nat) :=
       match l with [] => [] | F :: l' => hook prev C F ++ lv pf F ++ go (Some F) l' end) None kids.
  Fixpoint lvh (prev : option ltree) (C : ltree) (pf : option ltree) (l : list ltree) : list (nat * nat) :=
    match l with [] => [] | F :: l' => hook prev C F ++ lv pf F ++ lvh prev C (Some F) l' end.
  Fixpoint li (pf : option ltree) (l : list ltree) : list (nat * nat) :=
    match l with [] => [] | F :: l' => lv pf F ++ li (Some F) l' end.
  Definition after (pf : option ltree) (l : list ltree) : option ltree := fold_left (fun _ F => Some F) l pf.

  Lemma lv_eq prev C : lv prev C = lvh prev C None (l_kids C).
  Proof.
    destruct C as [a lo hi ann kids]. cbn [lv l_kids].
    match goal with |- ?f _ _ = _ => assert (E : forall l pf, f pf l = lvh prev (LNode a lo hi ann kids) pf l) end; [|apply E].
    induction l as [|F l IH]; intros pf; cbn [lvh]; auto. now rewrite IH.
  Qed.
  Lemma lvh_free prev C l : (forall F, In F l -> hook prev C F = []) -> forall pf, lvh prev C pf l = li pf l.
  Proof.
    induction l as [|F l IH]; intros E pf; cbn [lvh li]; auto. rewrite (E F) by now left. cbn [app]. rewrite IH; auto. intros G I. apply E. now right.
  Qed.
  Lemma lvh_app prev C l1 l2 : forall pf, lvh prev C pf (l1 ++ l2) = lvh prev C pf l1 ++ lvh prev C (after pf l1) l2.
  Proof. induction l1 as [|F l1 IH]; intros pf; cbn [app lvh after fold_left]; auto. rewrite IH, !app_assoc. reflexivity. Qed.

  Definition same_rt (t t' : ltree) : Prop := addr t' = addr t /\ l_lo t' = l_lo t /\ l_hi t' = l_hi t /\ l_ann t' = l_ann t.
  Definition fn (G : ltree) (gk : pnode * nat) : Prop :=
    sub_match tokens sub (shape G) = Ok (fst gk) /\ count_sub_pairs tokens sub (shape G) = Ok (snd gk).
  Lemma sub_match_frame n g : sub_match tokens sub n = Ok g -> p_lo g = p_lo n /\ p_hi g = p_hi n /\ p_ann g = p_ann n.
  Proof.
    destruct n as [lo hi ann cs]. rewrite sub_match_eq. intros E. apply bind_ok_inv in E as [counts [_ E]]. apply bind_ok_inv in E as [cs' [_ E]].
    apply bind_ok_inv in E as [out [_ E]]. injection E as <-. cbn. auto.
  Qed.
  Lemma count_sp F k : count_sub_pairs tokens sub (shape F) = Ok k -> k = length (filter sp (l_kids F)).
  Proof.
    destruct F as [a lo hi ann kids]. unfold count_sub_pairs. cbn [shape p_children l_kids]. intros E. apply bind_ok_inv in E as [flags [Ef E]].
    injection E as <-. revert flags Ef. induction kids as [|G l IH]; intros flags Ef; cbn [map mapM] in Ef.
    - injection Ef as <-. reflexivity.
    - apply bind_ok_inv in Ef as [b [Eb Ef]]. apply bind_ok_inv in Ef as [bs [Ebs Ef]]. injection Ef as <-. cbn [filter]. unfold sp at 1. rewrite Eb.
      specialize (IH bs Ebs). destruct b; cbn [length]; auto.
  Qed.

  Definition Vn (F : ltree) : Prop := forall pf h p g, sub_match tokens sub (shape F) = Ok g -> (forall G, In G (l_kids F) -> hook pf F G = []) ->
    holds h p F -> NoDup (addrs F) ->
    exists h' F', heap_transplants (lv pf F) h = Some (Ok h') /\ shape F' = g /\ same_rt F F' /\ holds h' p F' /\ grown h h' (addrs F) (addrs F').
  Definition Vm (F : ltree) : Prop := forall P cur h q c lo hi ann pre post g,
    sub_match tokens sub (shape F) = Ok g -> length (filter sp (l_kids F)) = 1 -> adjacent_splits (shape P) (shape F) = true -> addr cur = addr P ->
    holds h q (LNode c lo hi ann (pre ++ cur :: F :: post)) -> NoDup (addrs (LNode c lo hi ann (pre ++ cur :: F :: post))) ->
    exists h' M, heap_transplants (lv (Some P) F) h = Some (Ok h') /\ shape M = transplant (shape cur) g /\
      holds h' q (LNode c lo hi ann (pre ++ M :: post)) /\
      grown h h' (addrs (LNode c lo hi ann (pre ++ cur :: F :: post))) (addrs (LNode c lo hi ann (pre ++ M :: post))).

  (** The state of the loop over the children of a node, and what the functional model still has to do. *)
  Inductive st := Start | Prev (t : ltree) | Gone (c : pnode).
  Definition cur_of (s : st) : list ltree := match s with Prev t => [t] | _ => [] end.
  Definition cont (s : st) (l : list (pnode * nat)) : result (list pnode) :=
    match s with
    | Start => transplant_children l
    | Prev t => transplant_list (shape t) l
    | Gone c => match l with
                | [] => Ok []
                | (c2, n2) :: l' => if (0 <? n2) && adjacent_splits c c2 then Err ValueError else transplant_list c2 l'
                end
    end.
  Definition st_ok (s : st) (pf : option ltree) : Prop :=
    match s with
    | Start => pf = None
    | Prev t => exists P, pf = Some P /\ same_rt P t
    | Gone c => exists P, pf = Some P /\ p_ann c = l_ann P /\ p_hi c = l_hi P
    end.
  Lemma adjacent_same p p' c c' : p_ann p' = p_ann p -> p_hi p' = p_hi p -> p_ann c' = p_ann c -> p_lo c' = p_lo c ->
    adjacent_splits p' c' = adjacent_splits p c.
  Proof. intros E1 E2 E3 E4. unfold adjacent_splits. now rewrite E1, E2, E3, E4. Qed.
  Lemma transplant_list_cons prev c n l : transplant_list prev ((c, n) :: l) =
    if (0 <? n) && adjacent_splits prev c then
      if 1 <? n then Err ValueError
      else match l with
           | [] => Ok [transplant prev c]
           | (c2, n2) :: l'' => if (0 <? n2) && adjacent_splits c c2 then Err ValueError
                                else do rest <- transplant_list c2 l''; Ok (transplant prev c :: rest)
           end
    else do rest <- transplant_list c l; Ok (prev :: rest).
  Proof. reflexivity. Qed.
  Lemma no_hooks pf P' G k : length (filter sp (l_kids G)) = k ->
    match pf with Some P => adjacent_splits (shape P) (shape G) = P' | None => True end -> (0 <? k) && P' = false \/ pf = None ->
    forall D, In D (l_kids G) -> hook pf G D = [].
  Proof.
    intros Ek Ea Z D I. unfold hook. destruct pf as [P|]; auto. destruct Z as [Z|Z]; [|discriminate]. rewrite Ea. destruct P'; [|now rewrite andb_false_r].
    rewrite andb_true_r in *. destruct (sp D) eqn:Es; auto. assert (Q : In D (filter sp (l_kids G))) by (apply filter_In; auto).
    destruct (filter sp (l_kids G)) as [|x l] eqn:Ef; [destruct Q|]. subst k. discriminate.
  Qed.

  Lemma step G gk gl rest h p f lo hi ann outs s pf out : Vn G -> Vm G -> fn G gk -> st_ok s pf -> cont s (gk :: gl) = Ok out ->
    holds h p (LNode f lo hi ann (outs ++ cur_of s ++ G :: rest)) -> NoDup (addrs (LNode f lo hi ann (outs ++ cur_of s ++ G :: rest))) ->
    exists h' s' outs' out', heap_transplants (lv pf G) h = Some (Ok h') /\
      holds h' p (LNode f lo hi ann (outs' ++ cur_of s' ++ rest)) /\
      grown h h' (addrs (LNode f lo hi ann (outs ++ cur_of s ++ G :: rest))) (addrs (LNode f lo hi ann (outs' ++ cur_of s' ++ rest))) /\
      st_ok s' (Some G) /\ cont s' gl = Ok out' /\ map shape outs ++ out = map shape outs' ++ out'.
  Proof.
    destruct gk as [g k]. intros HVn HVm [Eg Ek] Hs Ec Hh N. cbn [fst snd] in *. apply count_sp in Ek.
    destruct (sub_match_frame _ _ Eg) as (Fl & Fh & Fa). rewrite shape_lo in Fl. rewrite shape_hi in Fh. rewrite shape_ann in Fa.
    (* the child stays where it is *)
    assert (Stay : forall o, outs ++ cur_of s = o -> (forall D, In D (l_kids G) -> hook pf G D = []) ->
      exists h' G', heap_transplants (lv pf G) h = Some (Ok h') /\ holds h' p (LNode f lo hi ann (o ++ [G'] ++ rest)) /\
        grown h h' (addrs (LNode f lo hi ann (outs ++ cur_of s ++ G :: rest))) (addrs (LNode f lo hi ann (o ++ [G'] ++ rest))) /\
        shape G' = g /\ same_rt G G').
    { intros o Eo Hk. rewrite app_assoc, Eo in *. change (LNode f lo hi ann (o ++ G :: rest)) with (fill (CNode f lo hi ann o Hole rest) G) in *.
      destruct (fill_step _ _ _ _ Hh N) as [NG [q [Hq Re]]]. destruct (HVn pf h q g Eg Hk Hq NG) as (h' & G' & E' & Sh & Rt & Ho & Gr).
      exists h', G'. destruct (Re h' G' (proj1 Rt) Ho Gr) as [R1 R2]. splits; auto. }
    destruct s as [|t|c]; cbn [cur_of st_ok cont] in *.
    - subst pf. destruct (Stay outs) as (h' & G' & E' & Ho & Gr & Sh & Rt); [now rewrite app_nil_r|auto|].
      exists h', (Prev G'), outs, out. cbn [transplant_children] in Ec. splits; auto; cbn [st_ok cont cur_of]; [eauto|now rewrite Sh].
    - destruct Hs as [P [-> Rt]]. destruct Rt as (Ra & Rl & Rh & Rn). rewrite transplant_list_cons in Ec.
      assert (Ea : adjacent_splits (shape P) (shape G) = adjacent_splits (shape t) g).
      { symmetry. apply adjacent_same; rewrite ?shape_ann, ?shape_hi, ?shape_lo; auto. }
      destruct ((0 <? k) && adjacent_splits (shape t) g) eqn:Em.
      + apply andb_prop in Em as [K0 Em]. destruct (1 <? k) eqn:K1; [discriminate|].
        assert (K : k = 1) by (apply Nat.ltb_lt in K0; apply Nat.ltb_ge in K1; lia). rewrite K in Ek.
        cbn [app] in Hh, N. destruct (HVm P t h p f lo hi ann outs rest g Eg (eq_sym Ek)) as (h' & M & E' & Sh & Ho & Gr); auto; [congruence|].
        assert (Q : exists out', cont (Gone g) gl = Ok out' /\ out = transplant (shape t) g :: out').
        { cbn [cont]. destruct gl as [|[c2 n2] gl]; [injection Ec as <-; eauto|]. destruct ((0 <? n2) && adjacent_splits g c2); [discriminate|].
          apply bind_ok_inv in Ec as [r [Er Ec]]. injection Ec as <-. eauto. }
        destruct Q as [out' [Q1 ->]]. exists h', (Gone g), (outs ++ [M]), out'. cbn [cur_of app st_ok]. rewrite <- app_assoc. cbn [app]. splits; auto.
        * exists G. auto.
        * rewrite map_app, <- app_assoc. cbn. now rewrite Sh.
      + apply bind_ok_inv in Ec as [r [Er Ec]]. injection Ec as <-.
        destruct (Stay (outs ++ [t])) as (h' & G' & E' & Ho & Gr & Sh & Rt); [auto| |].
        { apply (no_hooks (Some P) (adjacent_splits (shape t) g) G k); auto. }
        exists h', (Prev G'), (outs ++ [t]), r. splits; auto; cbn [st_ok cont]; [eauto|now rewrite Sh|]. rewrite map_app, <- app_assoc. reflexivity.
    - destruct Hs as [P [-> [Pa Ph]]]. destruct ((0 <? k) && adjacent_splits c g) eqn:Em; [discriminate|].
      assert (Ea : adjacent_splits (shape P) (shape G) = adjacent_splits c g).
      { symmetry. apply adjacent_same; rewrite ?shape_ann, ?shape_hi, ?shape_lo; auto. }
      destruct (Stay outs) as (h' & G' & E' & Ho & Gr & Sh & Rt); [now rewrite app_nil_r| |].
      { apply (no_hooks (Some P) (adjacent_splits c g) G k); auto. }
      exists h', (Prev G'), outs, out. splits; auto; cbn [st_ok cont]; [eauto|now rewrite Sh].
  Qed.

  Lemma loop l1 : Forall (fun G => Vn G /\ Vm G) l1 -> forall gl1 gl2 l2 h p f lo hi ann outs s pf out, Forall2 fn l1 gl1 -> st_ok s pf ->
    cont s (gl1 ++ gl2) = Ok out ->
    holds h p (LNode f lo hi ann (outs ++ cur_of s ++ l1 ++ l2)) -> NoDup (addrs (LNode f lo hi ann (outs ++ cur_of s ++ l1 ++ l2))) ->
    exists h' s' outs' out', heap_transplants (li pf l1) h = Some (Ok h') /\
      holds h' p (LNode f lo hi ann (outs' ++ cur_of s' ++ l2)) /\
      grown h h' (addrs (LNode f lo hi ann (outs ++ cur_of s ++ l1 ++ l2))) (addrs (LNode f lo hi ann (outs' ++ cur_of s' ++ l2))) /\
      st_ok s' (after pf l1) /\ cont s' gl2 = Ok out' /\ map shape outs ++ out = map shape outs' ++ out'.
  Proof.
    induction l1 as [|G l1 IH]; intros HV gl1 gl2 l2 h p f lo hi ann outs s pf out F Hs Ec Hh N.
    - inversion F; subst. exists h, s, outs, out. cbn [li heap_transplants app after fold_left] in *. splits; auto. now apply grown_refl.
    - apply Forall_cons_iff in HV as [[Vn1 Vm1] HV]. inversion F as [|G0 gk l0 gl F1 Fl]; subst. cbn [app] in *.
      destruct (step G gk (gl ++ gl2) (l1 ++ l2) h p f lo hi ann outs s pf out Vn1 Vm1 F1 Hs Ec Hh N) as (h1 & s1 & outs1 & out1 & E1 & H1 & G1 & S1 & C1 & O1).
      destruct (IH HV gl gl2 l2 h1 p f lo hi ann outs1 s1 (Some G) out1 Fl S1 C1 H1) as (h2 & s2 & outs2 & out2 & E2 & H2 & G2 & S2 & C2 & O2).
      { apply G1. }
      exists h2, s2, outs2, out2. cbn [li after fold_left]. rewrite transplants_app, E1. cbn [obind]. splits; auto; [|congruence].
      exact (grown_trans _ _ _ _ _ _ G1 G2).
  Qed.
  Lemma cont_nil s out : cont s [] = Ok out -> out = map shape (cur_of s).
  Proof. destruct s; cbn; now intros [= <-]. Qed.
  Lemma fn_kids a lo hi ann kids g : sub_match tokens sub (shape (LNode a lo hi ann kids)) = Ok g ->
    exists gl out, Forall2 fn kids gl /\ transplant_children gl = Ok out /\ g = PNode lo hi ann out.
  Proof.
    cbn [shape]. rewrite sub_match_eq. intros E. apply bind_ok_inv in E as [counts [Ec E]]. apply bind_ok_inv in E as [cs' [Es E]].
    apply bind_ok_inv in E as [out [Eo E]]. injection E as <-. exists (combine cs' counts), out. splits; auto.
    clear Eo. revert counts cs' Ec Es. induction kids as [|G l IH]; intros counts cs' Ec Es; cbn [map mapM] in Ec, Es.
    - injection Ec as <-. injection Es as <-. exact (Forall2_nil _).
    - apply bind_ok_inv in Ec as [k [Ek Ec]]. apply bind_ok_inv in Ec as [ks [Eks Ec]]. injection Ec as <-.
      apply bind_ok_inv in Es as [g [Eg Es]]. apply bind_ok_inv in Es as [gs [Egs Es]]. injection Es as <-. cbn [combine]. apply Forall2_cons; auto.
      split; auto.
  Qed.
  Lemma one_sp l : length (filter sp l) = 1 -> exists l1 G l2, l = l1 ++ G :: l2 /\ sp G = true /\
    (forall D, In D l1 -> sp D = false) /\ (forall D, In D l2 -> sp D = false).
  Proof.
    induction l as [|D l IH]; cbn [filter]; intros E; [discriminate|]. destruct (sp D) eqn:Es.
    - exists [], D, l. splits; auto; [intros ? []|]. intros G I. destruct (sp G) eqn:Eg; auto. injection E as E.
      assert (Q : In G (filter sp l)) by (apply filter_In; auto). destruct (filter sp l); [destruct Q|discriminate].
    - destruct (IH E) as (l1 & G & l2 & -> & Eg & A & B). exists (D :: l1), G, l2. splits; auto. intros D' [<-|I]; auto.
  Qed.
  Lemma F2_app_inv {A B} (R : A -> B -> Prop) l1 l2 m : Forall2 R (l1 ++ l2) m -> exists m1 m2, m = m1 ++ m2 /\ Forall2 R l1 m1 /\ Forall2 R l2 m2.
  Proof. intros F. apply Forall2_app_inv_l in F as (m1 & m2 & F1 & F2 & E). eauto. Qed.

  Theorem V_all F : Vn F /\ Vm F.
  Proof.
    induction F as [f lo hi ann kids IH] using ltree_ind'. split.
    - intros pf h p g Eg Hk Hh N. destruct (fn_kids _ _ _ _ _ _ Eg) as (gl & out & Fl & Eo & ->).
      destruct (loop kids IH gl [] [] h p f lo hi ann [] Start None out Fl eq_refl) as (h' & s' & outs' & out' & E1 & H1 & G1 & S1 & C1 & O1);
        rewrite ?app_nil_r in *; auto.
      apply cont_nil in C1. subst out'. exists h', (LNode f lo hi ann (outs' ++ cur_of s')). rewrite lv_eq. cbn [l_kids].
      rewrite lvh_free by exact Hk. unfold same_rt. cbn [shape addr l_lo l_hi l_ann]. rewrite map_app. cbn [map app] in O1. rewrite <- O1. splits; auto.
    - intros P cur h q c clo chi cann pre post g Eg K Adj Ea Hh N. cbn [l_kids] in K. destruct (one_sp kids K) as (l1 & G & l2 & -> & Sg & A1 & A2).
      set (F := LNode f lo hi ann (l1 ++ G :: l2)) in *.
      destruct (fn_kids _ _ _ _ _ _ Eg) as (gl & out & Fl & Eo & ->). apply F2_app_inv in Fl as (gl1 & gl2 & -> & Fl1 & Fl2).
      apply Forall_app in IH as [IH1 IH2].
      assert (Hl : lv (Some P) F = li None l1 ++ (f, addr P) :: li (after None l1) (G :: l2)).
      { rewrite lv_eq. cbn [F l_kids]. rewrite lvh_app. f_equal.
        - apply lvh_free. intros D I. unfold hook. now rewrite (A1 D I).
        - cbn [lvh li]. unfold hook at 1. rewrite Sg, Adj. cbn [andb app addr F]. f_equal. f_equal. apply lvh_free. intros D I. unfold hook. now rewrite (A2 D I). }
      set (K1 := CNode c clo chi cann (pre ++ [cur]) Hole post).
      assert (EK1 : forall X, fill K1 X = LNode c clo chi cann (pre ++ cur :: X :: post)) by (intros X; cbn [fill K1]; now rewrite <- app_assoc).
      rewrite <- EK1 in Hh, N |- *. destruct (fill_step _ _ _ _ Hh N) as [NF [p [Hp Re]]].
      destruct (loop l1 IH1 gl1 gl2 (G :: l2) h p f lo hi ann [] Start None out Fl1 eq_refl Eo Hp NF) as (h1 & s1 & outs1 & out1 & E1 & H1 & G1 & S1 & C1 & O1).
      set (F1 := LNode f lo hi ann (outs1 ++ cur_of s1 ++ G :: l2)) in *.
      destruct (Re h1 F1 eq_refl H1 G1) as [Hh1 Gr1]. assert (N1 : NoDup (addrs (fill K1 F1))) by apply Gr1.
      rewrite EK1 in Hh1, N1. destruct (transplant_heap h1 q c clo chi cann pre cur F1 post Hh1 N1) as (h2 & E2 & Hh2 & Gr2).
      set (m := length h1) in *.
      set (K2 := CNode c clo chi cann pre (CNode (addr cur) (l_lo cur) hi (l_ann cur) [LNode m (l_lo cur) (l_hi cur) ASplit (l_kids cur)] Hole []) post).
      assert (EK2 : LNode c clo chi cann (pre ++ moved cur F1 m :: post) = fill K2 F1) by reflexivity.
      rewrite EK2 in Hh2, Gr2. assert (N2 : NoDup (addrs (fill K2 F1))) by apply Gr2.
      destruct (fill_step _ _ _ _ Hh2 N2) as [NF2 [p2 [Hp2 Re2]]].
      destruct (loop (G :: l2) IH2 gl2 [] [] h2 p2 f lo hi ann outs1 s1 (after None l1) out1 Fl2 S1) as (h3 & s3 & outs3 & out3 & E3 & H3 & G3 & S3 & C3 & O3).
      { now rewrite app_nil_r. } { now rewrite app_nil_r. } { now rewrite app_nil_r. }
      rewrite !app_nil_r in *. apply cont_nil in C3. subst out3. set (F3 := LNode f lo hi ann (outs3 ++ cur_of s3)) in *.
      destruct (Re2 h3 F3 eq_refl H3 G3) as [Hh3 Gr3].
      exists h3, (moved cur F3 m). splits.
      + rewrite Hl, transplants_app, E1. cbn [obind heap_transplants]. rewrite <- Ea. change f with (addr F1). rewrite E2. cbn [obind]. exact E3.
      + rewrite moved_shape. f_equal. cbn [shape F3]. rewrite map_app. cbn [map app] in O1. rewrite O1, O3. reflexivity.
      + exact Hh3.
      + eapply grown_trans; [exact Gr1|]. rewrite EK1. eapply grown_trans; [exact Gr2|]. exact Gr3.
  Qed.
End Nest.
