(** Proofs that the linked nodes yield the transplants of the tree, and that [split_parse] on linked nodes gives the
    tree of the functional model. *)

From Coq Require Import List Bool Arith Lia Permutation.
From Verif Require Import Base StackParser StackParserProofs HeapTree LinkSpec HeapProofs HeapSplitProofs HeapNestProofs.
Import ListNotations.

Lemma index_of_mid x l m : ~ In x l -> index_of x (l ++ x :: m) = Some (length l).
Proof.
  induction l as [|y l IH]; cbn; intros N.
  - now rewrite Nat.eqb_refl.
  - destruct (Nat.eqb_spec x y) as [->|D]; [exfalso; auto|]. now rewrite IH by auto.
Qed.
Lemma after_snoc pf l F : after pf (l ++ [F]) = Some F.
Proof. unfold after. now rewrite fold_left_app. Qed.

Lemma destruct_last {A} (l : list A) : l = [] \/ exists l0 x, l = l0 ++ [x].
Proof. induction l as [|y l _] using rev_ind; eauto. Qed.

Section Yield.
  Context {T : Type} `{EqDec T}.
  Variables (tokens : list T) (sub : T * T).
  Notation wf := (well_formed (length tokens)).

  Lemma sub_pair_ok n : wf n -> exists b, is_sub_pair tokens sub n = Ok b /\ (b = true -> exists h, p_hi n = Some h /\ p_lo n < h).
  Proof.
    intros Hw. unfold is_sub_pair. inversion Hw as [lo hi ann cs W1 W2 W3 W4 W5]; subst. cbn [p_ann p_children p_hi p_lo].
    destruct (eqb ann APaired) eqn:Ea; [|exists false; split; [auto|discriminate]]. apply eqb_eq in Ea.
    destruct (W5 Ea) as (l & m & r & -> & El & Er & _). destruct W3 as [W3|W3]; [discriminate|].
    destruct (tiles_In _ _ _ l W3 ltac:(cbn; auto)) as (hl & Ehl & Bl & Cl & _). destruct (tiles_In _ _ _ r W3 ltac:(cbn; auto)) as (hr & Ehr & Br & Cr & _).
    unfold p_len in El, Er. rewrite Ehl in El. rewrite Ehr in Er. injection El as El. injection Er as Er. rewrite Ehr. unfold token_at.
    destruct (nth_error tokens (p_lo l)) eqn:E1; [|apply nth_error_None in E1; lia]. cbn [bind].
    destruct (nth_error tokens (hr - 1)) eqn:E2; [|apply nth_error_None in E2; lia]. cbn [bind].
    eexists. split; [reflexivity|]. intros _. exists hi. split; auto. lia.
  Qed.

  (** The part of [heap_yield] that follows the parents. *)
  Definition follow (h : heap) (p : option nat) : option (result (list (nat * nat))) :=
    match p with
    | None => Some (Ok [])
    | Some new_child =>
        let? cn := node_at h new_child in
        match c_parent cn with
        | None => Some (Ok [])
        | Some grand_parent =>
            let? cg := node_at h grand_parent in
            match index_of new_child (c_children cg) with
            | None => Some (Err ValueError)
            | Some i =>
                match before (c_children cg) i with
                | None => Some (Err IndexError)
                | Some new_parent =>
                    let? cp := node_at h new_parent in
                    Some (Ok (if eqb (c_ann cn) ASplit && eqb (c_ann cp) ASplit && eqb (c_hi cp) (Some (c_lo cn))
                              then [(new_child, new_parent)] else []))
                end
            end
        end
    end.
  Lemma yield_shape h p t : holds h p t -> heap_yield tokens sub h (cell_of p t) =
    match is_sub_pair tokens sub (shape t) with Err e => Some (Err e) | Ok b => if b then follow h p else Some (Ok []) end.
  Proof.
    destruct t as [a lo hi ann kids]. intros S. apply holds_eq in S as [_ K]. unfold heap_yield, is_sub_pair, cell_of.
    cbn [c_ann c_children c_parent l_ann l_kids shape p_ann p_children].
    destruct (eqb ann APaired); auto. destruct kids as [|t1 [|t2 [|t3 [|t4 kids]]]]; cbn [map]; auto.
    apply Forall_cons_iff in K as [K1 K]. apply Forall_cons_iff in K as [_ K]. apply Forall_cons_iff in K as [K3 _].
    rewrite (holds_node h _ t1 K1), (holds_node h _ t3 K3). cbn [obind]. rewrite shape_lo, shape_hi. unfold cell_of. cbn [c_lo c_hi].
    destruct (token_at tokens (l_lo t1)); cbn [bind obind]; auto; destruct (l_hi t3); cbn [bind obind]; auto;
    destruct (token_at tokens _); cbn [bind obind]; auto.
  Qed.

  (** What a node sees of its left neighbour. *)
  Definition sit (h : heap) (q : option nat) (prev : option ltree) (C : ltree) : Prop :=
    match q with
    | None => prev = None
    | Some g => exists cg i np cp, nth_error h g = Some cg /\ index_of (addr C) (c_children cg) = Some i /\ before (c_children cg) i = Some np /\
        nth_error h np = Some cp /\
        match prev with
        | Some P => np = addr P /\ c_ann cp = l_ann P /\ c_hi cp = l_hi P
        | None => forall F, In F (l_kids C) -> sp tokens sub F = true -> c_hi cp <> Some (l_lo C)
        end
    end.
  Lemma yield_hook h C q prev F : holds h q C -> In F (l_kids C) -> sit h q prev C -> wf (shape F) ->
    heap_yield tokens sub h (cell_of (Some (addr C)) F) = Some (Ok (hook tokens sub prev C F)).
  Proof.
    intros Hh I S W. assert (HF : holds h (Some (addr C)) F).
    { destruct C as [a lo hi ann kids]. apply holds_eq in Hh as [_ K]. rewrite Forall_forall in K. exact (K F I). }
    rewrite (yield_shape h _ F HF). destruct (sub_pair_ok _ W) as [b [Eb _]]. unfold hook. unfold sp at 1. rewrite Eb. destruct b; [|now destruct prev].
    unfold follow. rewrite (holds_node h q C Hh). cbn [obind]. change (c_parent (cell_of q C)) with q. unfold sit in S. destruct q as [g|]; [|now subst prev].
    destruct S as (cg & i & np & cp & E1 & E2 & E3 & E4 & E5). unfold node_at. rewrite E1. cbn [obind]. rewrite E2, E3, E4. cbn [obind].
    change (c_ann (cell_of (Some g) C)) with (l_ann C). change (c_lo (cell_of (Some g) C)) with (l_lo C). f_equal. f_equal.
    destruct prev as [P|].
    - destruct E5 as (-> & Ea & Eh). rewrite Ea, Eh. unfold adjacent_splits. rewrite !shape_ann, shape_hi, shape_lo. cbn [andb]. reflexivity.
    - assert (Es : sp tokens sub F = true) by (unfold sp; now rewrite Eb). specialize (E5 F I Es).
      destruct (eqb (c_hi cp) (Some (l_lo C))) eqn:Q; [apply eqb_eq in Q; contradiction|]. now rewrite andb_false_r.
  Qed.
  Lemma shape_kids t : p_children (shape t) = map shape (l_kids t).
  Proof. now destruct t. Qed.
  Lemma sit_kid h q a lo hi ann l1 F l2 : holds h q (LNode a lo hi ann (l1 ++ F :: l2)) -> NoDup (addrs (LNode a lo hi ann (l1 ++ F :: l2))) ->
    wf (shape (LNode a lo hi ann (l1 ++ F :: l2))) -> sit h (Some a) (after None l1) F.
  Proof.
    intros Hh N W. apply holds_eq in Hh as [E K]. cbn [sit].
    assert (NI : ~ In (addr F) (map addr l1)).
    { intros I. apply in_map_iff in I as [u [Eu Iu]]. cbn [addrs] in N. inversion N as [|x l Nx ND]; subst. rewrite flat_map_app in ND.
      apply (NoDup_app_disjoint _ _ (addr F) ND); [apply in_flat_map; exists u; split; auto; rewrite <- Eu; apply addr_in|].
      cbn. apply in_app_iff. left. apply addr_in. }
    match type of E with _ = Some ?c => exists c end. exists (length l1). cbn [c_children].
    assert (Ei : index_of (addr F) (map addr (l1 ++ F :: l2)) = Some (length l1)).
    { rewrite map_app. cbn [map]. rewrite index_of_mid by auto. now rewrite map_length. }
    destruct (destruct_last l1) as [->|[l0 [P ->]]].
    - cbn [app after fold_left] in *. unfold before. rewrite map_length.
      assert (EL : exists L, last (F :: l2) F = L /\ In L (F :: l2) /\ nth_error (map addr (F :: l2)) (length (F :: l2) - 1) = Some (addr L)).
      { exists (last (F :: l2) F). splits; auto; [now apply last_In|]. rewrite nth_error_map.
        assert (Q : forall (l : list ltree) d, l <> [] -> nth_error l (length l - 1) = Some (last l d)).
        { clear. induction l as [|x [|y l] IH]; intros d Nl; [congruence|reflexivity|]. cbn [length Nat.sub nth_error last]. 
          specialize (IH d ltac:(discriminate)). cbn [length Nat.sub] in IH. rewrite Nat.sub_0_r in IH. exact IH. }
        now rewrite (Q (F :: l2) F) by discriminate. }
      destruct EL as [L [El [IL EL]]]. rewrite Forall_forall in K. pose proof (holds_cell _ _ _ (K L IL)) as EcL.
      exists (addr L), (cell_of (Some a) L). splits; eauto. intros D ID Es. cbn [cell_of c_hi].
      cbn [shape map] in W. inversion W as [lo0 hi0 ann0 cs W1 W2 W3 W4 W5]; subst lo0 hi ann0 cs. destruct W3 as [W3|W3]; [discriminate|].
      assert (Hl : l_hi L = Some hi0).
      { destruct (tiles_check _ _ _ W3 ltac:(discriminate)) as [_ [EL' _]]. specialize (EL' (shape F)). change (shape F :: map shape l2) with (map shape (F :: l2)) in EL'.
        rewrite last_map, shape_hi, El in EL'. exact EL'. }
      assert (Hlo : l_lo F = lo) by (inversion W3; rewrite <- shape_lo, <- H0; reflexivity || congruence).
      destruct (tiles_In _ _ _ (shape F) W3 ltac:(cbn; auto)) as (hF & EhF & BF & CF & TF). rewrite shape_kids in TF.
      destruct TF as [TF|TF]; [destruct (l_kids F); [destruct ID|discriminate]|].
      destruct (tiles_In _ _ _ (shape D) TF ltac:(now apply in_map)) as (hD & EhD & BD & CD & _).
      assert (WD : wf (shape D)).
      { apply Forall_cons_iff in W4 as [WF' _]. apply wf_children in WF'. rewrite shape_kids in WF'. rewrite Forall_forall in WF'. apply WF'. now apply in_map. }
      destruct (sub_pair_ok _ WD) as [b [Eb Hb]]. unfold sp in Es. rewrite Eb in Es. subst b. destruct (Hb eq_refl) as [h' [Eh' Lt]].
      assert (h' = hD) by congruence. subst h'. rewrite Hl, Hlo. intros [= Q]. lia.
    - rewrite after_snoc. assert (IP : In P ((l0 ++ [P]) ++ F :: l2)) by (apply in_app_iff; left; apply in_app_iff; right; now left).
      rewrite Forall_forall in K. pose proof (holds_cell _ _ _ (K P IP)) as EcP.
      exists (addr P), (cell_of (Some a) P). splits; eauto. unfold before. rewrite app_length. cbn [length]. rewrite Nat.add_1_r.
      rewrite <- app_assoc. cbn [app]. rewrite nth_error_map, nth_error_app2 by lia. now rewrite Nat.sub_diag.
  Qed.

  Lemma heap_sub_match_eq limit h a : heap_sub_match tokens sub (S limit) h a =
    (let? c := node_at h a in let? here := heap_yield tokens sub h c in
     let? below := omapM (heap_sub_match tokens sub limit h) (c_children c) in Some (Ok (here ++ concat below))).
  Proof. reflexivity. Qed.
  Lemma sub_match_kids limit : forall C h q prev, list_sum (map lsize (l_kids C)) <= limit -> holds h q C -> NoDup (addrs C) -> wf (shape C) ->
    sit h q prev C -> exists ls, omapM (heap_sub_match tokens sub limit h) (map addr (l_kids C)) = Some (Ok ls) /\ concat ls = lv tokens sub prev C.
  Proof.
    induction limit as [|limit IH]; intros C h q prev L Hh N W S.
    - rewrite lv_eq. destruct (l_kids C) as [|F l]; [exists []; auto|]. exfalso. destruct F. cbn in L. lia.
    - destruct C as [a lo hi ann kids]. cbn [l_kids] in *. rewrite lv_eq. cbn [l_kids].
      assert (G : forall l2 l1, kids = l1 ++ l2 -> exists ls, omapM (heap_sub_match tokens sub (Datatypes.S limit) h) (map addr l2) = Some (Ok ls) /\
                   concat ls = lvh tokens sub prev (LNode a lo hi ann kids) (after None l1) l2).
      { induction l2 as [|F l2 IHl]; intros l1 E; [exists []; auto|].
        assert (IF : In F kids) by (rewrite E; apply in_app_iff; right; now left).
        assert (HF : holds h (Some a) F) by (apply holds_eq in Hh as [_ K]; rewrite Forall_forall in K; auto).
        assert (WFF : wf (shape F)).
        { apply wf_children in W. cbn [shape p_children] in W. rewrite Forall_forall in W. apply W. now apply in_map. }
        assert (NF : NoDup (addrs F)) by (cbn [addrs] in N; inversion N; subst; eapply NoDup_flat_map_in; eauto).
        assert (LF : list_sum (map lsize (l_kids F)) <= limit).
        { rewrite E, map_app in L. cbn [map] in L. rewrite list_sum_app in L. destruct F. cbn in L |- *. 
          change (fold_right Nat.add 0 (map lsize kids0)) with (list_sum (map lsize kids0)) in L. unfold list_sum in *. lia. }
        destruct (IH F h (Some a) (after None l1) LF HF NF WFF) as [ls [Els Cls]].
        { subst kids. eapply sit_kid; eauto. }
        destruct (IHl (l1 ++ [F])) as [rs [Ers Crs]]; [now rewrite <- app_assoc|].
        exists ((hook tokens sub prev (LNode a lo hi ann kids) F ++ concat ls) :: rs). cbn [map omapM]. split.
        - rewrite heap_sub_match_eq, (holds_node h _ F HF). cbn [obind].
          pose proof (yield_hook h (LNode a lo hi ann kids) q prev F Hh IF S WFF) as Y. cbn [addr] in Y. rewrite Y. cbn [obind].
          change (c_children (cell_of (Some a) F)) with (map addr (l_kids F)). rewrite Els. cbn [obind]. rewrite Ers. reflexivity.
        - cbn [concat lvh]. rewrite Cls, Crs, after_snoc, <- app_assoc. reflexivity. }
      apply (G kids []). reflexivity.
  Qed.
  Theorem heap_sub_match_spec limit h R : lsize R <= limit -> holds h None R -> NoDup (addrs R) -> wf (shape R) ->
    heap_sub_match tokens sub limit h (addr R) = Some (Ok (lv tokens sub None R)).
  Proof.
    intros L Hh N W. destruct limit as [|limit]; [destruct R; cbn in L; lia|]. cbn [heap_sub_match]. rewrite (holds_node h _ R Hh). cbn [obind].
    rewrite (yield_shape h None R Hh). destruct (sub_pair_ok _ W) as [b [Eb _]]. rewrite Eb.
    assert (Ey : (if b then follow h None else Some (Ok [])) = Some (Ok [])) by now destruct b. rewrite Ey. cbn [obind].
    change (c_children (cell_of None R)) with (map addr (l_kids R)).
    destruct (sub_match_kids limit R h None None) as [ls [E1 E2]]; auto; [destruct R; cbn in L |- *; unfold list_sum in *; lia|reflexivity|].
    rewrite E1. cbn [obind app]. now rewrite E2.
  Qed.
  (** All of lines 492-494. *)
  Theorem nest_spec limit h R n : lsize R <= limit -> holds h None R -> NoDup (addrs R) -> wf (shape R) -> sub_match tokens sub (shape R) = Ok n ->
    exists l h' R', heap_sub_match tokens sub limit h (addr R) = Some (Ok l) /\ heap_transplants l h = Some (Ok h') /\
      shape R' = n /\ addr R' = addr R /\ holds h' None R' /\ grown h h' (addrs R) (addrs R').
  Proof.
    intros L Hh N W E. destruct (proj1 (V_all tokens sub R) None h None n E ltac:(auto) Hh N) as (h' & R' & E1 & E2 & E3 & E4 & E5).
    exists (lv tokens sub None R), h', R'. splits; auto; [now apply heap_sub_match_spec|apply E3].
  Qed.
End Yield.

(** * Everything *)
Fixpoint psize (n : pnode) : nat := let 'PNode _ _ _ cs := n in S (list_sum (map psize cs)).
Lemma lsize_shape t : lsize t = psize (shape t).
Proof.
  induction t as [a lo hi ann kids IH] using ltree_ind'. cbn [lsize psize shape]. f_equal. rewrite map_map. f_equal. apply map_ext_in.
  rewrite Forall_forall in IH. exact IH.
Qed.
Section All.
  Context {T : Type} `{EqDec T}.
  Variables (tokens splits : list T) (pairs : list (T * T)).
  Theorem split_parse_linked sub t h c : shows h t -> nth_error h (addr t) = Some c -> c_parent c = None ->
    well_formed (length tokens) (shape t) -> unsplit_tree (shape t) ->
    forall n, split_parse (shape t) tokens splits pairs sub = Ok n ->
    exists least, forall limit, least <= limit -> exists h' t', heap_split_parse tokens splits pairs sub limit h (addr t) = Some (Ok (h', addr t')) /\
      shape t' = n /\ holds h' None t' /\ NoDup (addrs t') /\ (forall a, In a (addrs t') -> length h <= a).
  Proof.
    intros S Ec P W U n E.
    destruct (copy_spec (lsize t) t h (le_n _) S) as (h1 & t1 & c' & Ec' & E1 & Sh1 & Ho1 & Ad1 & L1 & F1).
    assert (c' = c) by congruence. subst c'. rewrite P in Ho1.
    assert (Size1 : lsize t1 = lsize t) by (rewrite <- lsize_addrs, Ad1, seq_length; auto).
    assert (N1 : NoDup (addrs t1)) by (rewrite Ad1; apply seq_NoDup).
    assert (New1 : forall a, In a (addrs t1) -> length h <= a) by (intros a I; rewrite Ad1 in I; apply in_seq in I; lia).
    assert (Cp : forall limit, lsize t <= limit -> copy limit h (addr t) = Some (h1, addr t1)).
    { intros limit Ll. destruct (copy_spec limit t h Ll S) as (h2 & t2 & c2 & _ & E2 & _ & _ & Ad2 & _ & _).
      (* both copies are made at the end of the heap; the limit does not matter *)
      assert (Mono : forall k1 k2 hh a r, copy k1 hh a = Some r -> k1 <= k2 -> copy k2 hh a = Some r).
      { clear. induction k1 as [|k1 IH]; intros k2 hh a r E L; [discriminate|]. destruct k2 as [|k2]; [lia|]. rewrite copy_eq in *.
        destruct (nth_error hh a) as [c|]; auto. 
        assert (Q : forall l h0 r, copies k1 h0 l = Some r -> copies k2 h0 l = Some r).
        { induction l as [|x l IHl]; intros h0 r0 E0; cbn [copies] in *; auto. destruct (copy k1 h0 x) as [[h3 y]|] eqn:E3; [|discriminate].
          rewrite (IH k2 _ _ _ E3) by lia. destruct (copies k1 h3 l) as [r1|] eqn:E4; [|discriminate]. now rewrite (IHl _ _ E4). }
        destruct (copies k1 _ (c_children c)) as [r1|] eqn:E1; [|discriminate]. now rewrite (Q _ _ _ E1). }
      exact (Mono _ _ _ _ _ E1 Ll). }
    unfold split_parse in E. unfold heap_split_parse.
    destruct splits as [|s0 ss] eqn:Es.
    { injection E as <-. exists (lsize t). intros limit Ll. rewrite (Cp limit Ll). exists h1, t1. splits; auto. }
    rewrite <- Es in *. clear s0 ss Es.
    apply bind_ok_inv in E as [m [Em E]]. rewrite <- Sh1 in Em.
    assert (Sp : forall limit, lsize t <= limit -> exists h2 t2, heap_split tokens splits pairs limit h1 (addr t1) = Some (Ok h2) /\ shape t2 = m /\
               same_root t1 t2 /\ holds h2 None t2 /\ grown h1 h2 (addrs t1) (addrs t2)).
    { intros limit Ll. pose proof (heap_split_spec tokens splits pairs limit t1 h1 None ltac:(lia) Ho1 N1) as Q. rewrite Em in Q. exact Q. }
    assert (Up : forall h0 o nw, grown h1 h0 o nw -> (forall a, In a o -> length h <= a) -> forall a, In a nw -> length h <= a).
    { intros h0 o nw (_ & _ & _ & Wn & _) Hb a I. destruct (Wn a I); auto. lia. }
    destruct sub as [s|].
    - assert (Wm : well_formed (length tokens) m).
      { rewrite Sh1 in Em. destruct (split_node_spec tokens splits pairs (shape t) W U) as [m' [Em' [Wm' _]]]. congruence. }
      exists (lsize t + psize m). intros limit Ll. rewrite (Cp limit) by lia. destruct (Sp limit ltac:(lia)) as (h2 & t2 & E2 & Sh2 & Sr & Ho2 & Gr2). rewrite E2. cbn [obind].
      assert (Sz : lsize t2 = psize m) by (rewrite <- Sh2; apply lsize_shape).
      assert (N2 : NoDup (addrs t2)) by apply Gr2.
      destruct (nest_spec tokens s limit h2 t2 n ltac:(lia) Ho2 N2) as (l & h3 & t3 & E3 & E4 & Sh3 & A3 & Ho3 & Gr3); [now rewrite Sh2|now rewrite Sh2|].
      assert (A2 : addr t2 = addr t1) by apply Sr. rewrite A2 in E3. rewrite E3. cbn [obind]. rewrite E4. cbn [obind].
      exists h3, t3. rewrite A3, A2. splits; auto; [apply Gr3|]. intros a I. exact (Up h3 _ _ (grown_trans _ _ _ _ _ _ Gr2 Gr3) New1 a I).
    - injection E as <-. exists (lsize t). intros limit Ll. rewrite (Cp limit Ll). destruct (Sp limit Ll) as (h2 & t2 & E2 & Sh2 & Sr & Ho2 & Gr2). rewrite E2. cbn [obind].
      exists h2, t2. assert (A2 : addr t2 = addr t1) by apply Sr. rewrite A2. splits; auto; [apply Gr2|]. intros a I. exact (Up h2 _ _ Gr2 New1 a I).
  Qed.
End All.
