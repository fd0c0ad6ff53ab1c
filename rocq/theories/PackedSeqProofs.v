(** Proofs about packed trees: losslessness, preorder indices, paths,
    traversals, depth. *)

From Coq Require Import List Bool Arith Lia.
From Verif Require Import Base SeqNodes Transforms PackedSeq.
Import ListNotations.

Lemma Forall2_impl {A B} (P Q : A -> B -> Prop) l1 l2 :
  (forall a b, P a b -> Q a b) -> Forall2 P l1 l2 -> Forall2 Q l1 l2.
Proof. intros HPQ F. induction F; constructor; auto. Qed.

Section P.
  Context {M : Type}.
  Notation N := (node M).
  Notation L := (lnode M).
  Notation storage := (storage M).

  (** A labelled tree whose labels point at its contents in [S]. *)
  Inductive placed (S : storage) : L -> Prop :=
  | PlDeco i t j : cat i = CDeco -> idx i = Some j -> nth_error (decos S) j = Some t ->
                   placed S (LDeco i t)
  | PlToken i t m j : cat i = CToken -> idx i = Some j -> nth_error (tokens S) j = Some (t, m) ->
                      placed S (LToken i t m)
  | PlStart i : cat i = CStart -> placed S (LStart i)
  | PlEnd i : cat i = CEnd -> placed S (LEnd i)
  | PlExit i : cat i = CExit -> placed S (LExit i)
  | PlGroup i cs m j : cat i = CGroup -> idx i = Some j ->
                       nth_error (groups S) j = Some (map label cs, m) ->
                       Forall (placed S) cs -> placed S (LGroup i cs m).

  Lemma lab_placed S (n : N) : forall p d t g D0 D1 T0 T1 G0 G1,
    length D0 = d -> length T0 = t -> length G0 = g ->
    decos S = D0 ++ decos_of (lab p d t g n) ++ D1 ->
    tokens S = T0 ++ tokens_of (lab p d t g n) ++ T1 ->
    groups S = G0 ++ groups_of (lab p d t g n) ++ G1 ->
    placed S (lab p d t g n).
  Proof.
    induction n as [x|x mm| | | |cs m IH] using node_ind';
      intros p d t g D0 D1 T0 T1 G0 G1 Hd Ht Hg ED ET EG.
    - eapply PlDeco; try reflexivity. rewrite ED, <- Hd. apply nth_error_app_here.
    - eapply PlToken; try reflexivity. rewrite ET, <- Ht. apply nth_error_app_here.
    - now apply PlStart.
    - now apply PlEnd.
    - now apply PlExit.
    - rewrite lab_group in *. cbn [decos_of tokens_of groups_of] in *.
      eapply PlGroup; try reflexivity.
      + rewrite EG, <- Hg. apply nth_error_app_here.
      + assert (Hl : forall l, Forall (fun n => forall p d t g D0 D1 T0 T1 G0 G1,
                    length D0 = d -> length T0 = t -> length G0 = g ->
                    decos S = D0 ++ decos_of (lab p d t g n) ++ D1 ->
                    tokens S = T0 ++ tokens_of (lab p d t g n) ++ T1 ->
                    groups S = G0 ++ groups_of (lab p d t g n) ++ G1 ->
                    placed S (lab p d t g n)) l ->
          forall p d t g D0 D1 T0 T1 G0 G1,
          length D0 = d -> length T0 = t -> length G0 = g ->
          decos S = D0 ++ flat_map decos_of (labs p d t g l) ++ D1 ->
          tokens S = T0 ++ flat_map tokens_of (labs p d t g l) ++ T1 ->
          groups S = G0 ++ flat_map groups_of (labs p d t g l) ++ G1 ->
          Forall (placed S) (labs p d t g l)).
        { clear. intros l HF. induction HF as [|c l Hc HF IHl];
            intros p d t g D0 D1 T0 T1 G0 G1 Hd Ht Hg ED ET EG; [constructor|].
          cbn [labs flat_map] in *. rewrite <- !app_assoc in ED, ET, EG.
          destruct (size_erase_lens p d t g c) as [_ [S2 [S3 S4]]].
          constructor.
          - eapply Hc; eauto.
          - eapply IHl with (D0 := D0 ++ decos_of (lab p d t g c))
              (T0 := T0 ++ tokens_of (lab p d t g c)) (G0 := G0 ++ groups_of (lab p d t g c));
              rewrite ?app_length; try lia; rewrite <- ?app_assoc; eauto. }
        eapply Hl with (G0 := G0 ++ [(map label (labs (Datatypes.S p) d t (Datatypes.S g) cs), m)]);
          try eassumption.
        * rewrite app_length. simpl. lia.
        * rewrite EG. rewrite <- app_assoc. reflexivity.
  Qed.
  Lemma labs_placed S (l : list N) : forall p d t g D0 D1 T0 T1 G0 G1,
    length D0 = d -> length T0 = t -> length G0 = g ->
    decos S = D0 ++ flat_map decos_of (labs p d t g l) ++ D1 ->
    tokens S = T0 ++ flat_map tokens_of (labs p d t g l) ++ T1 ->
    groups S = G0 ++ flat_map groups_of (labs p d t g l) ++ G1 ->
    Forall (placed S) (labs p d t g l).
  Proof.
    induction l as [|c l IHl]; intros p d t g D0 D1 T0 T1 G0 G1 Hd Ht Hg ED ET EG; [constructor|].
    cbn [labs flat_map] in *. rewrite <- !app_assoc in ED, ET, EG.
    destruct (size_erase_lens p d t g c) as [_ [S2 [S3 S4]]].
    constructor.
    - eapply lab_placed; eauto.
    - eapply IHl with (D0 := D0 ++ decos_of (lab p d t g c))
        (T0 := T0 ++ tokens_of (lab p d t g c)) (G0 := G0 ++ groups_of (lab p d t g c));
        rewrite ?app_length; try lia; rewrite <- ?app_assoc; eauto.
  Qed.
  Lemma pack_placed (ns : list N) : Forall (placed (pack ns)) (labelled ns).
  Proof.
    rewrite pack_labelled. cbn zeta.
    apply (labs_placed _ ns 0 0 0 0 [] [] [] [] [] []); auto; cbn [app];
      rewrite app_nil_r; reflexivity.
  Qed.

  (** Height bounds the recursion. *)
  Fixpoint height (x : L) : nat :=
    match x with LGroup _ cs _ => S (list_max (map height cs)) | _ => 1 end.
  Lemma list_max_In k l : In k l -> k <= list_max l.
  Proof.
    intros Hk. pose proof (proj1 (list_max_le l (list_max l)) (le_n _)) as F.
    rewrite Forall_forall in F. auto.
  Qed.
  Lemma height_pre (x : L) : height x <= length (pre_of x).
  Proof.
    induction x as [| | | | |i cs m IH] using lnode_ind'; try (simpl; lia).
    cbn [height pre_of length]. apply le_n_S. apply list_max_le. apply Forall_forall.
    intros k Hk. apply in_map_iff in Hk as [c [<- Hc]]. rewrite Forall_forall in IH.
    specialize (IH c Hc). apply in_split in Hc as [l1 [l2 ->]].
    rewrite flat_map_app. cbn [flat_map]. rewrite !app_length. lia.
  Qed.
  Lemma height_fuel (ns : list N) x : In x (labelled ns) -> height x <= fuel_of (pack ns).
  Proof.
    intros Hx. unfold fuel_of. rewrite pack_labelled. cbn zeta. cbn [preorder_traversal].
    pose proof (height_pre x). apply in_split in Hx as [l1 [l2 ->]].
    rewrite flat_map_app. cbn [flat_map]. rewrite !app_length. lia.
  Qed.

  Lemma mapM_labels {B} (f : node_id -> result B) (g : L -> B) (cs : list L) :
    (forall c, In c cs -> f (label c) = Ok (g c)) ->
    mapM f (map label cs) = Ok (map g cs).
  Proof.
    induction cs as [|c cs IH]; intros Hf; auto. cbn [map mapM].
    rewrite Hf by (simpl; auto). cbn [bind]. rewrite IH by (intros; apply Hf; simpl; auto).
    reflexivity.
  Qed.
  Lemma height_child i (cs : list L) m c f : In c cs -> height (LGroup i cs m) <= S f -> height c <= f.
  Proof.
    intros Hc. cbn [height]. pose proof (list_max_In (height c) (map height cs) (in_map _ _ _ Hc)). lia.
  Qed.

  Lemma placed_inv S (x : L) : placed S x ->
    match x with
    | LDeco i t => cat i = CDeco /\ lookup (decos S) (idx i) = Ok t
    | LToken i t m => cat i = CToken /\ lookup (tokens S) (idx i) = Ok (t, m)
    | LStart i => cat i = CStart
    | LEnd i => cat i = CEnd
    | LExit i => cat i = CExit
    | LGroup i cs m => cat i = CGroup /\ lookup (groups S) (idx i) = Ok (map label cs, m) /\
                       Forall (placed S) cs
    end.
  Proof.
    intros Hp. inversion Hp as [i t j E1 E2 E3|i t m j E1 E2 E3|i E1|i E1|i E1|i cs m j E1 E2 E3 F];
      subst; auto; rewrite E2; simpl; rewrite E3; auto.
  Qed.

  Lemma build_placed S (x : L) : forall f, placed S x -> height x <= f ->
    build f S (label x) = Ok (erase x).
  Proof.
    induction x as [i t|i t m|i|i|i|i cs m IH] using lnode_ind'; intros f Hp Hf;
      (destruct f as [|f]; [simpl in Hf; lia|]); apply placed_inv in Hp; cbn [build label].
    - destruct Hp as [-> ->]. reflexivity.
    - destruct Hp as [-> ->]. reflexivity.
    - now rewrite Hp.
    - now rewrite Hp.
    - now rewrite Hp.
    - destruct Hp as [-> [-> F]]. cbn [bind fst snd].
      rewrite (mapM_labels _ erase); [reflexivity|].
      intros c Hc. rewrite Forall_forall in IH, F. apply IH; auto.
      eapply height_child; eauto.
  Qed.
  Lemma render_placed S (x : L) : forall f, placed S x -> height x <= f ->
    render_id f S (label x) = Ok (render_node (erase x)).
  Proof.
    induction x as [i t|i t m|i|i|i|i cs m IH] using lnode_ind'; intros f Hp Hf;
      (destruct f as [|f]; [simpl in Hf; lia|]); apply placed_inv in Hp; cbn [render_id label].
    - destruct Hp as [-> ->]. reflexivity.
    - destruct Hp as [-> ->]. reflexivity.
    - now rewrite Hp.
    - now rewrite Hp.
    - now rewrite Hp.
    - destruct Hp as [-> [-> F]]. cbn [bind fst snd].
      rewrite (mapM_labels _ (fun c => render_node (erase c))).
      + cbn [bind erase render_node]. now rewrite map_map.
      + intros c Hc. rewrite Forall_forall in IH, F. apply IH; auto.
        eapply height_child; eauto.
  Qed.

  Lemma unpack_pack (ns : list N) : unpack (pack ns) = Ok ns.
  Proof.
    unfold unpack. replace (root_sequence (pack ns)) with (map label (labelled ns))
      by now rewrite pack_labelled.
    rewrite (mapM_labels _ erase).
    - f_equal. apply erase_labs.
    - intros c Hc. apply build_placed; [|now apply height_fuel].
      pose proof (pack_placed ns) as F. rewrite Forall_forall in F. auto.
  Qed.
  Lemma render_pack (ns : list N) :
    render_ids (pack ns) (root_sequence (pack ns)) = Ok (render ns).
  Proof.
    unfold render_ids. replace (root_sequence (pack ns)) with (map label (labelled ns))
      by now rewrite pack_labelled.
    rewrite (mapM_labels _ (fun c => render_node (erase c))).
    - cbn [bind]. unfold render. rewrite <- (map_map erase render_node).
      unfold labelled. now rewrite erase_labs.
    - intros c Hc. apply render_placed; [|now apply height_fuel].
      pose proof (pack_placed ns) as F. rewrite Forall_forall in F. auto.
  Qed.

  (** *** Preorder walk of a labelled forest. *)
  Fixpoint lwalk (p : path) (x : L) {struct x} : list (path * L) :=
    (p, x) :: match x with
              | LGroup _ cs _ =>
                  (fix go (k : nat) (l : list L) : list (path * L) :=
                     match l with
                     | [] => []
                     | c :: l' => lwalk (p ++ [k]) c ++ go (S k) l'
                     end) 0 cs
              | _ => []
              end.
  Fixpoint lwalks (p : path) (k : nat) (l : list L) : list (path * L) :=
    match l with
    | [] => []
    | c :: l' => lwalk (p ++ [k]) c ++ lwalks p (S k) l'
    end.
  Lemma lwalk_group p i cs m : lwalk p (LGroup i cs m) = (p, LGroup i cs m) :: lwalks p 0 cs.
  Proof.
    cbn [lwalk]. f_equal. generalize 0. induction cs as [|c cs IH]; intros; auto.
    cbn [lwalks]. now rewrite IH.
  Qed.
  Definition lab_of (e : path * L) : node_id := label (snd e).
  Definition node_of (e : path * L) : N * path := (erase (snd e), fst e).

  Lemma lwalk_pre (x : L) : forall p, map lab_of (lwalk p x) = pre_of x.
  Proof.
    induction x as [i t|i t m|i|i|i|i cs m IH] using lnode_ind'; intros p; try reflexivity.
    rewrite lwalk_group. cbn [map pre_of]. f_equal.
    generalize 0. induction IH as [|c l Hc HF IHl]; intros k; auto.
    cbn [lwalks flat_map]. now rewrite map_app, Hc, IHl.
  Qed.
  Lemma lwalks_pre (l : list L) : forall p k, map lab_of (lwalks p k l) = flat_map pre_of l.
  Proof.
    induction l as [|c l IHl]; intros; auto. cbn [lwalks flat_map].
    now rewrite map_app, lwalk_pre, IHl.
  Qed.
  Lemma lwalk_walk (x : L) : forall p,
    map node_of (lwalk p x) = map fst (walk_node true false p (erase x)).
  Proof.
    induction x as [i t|i t m|i|i|i|i cs m IH] using lnode_ind'; intros p; try reflexivity.
    rewrite lwalk_group. cbn [erase]. rewrite walk_node_group, app_nil_r. cbn [map app].
    f_equal. generalize 0. induction IH as [|c l Hc HF IHl]; intros k; auto.
    cbn [lwalks walk_list map]. now rewrite !map_app, Hc, IHl.
  Qed.
  Lemma lwalks_walk (l : list L) : forall p k,
    map node_of (lwalks p k l) = map fst (walk_list true false p k (map erase l)).
  Proof.
    induction l as [|c l IHl]; intros; auto. cbn [lwalks map walk_list].
    now rewrite !map_app, lwalk_walk, IHl.
  Qed.

  (** Preorder indices are consecutive. *)
  Lemma pre_of_seq (n : N) : forall p d t g,
    map pre (pre_of (lab p d t g n)) = seq p (size n).
  Proof.
    induction n as [x|x mm| | | |cs m IH] using node_ind'; intros p d t g; try reflexivity.
    rewrite lab_group. cbn [pre_of map label pre size seq]. f_equal.
    generalize (S p) d t (S g). clear p d t g.
    induction IH as [|c l Hc HF IHl]; intros p d t g; auto.
    cbn [labs flat_map map list_sum fold_right].
    rewrite map_app, Hc, seq_app. f_equal. apply IHl.
  Qed.
  Lemma pre_of_seqs (l : list N) : forall p d t g,
    map pre (flat_map pre_of (labs p d t g l)) = seq p (list_sum (map size l)).
  Proof.
    induction l as [|c l IHl]; intros p d t g; auto.
    cbn [labs flat_map map list_sum fold_right].
    rewrite map_app, pre_of_seq, seq_app. f_equal. apply IHl.
  Qed.

  (** Node at a relative path. *)
  Inductive lsub : L -> path -> L -> Prop :=
  | ls_here x : lsub x [] x
  | ls_child i cs m j y q x :
      nth_error cs j = Some y -> lsub y q x -> lsub (LGroup i cs m) (j :: q) x.

  Lemma lwalk_sub (x : L) : forall p e, In e (lwalk p x) ->
    exists q, fst e = p ++ q /\ lsub x q (snd e).
  Proof.
    induction x as [i t|i t m|i|i|i|i cs m IH] using lnode_ind'; intros p e He;
      try (simpl in He; destruct He as [<-|[]]; exists []; simpl; rewrite app_nil_r;
           split; [reflexivity|apply ls_here]).
    rewrite lwalk_group in He. destruct He as [<-|He].
    - exists []. rewrite app_nil_r. split; [reflexivity|apply ls_here].
    - assert (Hl : forall l k, Forall (fun x => forall p e, In e (lwalk p x) ->
                      exists q, fst e = p ++ q /\ lsub x q (snd e)) l ->
                In e (lwalks p k l) ->
                exists j y q, nth_error l j = Some y /\ fst e = p ++ (k + j) :: q /\ lsub y q (snd e)).
      { clear. induction l as [|c l IHl]; intros k HF He; [destruct He|].
        inversion HF as [|? ? Hc HF']; subst. cbn [lwalks] in He.
        apply in_app_or in He as [He|He].
        - apply Hc in He as [q [Eq Hs]]. exists 0, c, q. splits; auto.
          rewrite Eq, <- app_assoc, Nat.add_0_r. reflexivity.
        - apply IHl in He as [j [y [q [E1 [E2 E3]]]]]; auto.
          exists (S j), y, q. splits; auto. rewrite E2. do 2 f_equal. lia. }
      apply Hl in He as [j [y [q [E1 [E2 E3]]]]]; auto.
      exists (j :: q). split; auto. eapply ls_child; eauto.
  Qed.
  Lemma lwalks_sub (l : list L) p e : forall k, In e (lwalks p k l) ->
    exists j y q, nth_error l j = Some y /\ fst e = p ++ (k + j) :: q /\ lsub y q (snd e).
  Proof.
    induction l as [|c l IHl]; intros k He; [destruct He|].
    cbn [lwalks] in He. apply in_app_or in He as [He|He].
    - apply lwalk_sub in He as [q [Eq Hs]]. exists 0, c, q. splits; auto.
      rewrite Eq, <- app_assoc, Nat.add_0_r. reflexivity.
    - apply IHl in He as [j [y [q [E1 [E2 E3]]]]]; auto.
      exists (S j), y, q. splits; auto. rewrite E2. do 2 f_equal. lia.
  Qed.

  (** *** Climbing the parent table. *)
  Lemma parents_len (n : N) : forall pos p d t g,
    length (parents_of pos (lab p d t g n)) = size n.
  Proof.
    induction n as [x|x mm| | | |cs m IH] using node_ind'; intros pos p d t g; try reflexivity.
    rewrite lab_group, parents_of_group. cbn [length size]. f_equal.
    generalize (Some (pre (mkId p CGroup (Some g)))) as par. intros par.
    generalize 0 (S p) d t (S g). clear p d t g.
    induction IH as [|c l Hc HF IHl]; intros k p d t g; auto.
    cbn [labs parents_of_list map list_sum fold_right]. rewrite app_length, Hc. f_equal. apply IHl.
  Qed.

  Lemma parents_split (l : list N) par : forall k p d t g j y,
    nth_error (labs p d t g l) j = Some y ->
    exists p' d' t' g' c A B,
      y = lab p' d' t' g' c /\ p' = p + length A /\
      parents_of_list par k (labs p d t g l) = A ++ parents_of (mkPos par (k + j)) y ++ B.
  Proof.
    induction l as [|c l IHl]; intros k p d t g j y E; [destruct j; discriminate|].
    cbn [labs] in E. destruct j as [|j].
    - simpl in E. injection E as <-. exists p, d, t, g, c, [],
        (parents_of_list par (S k) (labs (p + size c) (d + n_decos c) (t + n_tokens c) (g + n_groups c) l)).
      rewrite !Nat.add_0_r. auto.
    - simpl in E. apply (IHl (S k)) in E as [p' [d' [t' [g' [c' [A [B [E1 [E2 E3]]]]]]]]].
      exists p', d', t', g', c', (parents_of (mkPos par k) (lab p d t g c) ++ A), B.
      splits; auto.
      + rewrite app_length, parents_len. lia.
      + cbn [labs parents_of_list]. rewrite E3. rewrite <- app_assoc.
        replace (k + S j) with (S k + j) by lia. reflexivity.
  Qed.

  Lemma label_lab p d t g (n : N) : pre (label (lab p d t g n)) = p.
  Proof. destruct n; reflexivity. Qed.

  Lemma parents_of_head pos (x : L) : exists r, parents_of pos x = pos :: r.
  Proof. destruct x; eexists; reflexivity. Qed.
  Lemma climb_sub (S : storage) (q : path) : forall l par p d t g P0 P1 j y x f acc,
    nth_error (labs p d t g l) j = Some y -> lsub y q x ->
    parents S = P0 ++ parents_of_list par 0 (labs p d t g l) ++ P1 -> length P0 = p ->
    climb (Datatypes.S (length q) + f) S (Some (pre (label x))) acc =
    climb f S par (j :: q ++ acc).
  Proof.
    induction q as [|j2 q IH]; intros l par p d t g P0 P1 j y x f acc Hj Hs EP HP;
      destruct (parents_split l par 0 p d t g j y Hj)
        as [p' [d' [t' [g' [c [A [B [Ey [Ep' EA]]]]]]]]].
    - inversion Hs; subst. cbn [length plus climb lookup]. rewrite label_lab.
      rewrite EP, EA. rewrite <- app_assoc. rewrite app_assoc.
      replace (length P0 + length A) with (length (P0 ++ A)) by apply app_length.
      match goal with |- context [parents_of ?p ?x] =>
        destruct (parents_of_head p x) as [rest ->] end.
      cbn [app]. rewrite nth_error_app_here. reflexivity.
    - inversion Hs as [|i cs m j' y' q' x' Hj' Hs']; subst. clear Hs.
      destruct c as [| | | | |cs0 m0]; try discriminate.
      rewrite lab_group in *.
      match goal with E : LGroup _ _ _ = _ |- _ => injection E as Ei Ecs Em end. subst i cs m.
      rewrite parents_of_group in EA. cbn [pre] in EA.
      replace (Datatypes.S (length (j2 :: q)) + f)
        with (Datatypes.S (length q) + Datatypes.S f) by (simpl; lia).
      rewrite (IH cs0 (Some (length P0 + length A)) (Datatypes.S (length P0 + length A)) d' t'
                 (Datatypes.S g') (P0 ++ A ++ [mkPos par (0 + j)]) (B ++ P1) j2 y' x
                 (Datatypes.S f) acc); auto.
      + cbn [climb lookup]. rewrite EP, EA. rewrite <- !app_assoc. rewrite app_assoc.
        replace (length P0 + length A) with (length (P0 ++ A)) by apply app_length.
        cbn [app]. rewrite nth_error_app_here. reflexivity.
      + rewrite EP, EA. rewrite <- !app_assoc. cbn [app]. rewrite <- ?app_assoc. reflexivity.
      + rewrite !app_length. simpl. lia.
  Qed.

  Lemma lsub_height x q y : lsub x q y -> length q < height x.
  Proof.
    induction 1 as [x|i cs m j y q x Hj Hs IH].
    - destruct x; simpl; lia.
    - cbn [length height]. apply nth_error_In in Hj.
      pose proof (list_max_In (height y) (map height cs) (in_map _ _ _ Hj)). lia.
  Qed.

  Lemma climb_fuel_mono (S : storage) : forall f f' i acc p,
    climb f S i acc = Ok p -> f <= f' -> climb f' S i acc = Ok p.
  Proof.
    induction f as [|f IH]; intros f' i acc p E Hf; destruct i as [k|];
      try (simpl in E; discriminate); try (destruct f'; exact E).
    destruct f' as [|f']; [lia|]. cbn [climb] in *.
    destruct (lookup (parents S) (Some k)); [|discriminate]. cbn [bind] in *.
    eapply IH; eauto. lia.
  Qed.
  Lemma climb_acc (S : storage) : forall f i acc,
    climb f S i acc = do p <- climb f S i []; Ok (p ++ acc).
  Proof.
    induction f as [|f IH]; intros [k|] acc; try reflexivity.
    cbn [climb]. destruct (lookup (parents S) (Some k)) as [x|]; [|reflexivity].
    cbn [bind]. rewrite IH, (IH (parent x) [offset x]).
    destruct (climb f S (parent x) []); cbn [bind]; auto. now rewrite <- app_assoc.
  Qed.

  Lemma placed_sub S x q y : placed S x -> lsub x q y -> placed S y.
  Proof.
    intros Hp Hs. revert Hp. induction Hs as [x|i cs m j y q x Hj Hs IH]; auto.
    intros Hp. apply placed_inv in Hp as [_ [_ F]]. apply IH.
    apply nth_error_In in Hj. rewrite Forall_forall in F. auto.
  Qed.
  Lemma height_sub x q y : lsub x q y -> height y <= height x.
  Proof.
    induction 1 as [x|i cs m j y q x Hj Hs IH]; auto.
    cbn [height]. apply nth_error_In in Hj.
    pose proof (list_max_In (height y) (map height cs) (in_map _ _ _ Hj)). lia.
  Qed.

  Lemma subsequence_sub S q : forall l j y i cs m,
    Forall (placed S) l -> nth_error l j = Some y -> lsub y q (LGroup i cs m) ->
    subsequence S (map label l) (j :: q) = Ok (map label cs).
  Proof.
    induction q as [|k q IH]; intros l j y i cs m F Hj Hs; cbn [subsequence].
    - inversion Hs; subst. rewrite (map_nth_error label _ _ Hj). cbn [label].
      apply nth_error_In in Hj. rewrite Forall_forall in F. apply F in Hj.
      apply placed_inv in Hj as [-> [-> _]]. reflexivity.
    - rewrite (map_nth_error label _ _ Hj).
      inversion Hs as [|i' cs' m' j' y' q' x' Hj' Hs']; subst. cbn [label].
      apply nth_error_In in Hj. rewrite Forall_forall in F. apply F in Hj.
      apply placed_inv in Hj as [-> [-> F']]. cbn [bind fst].
      eapply IH; eauto.
  Qed.
  Lemma node_id_sub (S : storage) (l : list L) j y q x :
    root_sequence S = map label l -> Forall (placed S) l ->
    nth_error l j = Some y -> lsub y q x ->
    node_id_from_node_path S (j :: q) = Ok (label x).
  Proof.
    intros Er F Hj Hs. unfold node_id_from_node_path, subsequence_from_node_path. rewrite Er.
    assert (G : q = [] /\ x = y \/ exists q' k i cs m, q = q' ++ [k] /\ lsub y q' (LGroup i cs m)
                /\ nth_error cs k = Some x).
    { clear Hj. induction Hs as [x|i cs m j2 y q x Hj2 Hs IH]; [left; auto|].
      right. destruct IH as [[-> ->]|[q' [k [i' [cs' [m' [-> [Hs' Hk]]]]]]]].
      - exists [], j2, i, cs, m. splits; auto. apply ls_here.
      - exists (j2 :: q'), k, i', cs', m'. splits; auto. eapply ls_child; eauto. }
    destruct G as [[-> ->]|[q' [k [i' [cs' [m' [-> [Hs' Hk]]]]]]]].
    - cbn [removelast subsequence bind last lookup]. now rewrite (map_nth_error label _ _ Hj).
    - change (j :: q' ++ [k]) with ((j :: q') ++ [k]).
      rewrite removelast_last, last_last.
      rewrite (subsequence_sub S q' l j y i' cs' m' F Hj Hs'). cbn [bind lookup].
      now rewrite (map_nth_error label _ _ Hk).
  Qed.

  (** The k-th stored node and the k-th node of the walk are the same. *)
  Lemma walk_root_length (ns : list N) :
    length (preorder_traversal (pack ns)) = length (walk_with_paths ns true false []).
  Proof.
    unfold walk_with_paths. rewrite pack_labelled. cbn zeta. cbn [preorder_traversal].
    rewrite <- (lwalks_pre (labelled ns) [] 0), map_length.
    rewrite <- (map_length node_of), lwalks_walk, map_length. unfold labelled. now rewrite erase_labs.
  Qed.

  Lemma preorder_agrees (ns : list N) k n q tg :
    nth_error (walk_with_paths ns true false []) k = Some (n, q, tg) ->
    exists i, nth_error (preorder_traversal (pack ns)) k = Some i /\ pre i = k /\
      path_from_preorder_index (pack ns) k = Ok q /\
      node_id_from_node_path (pack ns) q = Ok i /\
      build (fuel_of (pack ns)) (pack ns) i = Ok n.
  Proof.
    intros Hk. unfold walk_with_paths in Hk.
    assert (Hw : nth_error (map node_of (lwalks [] 0 (labelled ns))) k = Some (n, q)).
    { rewrite lwalks_walk. unfold labelled. rewrite erase_labs.
      now rewrite (map_nth_error fst _ _ Hk). }
    rewrite nth_error_map in Hw.
    destruct (nth_error (lwalks [] 0 (labelled ns)) k) as [[q' x]|] eqn:Ex; [|discriminate].
    simpl in Hw. injection Hw as <- <-. exists (label x).
    assert (Hi : nth_error (preorder_traversal (pack ns)) k = Some (label x)).
    { rewrite pack_labelled. cbn zeta. cbn [preorder_traversal].
      rewrite <- (lwalks_pre (labelled ns) [] 0). now rewrite (map_nth_error lab_of _ _ Ex). }
    assert (Hpre : pre (label x) = k).
    { pose proof (pre_of_seqs ns 0 0 0 0) as Hs.
      rewrite pack_labelled in Hi. cbn zeta in Hi. cbn [preorder_traversal] in Hi.
      unfold labelled in Hi. apply (map_nth_error pre) in Hi. rewrite Hs in Hi.
      assert (k < length (seq 0 (list_sum (map size ns)))) by (apply nth_error_Some; congruence).
      rewrite seq_length in H. apply (nth_error_nth _ _ 0) in Hi. rewrite seq_nth in Hi; auto. }
    apply nth_error_In in Ex. apply lwalks_sub in Ex as [j [y [r [Hj [Eq Hs]]]]].
    simpl in Eq, Hs. subst q'.
    assert (Hy : In y (labelled ns)) by (eapply nth_error_In; eauto).
    pose proof (pack_placed ns) as F.
    assert (Hyp : placed (pack ns) y) by (rewrite Forall_forall in F; auto).
    splits; auto.
    - unfold path_from_preorder_index. rewrite <- Hpre.
      pose proof (lsub_height _ _ _ Hs) as Hh. pose proof (height_fuel ns y Hy) as Hf.
      replace (fuel_of (pack ns)) with (S (length r) + (fuel_of (pack ns) - S (length r))) by lia.
      rewrite (climb_sub (pack ns) r ns None 0 0 0 0 [] [] j y x _ []); auto.
      + rewrite app_nil_r. destruct (fuel_of (pack ns) - S (length r)); reflexivity.
      + rewrite pack_labelled. cbn zeta. cbn [parents]. now rewrite app_nil_r.
    - eapply node_id_sub; eauto. now rewrite pack_labelled.
    - apply build_placed; [eapply placed_sub; eauto|].
      pose proof (height_sub _ _ _ Hs). pose proof (height_fuel ns y Hy). lia.
  Qed.

  (** The parent table: one step up. *)
  Lemma parent_step (ns : list N) k q :
    path_from_preorder_index (pack ns) k = Ok q ->
    exists pos, nth_error (parents (pack ns)) k = Some pos /\
      match parent pos with
      | None => q = [offset pos]
      | Some j => exists q', path_from_preorder_index (pack ns) j = Ok q' /\ q = q' ++ [offset pos]
      end.
  Proof.
    unfold path_from_preorder_index, fuel_of. intros E. cbn [climb lookup] in E.
    destruct (nth_error (parents (pack ns)) k) as [pos|]; [|discriminate].
    exists pos. split; auto. cbn [bind] in E. rewrite climb_acc in E.
    destruct (climb _ _ (parent pos) []) as [q'|] eqn:Ec; [|discriminate].
    cbn [bind] in E. injection E as <-. destruct (parent pos) as [j|].
    - exists q'. split; auto. eapply climb_fuel_mono; eauto.
    - destruct (length (preorder_traversal (pack ns))); simpl in Ec; now injection Ec as <-.
  Qed.

  Lemma increasing_nth l : forall i j p q, increasing l ->
    nth_error l i = Some p -> nth_error l j = Some q -> i < j -> path_lt p q.
  Proof.
    induction l as [|a l IH]; intros i j p q Hi Ei Ej Hij; [destruct i; discriminate|].
    destruct Hi as [Ha Hl]. destruct j as [|j]; [lia|]. simpl in Ej. destruct i as [|i].
    - simpl in Ei. injection Ei as <-. rewrite Forall_forall in Ha. apply Ha.
      eapply nth_error_In; eauto.
    - simpl in Ei. eapply IH; eauto. lia.
  Qed.
  Lemma path_lt_irrefl p : ~ path_lt p p.
  Proof. induction p as [|i p IH]; intros Hp; inversion Hp; subst; auto; lia. Qed.
  Lemma path_lt_trans p q r : path_lt p q -> path_lt q r -> path_lt p r.
  Proof.
    intros Hp. revert r. induction Hp as [i p|i j p q Hij|i p q Hp IH]; intros r Hr;
      inversion Hr; subst; try (apply plt_nil); try (apply plt_head; lia).
    apply plt_tail. auto.
  Qed.
  (** Lexicographic order keeps the extensions of a path together. *)
  Lemma path_lt_prefix p r : forall q, path_lt p q -> path_lt q (p ++ r) ->
    exists r', q = p ++ r'.
  Proof.
    induction p as [|i p IH]; intros q Hq Hr; [exists q; auto|].
    inversion Hq as [|i' j p' q' Hij|i' p' q' Hp']; subst; inversion Hr; subst; try lia.
    destruct (IH q') as [r' ->]; auto. exists r'; auto.
  Qed.

  Lemma walk_nth_path (ns : list N) k n q tg :
    nth_error (walk_with_paths ns true false []) k = Some (n, q, tg) ->
    nth_error (map item_path (walk_with_paths ns true false [])) k = Some q.
  Proof. intros E. apply (map_nth_error item_path) in E. exact E. Qed.

  Lemma preorder_cases (ns : list N) k q : path_from_preorder_index (pack ns) k = Ok q ->
    exists n tg, nth_error (walk_with_paths ns true false []) k = Some (n, q, tg).
  Proof.
    intros E. destruct (nth_error (walk_with_paths ns true false []) k) as [[[n q'] tg]|] eqn:Ek.
    - apply preorder_agrees in Ek as Ha. destruct Ha as [i [_ [_ [Ep _]]]].
      rewrite E in Ep. injection Ep as <-. eauto.
    - exfalso. apply parent_step in E as [pos [E _]].
      assert (Hlt : k < length (parents (pack ns))) by (apply nth_error_Some; congruence).
      apply nth_error_None in Ek. rewrite <- walk_root_length in Ek.
      assert (length (parents (pack ns)) = length (preorder_traversal (pack ns))); [|lia].
      rewrite pack_labelled. cbn zeta. cbn [parents preorder_traversal]. unfold labelled.
      assert (G : forall (ns : list N) p d t g k0, length (parents_of_list None k0 (labs p d t g ns)) =
                    length (flat_map pre_of (labs p d t g ns))).
      { clear. induction ns as [|c ns IH]; intros; auto. cbn [labs parents_of_list flat_map].
        rewrite !app_length, parents_len, IH. f_equal. symmetry. apply size_erase_lens. }
      apply G.
  Qed.

  Lemma parent_before (ns : list N) k pos j :
    k < length (preorder_traversal (pack ns)) ->
    nth_error (parents (pack ns)) k = Some pos -> parent pos = Some j -> j < k.
  Proof.
    intros Hk Hpos Hj. rewrite walk_root_length in Hk.
    destruct (nth_error (walk_with_paths ns true false []) k) as [[[n q] tg]|] eqn:Ek;
      [|apply nth_error_None in Ek; lia].
    apply preorder_agrees in Ek as Ha. destruct Ha as [i [_ [_ [Ep _]]]].
    apply parent_step in Ep as [pos' [Hpos' Hc]]. rewrite Hpos in Hpos'. injection Hpos' as <-.
    rewrite Hj in Hc. destruct Hc as [q' [Eq' ->]].
    apply preorder_cases in Eq' as [n' [tg' Ej]].
    apply walk_nth_path in Ek, Ej.
    pose proof (walk_list_increasing true ns [] 0) as Hinc.
    destruct (Nat.lt_trichotomy j k) as [?|[->|Hlt]]; auto; exfalso.
    - rewrite Ek in Ej. injection Ej as E. assert (length (q' ++ [offset pos]) = length q') by congruence.
      rewrite app_length in H. simpl in H. lia.
    - pose proof (increasing_nth _ _ _ _ _ Hinc Ek Ej Hlt) as Hl.
      apply (path_lt_irrefl q'). eapply path_lt_trans; [|exact Hl].
      rewrite <- (app_nil_r q') at 1. apply path_lt_app. constructor.
  Qed.

  Lemma subtree_contiguous (ns : list N) i j k p r q :
    path_from_preorder_index (pack ns) i = Ok p ->
    path_from_preorder_index (pack ns) j = Ok (p ++ r) ->
    path_from_preorder_index (pack ns) k = Ok q ->
    i <= k <= j -> exists r', q = p ++ r'.
  Proof.
    intros Hi Hj Hk [Hik Hkj].
    apply preorder_cases in Hi as [? [? Hi]]. apply preorder_cases in Hj as [? [? Hj]].
    apply preorder_cases in Hk as [? [? Hk]].
    apply walk_nth_path in Hi, Hj, Hk.
    pose proof (walk_list_increasing true ns [] 0) as Hinc.
    destruct (Nat.eq_dec i k) as [<-|]; [rewrite Hi in Hk; injection Hk as <-; exists []; now rewrite app_nil_r|].
    destruct (Nat.eq_dec k j) as [<-|]; [rewrite Hj in Hk; injection Hk as <-; eauto|].
    eapply path_lt_prefix.
    - exact (increasing_nth _ _ _ _ _ Hinc Hi Hk ltac:(lia)).
    - exact (increasing_nth _ _ _ _ _ Hinc Hk Hj ltac:(lia)).
  Qed.

  (** *** In-order traversal. *)
  Fixpoint lvisit (strip : bool) (x : L) : list (visit * node_id) :=
    match x with
    | LGroup i cs _ => (VBefore, i) :: flat_map (lvisit strip) cs ++ [(VAfter, i)]
    | LDeco i _ => if strip then [] else [(VLeaf, i)]
    | _ => [(VLeaf, label x)]
    end.
  Lemma in_order_placed S strip (x : L) : forall f, placed S x -> height x <= f ->
    in_order_id f S strip (label x) = Ok (lvisit strip x).
  Proof.
    induction x as [i t|i t m|i|i|i|i cs m IH] using lnode_ind'; intros f Hp Hf;
      (destruct f as [|f]; [simpl in Hf; lia|]); apply placed_inv in Hp; cbn [in_order_id label].
    - destruct Hp as [-> _]. destruct strip; reflexivity.
    - destruct Hp as [-> _]. reflexivity.
    - now rewrite Hp.
    - now rewrite Hp.
    - now rewrite Hp.
    - destruct Hp as [-> [-> F]]. cbn [bind fst snd].
      rewrite (mapM_labels _ (lvisit strip)).
      + cbn [bind lvisit]. now rewrite flat_map_concat_map.
      + intros c Hc. rewrite Forall_forall in IH, F. apply IH; auto.
        eapply height_child; eauto.
  Qed.
  Lemma in_order_pack (ns : list N) strip :
    in_order_traversal (pack ns) strip = Ok (flat_map (lvisit strip) (labelled ns)).
  Proof.
    unfold in_order_traversal. replace (root_sequence (pack ns)) with (map label (labelled ns))
      by now rewrite pack_labelled.
    rewrite (mapM_labels _ (lvisit strip)).
    - cbn [bind]. now rewrite flat_map_concat_map.
    - intros c Hc. apply in_order_placed; [|now apply height_fuel].
      pose proof (pack_placed ns) as F. rewrite Forall_forall in F. auto.
  Qed.

  (** Properly nested visits. *)
  Inductive balanced : list (visit * node_id) -> Prop :=
  | bal_nil : balanced []
  | bal_leaf i l : cat i <> CGroup -> balanced l -> balanced ((VLeaf, i) :: l)
  | bal_group i l1 l2 : cat i = CGroup -> balanced l1 -> balanced l2 ->
                        balanced ((VBefore, i) :: l1 ++ (VAfter, i) :: l2).
  Lemma balanced_app l1 l2 : balanced l1 -> balanced l2 -> balanced (l1 ++ l2).
  Proof.
    intros H1 H2. induction H1 as [|i l Hi Hl IH|i a b Hi Ha IHa Hb IHb]; auto.
    - cbn [app]. now apply bal_leaf.
    - cbn [app]. rewrite <- app_assoc. cbn [app]. now apply bal_group.
  Qed.
  Lemma lvisit_balanced S strip (x : L) : placed S x -> balanced (lvisit strip x).
  Proof.
    induction x as [i t|i t m|i|i|i|i cs m IH] using lnode_ind'; intros Hp; apply placed_inv in Hp;
      cbn [lvisit label].
    - destruct Hp as [Hc _]. destruct strip; [constructor|].
      apply bal_leaf; [rewrite Hc; discriminate|constructor].
    - destruct Hp as [Hc _]. apply bal_leaf; [rewrite Hc; discriminate|constructor].
    - apply bal_leaf; [rewrite Hp; discriminate|constructor].
    - apply bal_leaf; [rewrite Hp; discriminate|constructor].
    - apply bal_leaf; [rewrite Hp; discriminate|constructor].
    - destruct Hp as [Hc [_ F]]. apply bal_group; auto; [|constructor].
      clear Hc. induction cs as [|c cs IHc]; [constructor|]. inversion IH; inversion F; subst.
      cbn [flat_map]. apply balanced_app; auto.
  Qed.
  Lemma in_order_balanced (ns : list N) strip l :
    in_order_traversal (pack ns) strip = Ok l -> balanced l.
  Proof.
    rewrite in_order_pack. intros [= <-]. pose proof (pack_placed ns) as F.
    induction (labelled ns) as [|c cs IHc]; [constructor|]. inversion F; subst.
    cbn [flat_map]. apply balanced_app; auto. eapply lvisit_balanced; eauto.
  Qed.

  (** Correspondence with [walk_with_paths(visit both)]. *)
  Definition visit_tag (v : visit) : walk_tag :=
    match v with VLeaf => LEAF | VBefore => GROUP_BEFORE_CHILDREN | VAfter => GROUP_AFTER_CHILDREN end.
  Definition not_deco (x : N * path * walk_tag) : bool :=
    match item_node x with Deco _ => false | _ => true end.

  (** [x] sits at path [p] under the roots [roots]. *)
  Definition at_root (roots : list L) (p : path) (x : L) : Prop :=
    exists j y q, p = j :: q /\ nth_error roots j = Some y /\ lsub y q x.

  Definition visit_ok (roots : list L) (v : visit * node_id) (w : N * path * walk_tag) : Prop :=
    visit_tag (fst v) = item_tag w /\
    exists x, at_root roots (item_path w) x /\ label x = snd v /\ erase x = item_node w.

  Lemma at_root_child roots p i cs m j c :
    at_root roots p (LGroup i cs m) -> nth_error cs j = Some c -> at_root roots (p ++ [j]) c.
  Proof.
    intros [j0 [y [q [-> [Hy Hs]]]]] Hj. exists j0, y, (q ++ [j]). splits; auto.
    clear Hy. remember (LGroup i cs m) as g eqn:Eg. revert Eg.
    induction Hs as [x|i' cs' m' j' y q x Hj' Hs IH]; intros ->.
    - cbn [app]. eapply ls_child; eauto. apply ls_here.
    - cbn [app]. eapply ls_child; eauto.
  Qed.

  Lemma lvisit_walk roots (strip : bool) (x : L) : forall p, at_root roots p x ->
    Forall2 (visit_ok roots) (lvisit strip x)
      (filter (fun w => negb strip || not_deco w) (walk_node true true p (erase x))).
  Proof.
    induction x as [i t|i t m|i|i|i|i cs m IH] using lnode_ind'; intros p Hp.
    1: { destruct strip; simpl; [constructor|]. constructor; [|constructor].
         split; [reflexivity|]. exists (LDeco i t). auto. }
    1-4: cbn [erase walk_node filter]; rewrite orb_true_r; (constructor; [|constructor]);
         (split; [reflexivity|eexists; split; [exact Hp|split; reflexivity]]).
    cbn [erase]. rewrite walk_node_group. cbn [app filter].
    unfold not_deco at 1. unfold item_node at 1. cbn [fst]. rewrite orb_true_r.
    cbn [lvisit]. constructor.
    - split; [reflexivity|]. exists (LGroup i cs m). auto.
    - rewrite filter_app. apply Forall2_app.
      + assert (Hall : forall j c, nth_error cs j = Some c -> at_root roots (p ++ [j]) c)
          by (intros; eapply at_root_child; eauto).
        clear Hp.
        assert (G : forall l k, Forall (fun x => forall p, at_root roots p x ->
              Forall2 (visit_ok roots) (lvisit strip x)
               (filter (fun w => negb strip || not_deco w) (walk_node true true p (erase x)))) l ->
             (forall j c, nth_error l j = Some c -> at_root roots (p ++ [k + j]) c) ->
             Forall2 (visit_ok roots) (flat_map (lvisit strip) l)
               (filter (fun w => negb strip || not_deco w) (walk_list true true p k (map erase l)))).
        { clear. induction l as [|c l IHl]; intros k HF Hall; [constructor|].
          inversion HF as [|? ? Hc HF']; subst. cbn [map walk_list flat_map].
          rewrite filter_app. apply Forall2_app.
          - apply Hc. specialize (Hall 0 c eq_refl). now rewrite Nat.add_0_r in Hall.
          - apply IHl; auto. intros j c' Hj. specialize (Hall (S j) c' Hj).
            replace (S k + j) with (k + S j) by lia. exact Hall. }
        apply G; auto.
      + cbn [filter]. unfold not_deco, item_node. cbn [fst]. rewrite orb_true_r.
        constructor; [|constructor]. split; [reflexivity|]. exists (LGroup i cs m). auto.
  Qed.
  Lemma lvisits_walk roots (strip : bool) : forall l k,
    (forall j c, nth_error l j = Some c -> at_root roots [k + j] c) ->
    Forall2 (visit_ok roots) (flat_map (lvisit strip) l)
      (filter (fun w => negb strip || not_deco w) (walk_list true true [] k (map erase l))).
  Proof.
    induction l as [|c l IHl]; intros k Hall; [constructor|].
    cbn [map walk_list flat_map]. rewrite filter_app. apply Forall2_app.
    - apply lvisit_walk. specialize (Hall 0 c eq_refl). now rewrite Nat.add_0_r in Hall.
    - apply IHl. intros j c' Hj. specialize (Hall (S j) c' Hj).
      replace (S k + j) with (k + S j) by lia. exact Hall.
  Qed.

  Lemma in_order_walk (ns : list N) strip :
    exists l, in_order_traversal (pack ns) strip = Ok l /\
      Forall2 (fun v w =>
                 visit_tag (fst v) = item_tag w /\
                 path_from_preorder_index (pack ns) (pre (snd v)) = Ok (item_path w) /\
                 node_id_from_node_path (pack ns) (item_path w) = Ok (snd v) /\
                 build (fuel_of (pack ns)) (pack ns) (snd v) = Ok (item_node w))
        l (filter (fun w => negb strip || not_deco w) (walk_with_paths ns true true [])).
  Proof.
    rewrite in_order_pack. eexists. split; [reflexivity|].
    pose proof (lvisits_walk (labelled ns) strip (labelled ns) 0) as G.
    unfold walk_with_paths. replace (map erase (labelled ns)) with ns in G
      by (symmetry; apply erase_labs).
    eapply Forall2_impl; [|apply G].
    - intros [v i] w [Ht [x [[j [y [q [Ep [Hj Hs]]]]] [El Ee]]]]. cbn [fst snd] in *.
      assert (Hy : In y (labelled ns)) by (eapply nth_error_In; eauto).
      pose proof (pack_placed ns) as F.
      assert (Hyp : placed (pack ns) y) by (rewrite Forall_forall in F; auto).
      subst i. rewrite Ep. splits; auto.
      + unfold path_from_preorder_index.
        pose proof (lsub_height _ _ _ Hs) as Hh. pose proof (height_fuel ns y Hy) as Hf.
        replace (fuel_of (pack ns)) with (S (length q) + (fuel_of (pack ns) - S (length q))) by lia.
        rewrite (climb_sub (pack ns) q ns None 0 0 0 0 [] [] j y x _ []); auto.
        * rewrite app_nil_r. destruct (fuel_of (pack ns) - S (length q)); reflexivity.
        * rewrite pack_labelled. cbn zeta. cbn [parents]. now rewrite app_nil_r.
      + eapply node_id_sub; eauto. now rewrite pack_labelled.
      + rewrite <- Ee. apply build_placed; [eapply placed_sub; eauto|].
        pose proof (height_sub _ _ _ Hs). pose proof (height_fuel ns y Hy). lia.
    - intros j c Hj. exists j, c, []. splits; auto. apply ls_here.
  Qed.

  (** *** Depth. *)
  Fixpoint no_empty_groups (n : N) : Prop :=
    match n with
    | Group cs _ => cs <> [] /\ fold_right (fun c P => no_empty_groups c /\ P) True cs
    | _ => True
    end.
  Lemma fold_max_ge {A} (f : A -> nat) l b :
    b <= fold_left (fun b c => Nat.max b (f c)) l b.
  Proof.
    revert b. induction l as [|x l IH]; intros b; cbn [fold_left]; auto.
    specialize (IH (Nat.max b (f x))). lia.
  Qed.
  Lemma max_of_bounds (x : L) : forall lvl,
    max_of lvl x + 1 <= lvl + depth_node (erase x) <= max_of lvl x + 2.
  Proof.
    induction x as [i t|i t m|i|i|i|i cs m IH] using lnode_ind'; intros lvl; try (simpl; lia).
    cbn [max_of erase]. rewrite depth_node_group.
    assert (G : forall b, lvl <= b ->
      fold_left (fun b c => Nat.max b (max_of (lvl + 1) c)) cs b + 1 <=
        Nat.max (b + 1) (lvl + S (compute_depth (map erase cs))) /\
      lvl + S (compute_depth (map erase cs)) <=
        fold_left (fun b c => Nat.max b (max_of (lvl + 1) c)) cs b + 2).
    { induction IH as [|c l Hc HF IHl]; intros b Hb.
      - change (compute_depth (map erase [])) with 1. cbn [fold_left]. lia.
      - cbn [fold_left map]. rewrite compute_depth_cons. specialize (Hc (lvl + 1)).
        specialize (IHl (Nat.max b (max_of (lvl + 1) c)) ltac:(lia)).
        pose proof (fold_max_ge (max_of (lvl + 1)) l (Nat.max b (max_of (lvl + 1) c))). lia. }
    specialize (G lvl (le_n _)). lia.
  Qed.
  Lemma max_of_exact (x : L) : forall lvl, no_empty_groups (erase x) ->
    max_of lvl x + 1 = lvl + depth_node (erase x).
  Proof.
    induction x as [i t|i t m|i|i|i|i cs m IH] using lnode_ind'; intros lvl Hn; try (simpl; lia).
    cbn [max_of erase]. rewrite depth_node_group. cbn [erase no_empty_groups] in Hn.
    destruct Hn as [Hne Hall]. rewrite fold_right_and_Forall in Hall.
    assert (G : forall l b, Forall (fun x => forall lvl, no_empty_groups (erase x) ->
                  max_of lvl x + 1 = lvl + depth_node (erase x)) l ->
                Forall no_empty_groups (map erase l) -> lvl + 1 <= b ->
      fold_left (fun b c => Nat.max b (max_of (lvl + 1) c)) l b + 1 =
        Nat.max (b + 1) (lvl + S (compute_depth (map erase l)))).
    { clear. induction l as [|c l IHl]; intros b HF Hall Hb.
      - change (compute_depth (map erase [])) with 1. cbn [fold_left]. lia.
      - cbn [fold_left map] in *. rewrite compute_depth_cons. inversion HF; inversion Hall; subst.
        specialize (H1 (lvl + 1) H5). rewrite IHl; auto; lia. }
    destruct cs as [|c cs]; [simpl in Hne; congruence|].
    inversion IH; inversion Hall; subst. cbn [fold_left map]. rewrite compute_depth_cons.
    assert (Hc1 : lvl + 1 <= max_of (lvl + 1) c).
    { specialize (H1 (lvl + 1) H5). assert (1 <= depth_node (erase c)) by (destruct c; simpl; lia). lia. }
    rewrite G; auto; [|lia]. specialize (H1 (lvl + 1) H5).
    pose proof (compute_depth_pos (map erase cs)). lia.
  Qed.
  Lemma pack_depth_bounds (ns : list N) :
    depth (pack ns) <= compute_depth ns <= depth (pack ns) + 1.
  Proof.
    rewrite pack_labelled. cbn zeta. cbn [depth].
    rewrite <- (erase_labs ns 0 0 0 0) at 2 3. fold (labelled ns).
    assert (G : forall (l : list L) b,
      fold_left (fun b c => Nat.max b (max_of 0 c)) l b + 1 <=
        Nat.max (b + 1) (compute_depth (map erase l)) /\
      compute_depth (map erase l) <=
        fold_left (fun b c => Nat.max b (max_of 0 c)) l b + 2 /\
      (compute_depth (map erase l) <= 1 \/ compute_depth (map erase l) <=
        fold_left (fun b c => Nat.max b (max_of 0 c)) l b + 2)).
    { induction l as [|c l IHl]; intros b.
      - change (compute_depth (map erase [])) with 1. cbn [fold_left]. lia.
      - cbn [fold_left map]. rewrite compute_depth_cons. pose proof (max_of_bounds c 0) as Hc.
        specialize (IHl (Nat.max b (max_of 0 c))).
        pose proof (fold_max_ge (max_of 0) l (Nat.max b (max_of 0 c))). lia. }
    specialize (G (labelled ns) 0). pose proof (compute_depth_pos (map erase (labelled ns))). lia.
  Qed.
  Lemma pack_depth_exact (ns : list N) :
    Forall no_empty_groups ns -> depth (pack ns) = compute_depth ns.
  Proof.
    intros Hn. rewrite pack_labelled. cbn zeta. cbn [depth].
    rewrite <- (erase_labs ns 0 0 0 0) in Hn. fold (labelled ns) in Hn.
    rewrite <- (erase_labs ns 0 0 0 0) at 2. fold (labelled ns).
    assert (G : forall l b, Forall no_empty_groups (map erase l) ->
      fold_left (fun b c => Nat.max b (max_of 0 c)) l b + 1 =
        Nat.max (b + 1) (compute_depth (map erase l))).
    { induction l as [|c l IHl]; intros b HF.
      - change (compute_depth (map erase [])) with 1. cbn [fold_left]. lia.
      - cbn [fold_left map] in *. rewrite compute_depth_cons. inversion HF; subst.
        pose proof (max_of_exact c 0 H1). rewrite IHl; auto. lia. }
    rewrite G; auto. pose proof (compute_depth_pos (map erase (labelled ns))). lia.
  Qed.
End P.
