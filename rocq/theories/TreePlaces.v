(** Where early exits go, and what every path of a packed tree leads to. *)

From Coq Require Import List Bool Arith Lia.
From Verif Require Import Base SeqNodes Transforms PackedSeq PackedSeqProofs.
Import ListNotations.

Section Exits.
  Context {M : Type}.
  Notation N := (node M).

  Definition token_or_group (n : N) : Prop :=
    match n with Token _ _ | Group _ _ => True | _ => False end.
  Definition no_exit (ns : list N) : Prop := ~ In EarlyExit ns.

  Lemma early_exit_node_shape w (n : N) :
    (token_or_group n /\ exists n', early_exit_node w n = [n'; EarlyExit] /\ token_or_group n' /\ strip_node n' = strip_node n)
    \/ (~ token_or_group n /\ early_exit_node w n = [n]).
  Proof.
    destruct n as [t|t m| | | |cs m]; cbn [early_exit_node token_or_group]; auto.
    - left. split; auto. eexists. splits; auto. reflexivity.
    - left. split; auto. destruct w.
      + exists (Group (flat_map (early_exit_node true) cs) m). splits; auto; [exact I|]. pose proof (strip_early_exit_node true (Group cs m)) as E.
        cbn [early_exit_node] in E. unfold strip_decision_nodes in E. cbn [flat_map] in E. now rewrite app_nil_r in E.
      + exists (Group cs m). splits; auto. exact I.
  Qed.

  (** Every token and every group is followed by an exit. *)
  Lemma exit_after_each w (ns : list N) : forall A n B,
    flat_map (early_exit_node w) ns = A ++ n :: B -> token_or_group n -> exists B', B = EarlyExit :: B'.
  Proof.
    induction ns as [|x ns IH]; intros A n B E Hn; [destruct A; discriminate|]. cbn [flat_map] in E.
    destruct (early_exit_node_shape w x) as [[Hx [x' [Ex [Hx' _]]]]|[Hx Ex]]; rewrite Ex in E; cbn [app] in E.
    - destruct A as [|a A]; cbn [app] in E; injection E as E1 E2; subst; [eauto|].
      destruct A as [|a2 A]; cbn [app] in E2; injection E2 as E2 E3; subst; [destruct Hn|]. eauto.
    - destruct A as [|a A]; cbn [app] in E; injection E as E1 E2; subst; [contradiction|eauto].
  Qed.
  (** There is no other exit. *)
  Lemma exit_only_after w (ns : list N) : no_exit ns -> forall A B,
    flat_map (early_exit_node w) ns = A ++ EarlyExit :: B -> exists A' n, A = A' ++ [n] /\ token_or_group n.
  Proof.
    induction ns as [|x ns IH]; intros Hne A B E; [destruct A; discriminate|]. cbn [flat_map] in E.
    assert (Hne' : no_exit ns) by (intros C; apply Hne; right; auto).
    destruct (early_exit_node_shape w x) as [[Hx [x' [Ex [Hx' _]]]]|[Hx Ex]]; rewrite Ex in E; cbn [app] in E.
    - destruct A as [|a A]; cbn [app] in E; injection E as E1 E2; subst; [destruct Hx'|].
      destruct A as [|a2 A]; cbn [app] in E2.
      + exists [], a. auto.
      + injection E2 as E2 E3; subst. destruct (IH Hne' _ _ E3) as [A' [n [-> Hn]]].
        exists (a :: EarlyExit :: A'), n. auto.
    - destruct A as [|a A]; cbn [app] in E; injection E as E1 E2; subst.
      + exfalso. apply Hne. now left.
      + destruct (IH Hne' _ _ E2) as [A' [n [-> Hn]]]. exists (a :: A'), n. auto.
  Qed.
  Theorem early_exit_places (ns : list N) within at_start : no_exit ns ->
    (forall A n B, insert_early_exit ns within at_start = A ++ n :: B -> token_or_group n ->
       exists B', B = EarlyExit :: B') /\
    (forall A B, insert_early_exit ns within at_start = A ++ EarlyExit :: B ->
       (A = [] /\ at_start = true) \/ exists A' n, A = A' ++ [n] /\ token_or_group n) /\
    (at_start = true <-> exists B, insert_early_exit ns within at_start = EarlyExit :: B) /\
    (forall cs m, In (Group cs m) (insert_early_exit ns within at_start) <->
       exists cs0, In (Group cs0 m) ns /\ cs = if within then insert_early_exit cs0 true false else cs0).
  Proof.
    intros Hne. unfold insert_early_exit. splits.
    - intros A n B E Hn. destruct at_start; cbn [app] in E.
      + destruct A as [|a A]; cbn [app] in E; injection E as E1 E2; subst; [destruct Hn|].
        eapply exit_after_each; eauto.
      + eapply exit_after_each; eauto.
    - intros A B E. destruct at_start; cbn [app] in E.
      + destruct A as [|a A]; [left; auto|]. cbn [app] in E. injection E as E1 E2.
        destruct (exit_only_after _ _ Hne _ _ E2) as [A' [n [-> Hn]]]. right. exists (a :: A'), n. auto.
      + right. eapply exit_only_after; eauto.
    - split.
      + intros ->. cbn [app]. eauto.
      + intros [B E]. destruct at_start; auto. cbn [app] in E.
        destruct (exit_only_after _ _ Hne [] B E) as [A' [n [C _]]]. destruct A'; discriminate.
    - intros cs m. rewrite in_app_iff, in_flat_map.
      assert (G : forall x, In (Group cs m) (early_exit_node within x) <->
                exists cs0, x = Group cs0 m /\ cs = if within then flat_map (early_exit_node true) cs0 else cs0).
      { intros x. split.
        - intros Hx. destruct x; cbn [early_exit_node] in Hx;
            try (destruct Hx as [C|[]]; discriminate); try (destruct Hx as [C|[C|[]]]; discriminate).
          destruct within; destruct Hx as [C|[C|[]]]; try discriminate; injection C as <- <-; eauto.
        - intros [cs0 [-> ->]]. cbn [early_exit_node]. destruct within; left; reflexivity. }
      split.
      + intros [Hx|[x [Hx Hi]]].
        * destruct at_start; [destruct Hx as [C|[]]; discriminate|destruct Hx].
        * apply G in Hi as [cs0 [-> ->]]. exists cs0. split; auto.
      + intros [cs0 [Hi ->]]. right. exists (Group cs0 m). split; auto. apply G. exists cs0. split; auto.
  Qed.
End Exits.

Section Paths.
  Context {M : Type}.
  Notation N := (node M).
  Notation L := (lnode M).

  (** The sequence a path of groups leads to. *)
  Fixpoint children_at (ns : list N) (p : path) : option (list N) :=
    match p with
    | [] => Some ns
    | i :: p' => match nth_error ns i with Some (Group cs _) => children_at cs p' | _ => None end
    end.
  Lemma node_at_children (p : path) : forall (ns : list N), p <> [] ->
    node_at ns p = match children_at ns (removelast p) with Some cs => nth_error cs (last p 0) | None => None end.
  Proof.
    induction p as [|i p IH]; intros ns Hp; [congruence|]. destruct p as [|j p]; [reflexivity|].
    change (removelast (i :: j :: p)) with (i :: removelast (j :: p)).
    change (last (i :: j :: p) 0) with (last (j :: p) 0). cbn [children_at].
    change (node_at ns (i :: j :: p)) with
      (match nth_error ns i with Some (Group cs _) => node_at cs (j :: p) | _ => None end).
    destruct (nth_error ns i) as [[]|]; auto. apply IH. discriminate.
  Qed.

  Lemma subsequence_total S F p : forall (l : list L), Forall (placed S) l -> (forall x, In x l -> height x <= F) ->
    match children_at (map erase l) p with
    | Some cs => exists l', subsequence S (map label l) p = Ok (map label l') /\ cs = map erase l' /\
                   Forall (placed S) l' /\ (forall x, In x l' -> height x <= F)
    | None => subsequence S (map label l) p = Err ValueError
    end.
  Proof.
    induction p as [|i p IH]; intros l Hl HF; cbn [children_at subsequence]; [exists l; auto|].
    rewrite !nth_error_map. destruct (nth_error l i) as [x|] eqn:Ei; cbn [option_map]; auto.
    apply nth_error_In in Ei. rewrite Forall_forall in Hl. pose proof (Hl _ Ei) as Hx. apply placed_inv in Hx.
    destruct x; cbn [erase label]; try (destruct Hx as [-> _]; reflexivity); try (rewrite Hx; reflexivity).
    destruct Hx as [-> [-> Hcs]]. cbn [bind fst]. apply IH; auto.
    intros y Hy. pose proof (HF _ Ei) as Hh. cbn [height] in Hh.
    pose proof (list_max_In (height y) (map height cs) (in_map _ _ _ Hy)). lia.
  Qed.
  Lemma pack_roots (ns : list N) : root_sequence (pack ns) = map label (labelled ns) /\ map erase (labelled ns) = ns.
  Proof. split; [now rewrite pack_labelled|unfold labelled; apply erase_labs]. Qed.

  Theorem path_lookup (ns : list N) (p : path) :
    match children_at ns p with
    | Some cs => exists ids, subsequence_from_node_path (pack ns) p = Ok ids /\
                   mapM (build (fuel_of (pack ns)) (pack ns)) ids = Ok cs
    | None => subsequence_from_node_path (pack ns) p = Err ValueError
    end /\
    match node_at ns p with
    | Some n => exists i, node_id_from_node_path (pack ns) p = Ok i /\
                  build (fuel_of (pack ns)) (pack ns) i = Ok n
    | None => node_id_from_node_path (pack ns) p =
                Err (match p, children_at ns (removelast p) with _ :: _, Some _ => IndexError | _, _ => ValueError end)
    end.
  Proof.
    destruct (pack_roots ns) as [Er Ee].
    assert (G : forall p, match children_at ns p with
      | Some cs => exists l', subsequence_from_node_path (pack ns) p = Ok (map label l') /\ cs = map erase l' /\
                   Forall (placed (pack ns)) l' /\ (forall x, In x l' -> height x <= fuel_of (pack ns))
      | None => subsequence_from_node_path (pack ns) p = Err ValueError
      end).
    { intros q. unfold subsequence_from_node_path. rewrite Er.
      pose proof (subsequence_total (pack ns) (fuel_of (pack ns)) q (labelled ns) (pack_placed ns)
                    (fun x => height_fuel ns x)) as G. now rewrite Ee in G. }
    split.
    - specialize (G p). destruct (children_at ns p) as [cs|]; auto.
      destruct G as [l' [E [-> [Hp Hh]]]]. exists (map label l'). split; auto.
      apply mapM_labels. intros c Hc. rewrite Forall_forall in Hp. apply build_placed; auto.
    - destruct p as [|i p]; [reflexivity|].
      rewrite node_at_children by discriminate. unfold node_id_from_node_path.
      specialize (G (removelast (i :: p))).
      destruct (children_at ns (removelast (i :: p))) as [cs|]; [|rewrite G; reflexivity].
      destruct G as [l' [E [-> [Hp Hh]]]]. rewrite E. cbn [bind lookup].
      rewrite !nth_error_map. destruct (nth_error l' (last (i :: p) 0)) as [x|] eqn:Ex; cbn [option_map]; auto.
      apply nth_error_In in Ex. exists (label x). split; auto. rewrite Forall_forall in Hp. apply build_placed; auto.
  Qed.
End Paths.
