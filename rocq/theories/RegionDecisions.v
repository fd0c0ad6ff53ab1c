(** Model of the solution postprocessing of
    r_u_sure/edit_distance_utility/region_decisions.py, with what it should show
    stated over the tree of the prototype. *)

From Coq Require Import List Bool Arith Lia Sorting.Sorted.
From Verif Require Import Base SeqNodes PackedSeq PackedSeqProofs Numbered Decisions ConstraintSpec ConstraintProofs.
Import ListNotations.

(** region_decisions.py:120-125, [TokenWithRegionMembership]. *)
Definition part : Type := text * bool.
(** The [assignments] dict. *)
Definition assignments : Type := list (dkey * dvalue).

Section Extract.
  Context {M : Type}.
  Notation L := (lnode M).

  (** region_decisions.py:128-192, [extract_sequence_with_regions], from a given
      point of the loop on.  The generator is the list of what it yields and
      the exception that ends it, if any. *)
  Fixpoint extract_from (S : storage M) (asg : assignments) (marker : text) (in_region empty : bool)
      (ids : list node_id) : list part * option exn :=
    match ids with
    | [] => ([], None)
    | i :: ids' =>
        match cat i with
        | CDeco =>
            match lookup (decos S) (idx i) with
            | Ok t => let '(out, e) := extract_from S asg marker in_region false ids' in ((t, in_region) :: out, e)
            | Err e => ([], Some e)
            end
        | CToken =>
            match lookup (tokens S) (idx i) with
            | Ok (t, _) => let '(out, e) := extract_from S asg marker in_region false ids' in ((t, in_region) :: out, e)
            | Err e => ([], Some e)
            end
        | CStart =>
            match assoc (pre i, RegionShouldStart) asg with
            | None => ([], Some KeyError)
            | Some DTrue => extract_from S asg marker true true ids'
            | Some _ => extract_from S asg marker in_region empty ids'
            end
        | CEnd =>
            match assoc (pre i, RegionShouldEnd) asg with
            | None => ([], Some KeyError)
            | Some DTrue =>
                if negb in_region then ([], Some AssertionError)
                else let '(out, e) := extract_from S asg marker false false ids' in
                     ((if empty then [(marker, true)] else []) ++ out, e)
            | Some _ => extract_from S asg marker in_region empty ids'
            end
        | CExit =>
            match assoc (pre i, ShouldEarlyExit) asg with
            | None => ([], Some KeyError)
            | Some DTrue => ([], None)
            | Some _ => extract_from S asg marker in_region empty ids'
            end
        | CGroup => extract_from S asg marker in_region empty ids'
        end
    end.
  Definition extract_sequence_with_regions (prototype : storage M) (asg : assignments) (marker : text) :=
    extract_from prototype asg marker false false (preorder_traversal prototype).

  (** ** What should be shown.  The nodes of a tree in preorder. *)
  Fixpoint nodes (x : L) : list L :=
    x :: match x with LGroup _ cs _ => flat_map nodes cs | _ => [] end.
  Definition text_in (x : L) : option text :=
    match x with LDeco _ t => Some t | LToken _ t _ => Some t | _ => None end.

  Section Spec.
    Context (all : list L) (asg : assignments) (marker : text).
    (** A decision was taken. *)
    Definition taken (c : dcategory) (i : node_id) : Prop := assoc (pre i, c) asg = Some DTrue.
    (** Position [k] lies before every exit taken. *)
    Definition before_exit (k : nat) : Prop :=
      forall i, In (LExit i) all -> taken ShouldEarlyExit i -> k < pre i.
    (** Position [k] lies in a region: a region was started before it and not
        ended in between. *)
    Definition in_region_at (k : nat) : Prop :=
      exists i, In (LStart i) all /\ pre i < k /\ taken RegionShouldStart i /\
        forall j, In (LEnd j) all -> pre i < pre j < k -> ~ taken RegionShouldEnd j.
    (** ... and no text was shown in it so far. *)
    Definition empty_region_at (k : nat) : Prop :=
      exists i, In (LStart i) all /\ pre i < k /\ taken RegionShouldStart i /\
        (forall j, In (LEnd j) all -> pre i < pre j < k -> ~ taken RegionShouldEnd j) /\
        (forall x t, In x all -> text_in x = Some t -> ~ pre i < number x < k).
    (** The parts shown for a list of nodes: every text node before the exit
        with its flag, and a marker at the end of an empty region. *)
    Inductive shown : list L -> list part -> Prop :=
    | sh_nil : shown [] []
    | sh_text x t b l out : text_in x = Some t -> before_exit (number x) ->
        (b = true <-> in_region_at (number x)) ->
        shown l out -> shown (x :: l) ((t, b) :: out)
    | sh_empty j l out : before_exit (pre j) -> taken RegionShouldEnd j -> empty_region_at (pre j) ->
        shown l out -> shown (LEnd j :: l) ((marker, true) :: out)
    | sh_none x l out : (forall t, text_in x = Some t -> ~ before_exit (number x)) ->
        (forall j, x = LEnd j -> ~ (before_exit (pre j) /\ taken RegionShouldEnd j /\ empty_region_at (pre j))) ->
        shown l out -> shown (x :: l) out.
  End Spec.

  (** ** The loop over nodes instead of ids. *)
  Definition prepend (o : list part) (r : list part * option exn) : list part * option exn := (o ++ fst r, snd r).
  Fixpoint go (asg : assignments) (marker : text) (inr emp : bool) (l : list L) : list part * option exn :=
    match l with
    | [] => ([], None)
    | LDeco _ t :: l' => prepend [(t, inr)] (go asg marker inr false l')
    | LToken _ t _ :: l' => prepend [(t, inr)] (go asg marker inr false l')
    | LStart i :: l' =>
        match assoc (pre i, RegionShouldStart) asg with
        | None => ([], Some KeyError)
        | Some DTrue => go asg marker true true l'
        | Some _ => go asg marker inr emp l'
        end
    | LEnd i :: l' =>
        match assoc (pre i, RegionShouldEnd) asg with
        | None => ([], Some KeyError)
        | Some DTrue =>
            if negb inr then ([], Some AssertionError)
            else prepend (if emp then [(marker, true)] else []) (go asg marker false false l')
        | Some _ => go asg marker inr emp l'
        end
    | LExit i :: l' =>
        match assoc (pre i, ShouldEarlyExit) asg with
        | None => ([], Some KeyError)
        | Some DTrue => ([], None)
        | Some _ => go asg marker inr emp l'
        end
    | LGroup _ _ _ :: l' => go asg marker inr emp l'
    end.
  Lemma extract_go S asg marker l : Forall (placed S) l -> forall inr emp,
    extract_from S asg marker inr emp (map label l) = go asg marker inr emp l.
  Proof.
    induction 1 as [|x l Hx HF IH]; intros inr emp; auto. cbn [map extract_from].
    apply placed_inv in Hx. destruct x as [i t|i t m|i|i|i|i cs m]; cbn [label go].
    - destruct Hx as [-> ->]. rewrite IH. unfold prepend. now destruct (go asg marker inr false l).
    - destruct Hx as [-> ->]. rewrite IH. unfold prepend. now destruct (go asg marker inr false l).
    - rewrite Hx. now destruct (assoc (pre i, RegionShouldStart) asg) as [[| |]|].
    - rewrite Hx. destruct (assoc (pre i, RegionShouldEnd) asg) as [[| |]|]; auto. destruct inr; auto. cbn [negb].
      rewrite IH. unfold prepend. now destruct (go asg marker false false l).
    - rewrite Hx. now destruct (assoc (pre i, ShouldEarlyExit) asg) as [[| |]|].
    - destruct Hx as [-> _]. auto.
  Qed.
  Lemma nodes_pre (x : L) : map label (nodes x) = pre_of x.
  Proof.
    induction x as [i t|i t m|i|i|i|i cs m IH] using lnode_ind'; try reflexivity.
    cbn [nodes map label pre_of]. f_equal. induction IH as [|c l Hc HF IHl]; auto.
    cbn [flat_map]. rewrite map_app, Hc. f_equal. apply IHl.
  Qed.
  Lemma nodes_pres (l : list L) : map label (flat_map nodes l) = flat_map pre_of l.
  Proof. induction l as [|c l IH]; auto. cbn [flat_map]. now rewrite map_app, nodes_pre, IH. Qed.
  Lemma nodes_placed S (x : L) : placed S x -> Forall (placed S) (nodes x).
  Proof.
    induction x as [i t|i t m|i|i|i|i cs m IH] using lnode_ind'; intros Hp; cbn [nodes]; constructor; auto.
    apply placed_inv in Hp as [_ [_ F]]. apply Forall_forall. intros y Hy. apply in_flat_map in Hy as [c [Hc Hy]].
    rewrite Forall_forall in IH, F. specialize (IH c Hc (F c Hc)). rewrite Forall_forall in IH. auto.
  Qed.
  Lemma extract_pack (ns : list (node M)) asg marker :
    extract_sequence_with_regions (pack ns) asg marker = go asg marker false false (flat_map nodes (labelled ns)).
  Proof.
    unfold extract_sequence_with_regions.
    replace (preorder_traversal (pack ns)) with (map label (flat_map nodes (labelled ns)))
      by now rewrite nodes_pres, pack_labelled.
    apply extract_go. apply Forall_forall. intros y Hy. apply in_flat_map in Hy as [c [Hc Hy]].
    pose proof (pack_placed ns) as F. rewrite Forall_forall in F.
    pose proof (nodes_placed _ _ (F c Hc)) as G. rewrite Forall_forall in G. auto.
  Qed.

  (** ** Numbers increase along the nodes. *)
  Lemma nodes_sorted_upto n : forall l : list L, lsizes l <= n -> forall p, numbered p l ->
    StronglySorted (fun x y => number x < number y) (flat_map nodes l) /\
    Forall (fun x => p <= number x < p + lsizes l) (flat_map nodes l).
  Proof.
    induction n as [|n IH]; intros [|x l] Hs p Hn; try (cbn; split; constructor); rewrite lsizes_cons in *; pose proof (lsize_pos x) as Px; [lia|].
    cbn [flat_map]; inversion Hn as [|? ? ? E1 E2 E3|? i cs m ? E1 E2 E3]; subst.
    - assert (Hx : nodes x = [x]) by (destruct x; auto; now destruct (E2 i cs m)).
      assert (H1 : lsize x = 1) by (destruct x; auto; now destruct (E2 i cs m)).
      rewrite Hx. apply IH in E3 as [S1 F1]; [|lia]. cbn [app]. split; constructor; auto; [| lia |];
      (eapply Forall_impl; [|exact F1]); cbn; intros; lia.
    - rewrite lsize_group in *. apply IH in E3 as [S1 F1]; [|lia]. apply IH in E2 as [S2 F2]; [|lia].
      cbn [nodes app]. split; constructor.
      + revert S2 F2. generalize (flat_map nodes cs). intros k S2 F2. induction S2 as [|y k S2 IHk F3]; auto.
        cbn [app]. inversion F2 as [|? ? A B]; subst. constructor; auto. apply Forall_app. split; auto.
        eapply Forall_impl; [|exact F1]. cbn. intros; lia.
      + apply Forall_app. split; [eapply Forall_impl; [|exact F2]|eapply Forall_impl; [|exact F1]]; cbn; unfold number; cbn; intros; lia.
      + unfold number; cbn; lia.
      + apply Forall_app. split; [eapply Forall_impl; [|exact F2]|eapply Forall_impl; [|exact F1]]; cbn; intros; lia.
  Qed.
  Lemma nodes_sorted (l : list L) p : numbered p l -> StronglySorted (fun x y => number x < number y) (flat_map nodes l).
  Proof. intros Hn. now apply (nodes_sorted_upto (lsizes l) l (le_n _) p). Qed.
End Extract.
