(** Trees of node ids read back from a packed sequence, as the DAG builders read
    them, and the numbering of their nodes in preorder. *)

From Coq Require Import List Bool Arith Lia.
From Verif Require Import Base SeqNodes PackedSeq PackedSeqProofs.
Import ListNotations.

Section Numbered.
  Context {M : Type}.
  Notation N := (node M).
  Notation L := (lnode M).

  (** The builders of edit_dags.py and constraint_dags.py walk a list of ids and
      look every id up in the storage (e.g. constraint_dags.py:291-327,
      [prototype_storage.group_nodes[node_id.index_in_category]]).  We read the
      tree of ids and contents first and walk that.  Simplification: a lookup
      that fails, fails before any edge is made. *)
  Fixpoint read_node (fuel : nat) (S : storage M) (i : node_id) : result L :=
    match fuel with
    | 0 => Err RuntimeError
    | Datatypes.S f =>
        match cat i with
        | CDeco => do t <- lookup (decos S) (idx i); Ok (LDeco i t)
        | CToken => do x <- lookup (tokens S) (idx i); Ok (LToken i (fst x) (snd x))
        | CGroup => do x <- lookup (groups S) (idx i);
                    do cs <- mapM (read_node f S) (fst x); Ok (LGroup i cs (snd x))
        | CStart => Ok (LStart i)
        | CEnd => Ok (LEnd i)
        | CExit => Ok (LExit i)
        end
    end.
  Definition read_tree (S : storage M) : result (list L) :=
    mapM (read_node (fuel_of S) S) (root_sequence S).

  Lemma read_placed S (x : L) : forall f, placed S x -> height x <= f ->
    read_node f S (label x) = Ok x.
  Proof.
    induction x as [i t|i t m|i|i|i|i cs m IH] using lnode_ind'; intros f Hp Hf;
      (destruct f as [|f]; [simpl in Hf; lia|]); apply placed_inv in Hp; cbn [read_node label].
    - destruct Hp as [-> ->]. reflexivity.
    - destruct Hp as [-> ->]. reflexivity.
    - now rewrite Hp.
    - now rewrite Hp.
    - now rewrite Hp.
    - destruct Hp as [-> [-> F]]. cbn [bind fst snd].
      rewrite (mapM_labels _ (fun c => c)); [cbn [bind]; now rewrite map_id|].
      intros c Hc. rewrite Forall_forall in IH, F. apply IH; auto.
      eapply height_child; eauto.
  Qed.
  Theorem read_pack (ns : list N) : read_tree (pack ns) = Ok (labelled ns).
  Proof.
    unfold read_tree. replace (root_sequence (pack ns)) with (map label (labelled ns))
      by now rewrite pack_labelled.
    rewrite (mapM_labels _ (fun c => c)).
    - now rewrite map_id.
    - intros c Hc. apply read_placed; [|now apply height_fuel].
      pose proof (pack_placed ns) as F. rewrite Forall_forall in F. auto.
  Qed.

  (** ** Consecutive preorder numbers. *)
  Fixpoint lsize (x : L) : nat :=
    match x with LGroup _ cs _ => S (list_sum (map lsize cs)) | _ => 1 end.
  Definition lsizes (l : list L) : nat := list_sum (map lsize l).
  Definition number (x : L) : nat := pre (label x).
  Inductive numbered : nat -> list L -> Prop :=
  | nm_nil p : numbered p []
  | nm_leaf p x l : number x = p -> (forall i cs m, x <> LGroup i cs m) -> numbered (S p) l -> numbered p (x :: l)
  | nm_group p i cs m l : pre i = p -> numbered (S p) cs -> numbered (S (p + lsizes cs)) l ->
      numbered p (LGroup i cs m :: l).

  Lemma lsize_lab (n : N) : forall p d t g, lsize (lab p d t g n) = size n.
  Proof.
    induction n as [x|x mm| | | |cs m IH] using node_ind'; intros p d t g; try reflexivity.
    rewrite lab_group. cbn [lsize size]. f_equal. generalize (S p) d t (S g). clear p d t g.
    induction IH as [|c l Hc HF IHl]; intros p d t g; auto.
    cbn [labs map list_sum fold_right]. rewrite Hc. f_equal. apply IHl.
  Qed.
  Lemma lsizes_labs l : forall p d t g, lsizes (labs p d t g l) = list_sum (map size l).
  Proof.
    induction l as [|c l IH]; intros p d t g; auto. cbn [labs]. unfold lsizes in *.
    cbn [map list_sum fold_right]. now rewrite lsize_lab, IH.
  Qed.
  Lemma labs_numbered_upto k : forall l, list_sum (map size l) <= k -> forall p d t g, numbered p (labs p d t g l).
  Proof.
    induction k as [|k IH]; intros [|c l] Hk p d t g; try apply nm_nil.
    - cbn in Hk. destruct c; cbn in Hk; lia.
    - cbn [labs]. cbn [map list_sum fold_right] in Hk. destruct c as [x|x mm| | | |cs m];
        try (apply nm_leaf; [reflexivity|discriminate|]; cbn [size]; rewrite Nat.add_1_r; apply IH; cbn [size] in Hk; unfold list_sum in *; lia).
      rewrite lab_group. cbn [size] in *. apply nm_group; [reflexivity|apply IH; unfold list_sum in *; lia|].
      rewrite lsizes_labs. replace (S (p + list_sum (map size cs))) with (p + S (list_sum (map size cs))) by lia.
      apply IH. unfold list_sum in *; lia.
  Qed.
  Lemma labelled_numbered (ns : list N) : numbered 0 (labelled ns).
  Proof. eapply labs_numbered_upto; eauto. Qed.

  Lemma lsizes_cons x l : lsizes (x :: l) = lsize x + lsizes l.
  Proof. reflexivity. Qed.
  Lemma lsizes_app l l' : lsizes (l ++ l') = lsizes l + lsizes l'.
  Proof. induction l as [|x l IH]; auto. cbn [app]. rewrite !lsizes_cons, IH. lia. Qed.
  Lemma lsize_group i cs m : lsize (LGroup i cs m) = S (lsizes cs).
  Proof. reflexivity. Qed.
  Lemma lsize_pos x : 0 < lsize x.
  Proof. destruct x; cbn; lia. Qed.
  Lemma numbered_app p l l' : numbered p (l ++ l') -> numbered p l /\ numbered (p + lsizes l) l'.
  Proof.
    revert p. induction l as [|x l IH]; intros p Hn; cbn [app] in *.
    - split; [constructor|]. unfold lsizes. cbn. now rewrite Nat.add_0_r.
    - rewrite lsizes_cons. inversion Hn as [|? ? ? E1 E2 E3|? i cs m ? E1 E2 E3]; subst.
      + apply IH in E3 as [A B]. split; [now constructor|]. replace (lsize x) with 1; [|destruct x; auto; now destruct (E2 i cs m)].
        replace (number x + (1 + lsizes l)) with (S (number x) + lsizes l) by lia. auto.
      + apply IH in E3 as [A B]. split; [now apply nm_group|]. rewrite lsize_group.
        replace (pre i + (S (lsizes cs) + lsizes l)) with (S (pre i + lsizes cs) + lsizes l) by lia. auto.
  Qed.
End Numbered.
