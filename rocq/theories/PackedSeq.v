(** Model of r_u_sure/tree_structure/packed_sequence_nodes.py. *)

From Coq Require Import List Bool Arith Lia.
From Verif Require Import Base SeqNodes.
Import ListNotations.

(** packed_sequence_nodes.py:29-45.  [INVALID] never appears in an id (42) and is
    left out. *)
Inductive category := CDeco | CToken | CStart | CEnd | CExit | CGroup.

(** packed_sequence_nodes.py:52-70.  [idx] is [None] for the -1 of nodes without
    stored data. *)
Record node_id := mkId { pre : nat; cat : category; idx : option nat }.

(** packed_sequence_nodes.py:82-93.  [parent] is [None] for the -1 of the root
    sequence. *)
Record position := mkPos { parent : option nat; offset : nat }.

Section Packed.
  Context {M : Type}.
  Notation N := (node M).

  (** packed_sequence_nodes.py:121-169. *)
  Record storage := mkStorage {
    root_sequence : list node_id;
    preorder_traversal : list node_id;
    decos : list text;
    tokens : list (text * M);
    groups : list (list node_id * M);
    parents : list position;
    levels : list nat;
    depth : nat }.

  (** The growing lists of [pack], and [max_level] (279). *)
  Record builder := mkB {
    b_pre : list node_id;
    b_decos : list text;
    b_tokens : list (text * M);
    b_groups : list (list node_id * M);
    b_parents : list position;
    b_levels : list nat;
    b_max : nat }.

  (** 301-303 and the like: append the id, its position and its level. *)
  Definition record_id (i : node_id) (p : position) (lvl : nat) (b : builder) : builder :=
    mkB (b_pre b ++ [i]) (b_decos b) (b_tokens b) (b_groups b)
        (b_parents b ++ [p]) (b_levels b ++ [lvl]) (b_max b).

  (** 349, [the_group.children_ids.append(child_id)], where [the_group] is the
      object stored at index [g] of [group_nodes]. *)
  Definition add_child (g : nat) (c : node_id) (b : builder) : builder :=
    mkB (b_pre b) (b_decos b) (b_tokens b)
        (match nth_error (b_groups b) g with
         | Some (cs, m) => updnth g (cs ++ [c], m) (b_groups b)
         | None => b_groups b
         end)
        (b_parents b) (b_levels b) (b_max b).

  (** packed_sequence_nodes.py:281-387, [preorder_traversal].  The numba typed
      lists of [as_numba_typed] behave as the Python lists. *)
  Fixpoint pack_node (n : N) (p : position) (lvl : nat) (b0 : builder) {struct n}
    : node_id * builder :=
    let b := mkB (b_pre b0) (b_decos b0) (b_tokens b0) (b_groups b0)
                 (b_parents b0) (b_levels b0) (Nat.max (b_max b0) lvl) in
    let next := length (b_pre b) in
    match n with
    | Deco t =>
        let i := mkId next CDeco (Some (length (b_decos b))) in
        (i, record_id i p lvl
              (mkB (b_pre b) (b_decos b ++ [t]) (b_tokens b) (b_groups b)
                   (b_parents b) (b_levels b) (b_max b)))
    | Token t m =>
        let i := mkId next CToken (Some (length (b_tokens b))) in
        (i, record_id i p lvl
              (mkB (b_pre b) (b_decos b) (b_tokens b ++ [(t, m)]) (b_groups b)
                   (b_parents b) (b_levels b) (b_max b)))
    | Group cs m =>
        let g := length (b_groups b) in
        let i := mkId next CGroup (Some g) in
        let b1 := record_id i p lvl
                    (mkB (b_pre b) (b_decos b) (b_tokens b) (b_groups b ++ [([], m)])
                         (b_parents b) (b_levels b) (b_max b)) in
        (i, (fix go (k : nat) (l : list N) (b : builder) : builder :=
               match l with
               | [] => b
               | c :: l' =>
                   let '(ci, b') := pack_node c (mkPos (Some next) k) (lvl + 1) b in
                   go (S k) l' (add_child g ci b')
               end) 0 cs b1)
    | RegionStart => let i := mkId next CStart None in (i, record_id i p lvl b)
    | RegionEnd => let i := mkId next CEnd None in (i, record_id i p lvl b)
    | EarlyExit => let i := mkId next CExit None in (i, record_id i p lvl b)
    end.

  (** The loop over children (343-349), named. *)
  Fixpoint pack_children (par lvl g k : nat) (l : list N) (b : builder) : builder :=
    match l with
    | [] => b
    | c :: l' =>
        let '(ci, b') := pack_node c (mkPos (Some par) k) lvl b in
        pack_children par lvl g (S k) l' (add_child g ci b')
    end.

  (** The loop over the root sequence (389-394). *)
  Fixpoint pack_root (k : nat) (l : list N) (roots : list node_id) (b : builder)
    : list node_id * builder :=
    match l with
    | [] => (roots, b)
    | c :: l' =>
        let '(ci, b') := pack_node c (mkPos None k) 0 b in
        pack_root (S k) l' (roots ++ [ci]) b'
    end.

  (** packed_sequence_nodes.py:215-405. *)
  Definition pack (ns : list N) : storage :=
    let '(roots, b) := pack_root 0 ns [] (mkB [] [] [] [] [] [] 0) in
    mkStorage roots (b_pre b) (b_decos b) (b_tokens b) (b_groups b)
              (b_parents b) (b_levels b) (b_max b + 1).

  (** A recursion over ids that the storage might make infinite: the fuel is
      one more than the number of stored nodes and running out stands for Python's
      RecursionError. *)
  Definition fuel_of (S : storage) : nat := Datatypes.S (length (preorder_traversal S)).

  Definition lookup {A} (l : list A) (i : option nat) : result A :=
    match i with
    | None => Err IndexError
    | Some k => match nth_error l k with Some x => Ok x | None => Err IndexError end
    end.

  (** packed_sequence_nodes.py:413-439, [build]. *)
  Fixpoint build (fuel : nat) (S : storage) (i : node_id) : result N :=
    match fuel with
    | 0 => Err RuntimeError
    | Datatypes.S f =>
        match cat i with
        | CDeco => do t <- lookup (decos S) (idx i); Ok (Deco t)
        | CToken => do x <- lookup (tokens S) (idx i); Ok (Token (fst x) (snd x))
        | CGroup => do x <- lookup (groups S) (idx i);
                    do cs <- mapM (build f S) (fst x); Ok (Group cs (snd x))
        | CStart => Ok RegionStart
        | CEnd => Ok RegionEnd
        | CExit => Ok EarlyExit
        end
    end.
  (** packed_sequence_nodes.py:408-441. *)
  Definition unpack (S : storage) : result (list N) :=
    mapM (build (fuel_of S) S) (root_sequence S).

  (** packed_sequence_nodes.py:448-492, [render_text_contents_of_node] and
      [..._of_list]. *)
  Fixpoint render_id (fuel : nat) (S : storage) (i : node_id) : result text :=
    match fuel with
    | 0 => Err RuntimeError
    | Datatypes.S f =>
        match cat i with
        | CDeco => lookup (decos S) (idx i)
        | CToken => do x <- lookup (tokens S) (idx i); Ok (fst x)
        | CGroup => do x <- lookup (groups S) (idx i);
                    do ts <- mapM (render_id f S) (fst x); Ok (concat ts)
        | _ => Ok []
        end
    end.
  Definition render_ids (S : storage) (l : list node_id) : result text :=
    do ts <- mapM (render_id (fuel_of S) S) l; Ok (concat ts).

  (** packed_sequence_nodes.py:495-517. *)
  Inductive visit := VLeaf | VBefore | VAfter.

  (** packed_sequence_nodes.py:531-564, [do_in_order_traversal] on one id; [dest]
      is the concatenation of the results. *)
  Fixpoint in_order_id (fuel : nat) (S : storage) (strip : bool) (i : node_id)
    : result (list (visit * node_id)) :=
    match fuel with
    | 0 => Err RuntimeError
    | Datatypes.S f =>
        match cat i with
        | CGroup => do x <- lookup (groups S) (idx i);
                    do inner <- mapM (in_order_id f S strip) (fst x);
                    Ok ((VBefore, i) :: concat inner ++ [(VAfter, i)])
        | CDeco => Ok (if strip then [] else [(VLeaf, i)])
        | _ => Ok [(VLeaf, i)]
        end
    end.
  (** packed_sequence_nodes.py:572-592. *)
  Definition in_order_traversal (S : storage) (strip : bool)
    : result (list (visit * node_id)) :=
    do l <- mapM (in_order_id (fuel_of S) S strip) (root_sequence S); Ok (concat l).

  (** packed_sequence_nodes.py:182-201, [subsequence_from_node_path]; positions
      are natural numbers, so only the upper bound can be violated. *)
  Fixpoint subsequence (S : storage) (l : list node_id) (p : path) : result (list node_id) :=
    match p with
    | [] => Ok l
    | k :: p' =>
        match nth_error l k with
        | None => Err ValueError
        | Some i =>
            match cat i with
            | CGroup => do x <- lookup (groups S) (idx i); subsequence S (fst x) p'
            | _ => Err ValueError
            end
        end
    end.
  Definition subsequence_from_node_path (S : storage) (p : path) : result (list node_id) :=
    subsequence S (root_sequence S) p.
  (** packed_sequence_nodes.py:171-180. *)
  Definition node_id_from_node_path (S : storage) (p : path) : result node_id :=
    match p with
    | [] => Err ValueError
    | _ => do l <- subsequence_from_node_path S (removelast p);
           lookup l (Some (last p 0))
    end.

  (** packed_sequence_nodes.py:203-212: the [while] loop; the path is built by
      prepending, which is the reversal of line 212.  The fuel bounds a loop that
      a cyclic parent table would make infinite. *)
  Fixpoint climb (fuel : nat) (S : storage) (i : option nat) (acc : path) : result path :=
    match i with
    | None => Ok acc
    | Some k =>
        match fuel with
        | 0 => Err RuntimeError
        | Datatypes.S f =>
            do x <- lookup (parents S) (Some k); climb f S (parent x) (offset x :: acc)
        end
    end.
  Definition path_from_preorder_index (S : storage) (k : nat) : result path :=
    climb (fuel_of S) S (Some k) [].
End Packed.
Arguments storage : clear implicits.
Arguments builder : clear implicits.

(** ** Labelled trees: what [pack] stores, as a tree. *)
Inductive lnode (M : Type) :=
| LDeco (i : node_id) (t : text)
| LToken (i : node_id) (t : text) (m : M)
| LStart (i : node_id)
| LEnd (i : node_id)
| LExit (i : node_id)
| LGroup (i : node_id) (cs : list (lnode M)) (m : M).
Arguments LDeco {M}. Arguments LToken {M}. Arguments LStart {M}.
Arguments LEnd {M}. Arguments LExit {M}. Arguments LGroup {M}.

Section LnodeInd.
  Context {M : Type} (P : lnode M -> Prop).
  Hypothesis HDeco : forall i t, P (LDeco i t).
  Hypothesis HToken : forall i t m, P (LToken i t m).
  Hypothesis HStart : forall i, P (LStart i).
  Hypothesis HEnd : forall i, P (LEnd i).
  Hypothesis HExit : forall i, P (LExit i).
  Hypothesis HGroup : forall i cs m, Forall P cs -> P (LGroup i cs m).
  Fixpoint lnode_ind' (n : lnode M) : P n :=
    match n with
    | LDeco i t => HDeco i t
    | LToken i t m => HToken i t m
    | LStart i => HStart i
    | LEnd i => HEnd i
    | LExit i => HExit i
    | LGroup i cs m =>
        HGroup i cs m ((fix go l := match l return Forall P l with
                                  | [] => Forall_nil P
                                  | c :: l' => Forall_cons c (lnode_ind' c) (go l')
                                  end) cs)
    end.
End LnodeInd.

Section Labelled.
  Context {M : Type}.
  Notation N := (node M).
  Notation L := (lnode M).

  Definition label (x : L) : node_id :=
    match x with
    | LDeco i _ | LToken i _ _ | LStart i | LEnd i | LExit i | LGroup i _ _ => i
    end.
  Fixpoint erase (x : L) : N :=
    match x with
    | LDeco _ t => Deco t
    | LToken _ t m => Token t m
    | LStart _ => RegionStart
    | LEnd _ => RegionEnd
    | LExit _ => EarlyExit
    | LGroup _ cs m => Group (map erase cs) m
    end.

  Fixpoint size (n : N) : nat :=
    match n with Group cs _ => S (list_sum (map size cs)) | _ => 1 end.
  Fixpoint n_decos (n : N) : nat :=
    match n with Group cs _ => list_sum (map n_decos cs) | Deco _ => 1 | _ => 0 end.
  Fixpoint n_tokens (n : N) : nat :=
    match n with Group cs _ => list_sum (map n_tokens cs) | Token _ _ => 1 | _ => 0 end.
  Fixpoint n_groups (n : N) : nat :=
    match n with Group cs _ => S (list_sum (map n_groups cs)) | _ => 0 end.

  (** The ids that nodes receive when [p] ids, [d] decorations, [t] tokens and
      [g] groups have been stored before. *)
  Fixpoint lab (p d t g : nat) (n : N) {struct n} : L :=
    match n with
    | Deco x => LDeco (mkId p CDeco (Some d)) x
    | Token x m => LToken (mkId p CToken (Some t)) x m
    | RegionStart => LStart (mkId p CStart None)
    | RegionEnd => LEnd (mkId p CEnd None)
    | EarlyExit => LExit (mkId p CExit None)
    | Group cs m =>
        LGroup (mkId p CGroup (Some g))
          ((fix go (p d t g : nat) (l : list N) : list L :=
              match l with
              | [] => []
              | c :: l' => lab p d t g c
                             :: go (p + size c) (d + n_decos c) (t + n_tokens c) (g + n_groups c) l'
              end) (S p) d t (S g) cs) m
    end.
  Fixpoint labs (p d t g : nat) (l : list N) : list L :=
    match l with
    | [] => []
    | c :: l' => lab p d t g c
                   :: labs (p + size c) (d + n_decos c) (t + n_tokens c) (g + n_groups c) l'
    end.
  Lemma lab_group p d t g cs m :
    lab p d t g (Group cs m) = LGroup (mkId p CGroup (Some g)) (labs (S p) d t (S g) cs) m.
  Proof.
    reflexivity.
  Qed.

  (** What is stored for a labelled tree. *)
  Fixpoint pre_of (x : L) : list node_id :=
    label x :: match x with LGroup _ cs _ => flat_map pre_of cs | _ => [] end.
  Fixpoint decos_of (x : L) : list text :=
    match x with LDeco _ t => [t] | LGroup _ cs _ => flat_map decos_of cs | _ => [] end.
  Fixpoint tokens_of (x : L) : list (text * M) :=
    match x with LToken _ t m => [(t, m)] | LGroup _ cs _ => flat_map tokens_of cs | _ => [] end.
  Fixpoint groups_of (x : L) : list (list node_id * M) :=
    match x with
    | LGroup _ cs m => (map label cs, m) :: flat_map groups_of cs
    | _ => []
    end.
  Fixpoint parents_of (p : position) (x : L) {struct x} : list position :=
    p :: match x with
         | LGroup i cs _ =>
             (fix go (k : nat) (l : list L) : list position :=
                match l with
                | [] => []
                | c :: l' => parents_of (mkPos (Some (pre i)) k) c ++ go (S k) l'
                end) 0 cs
         | _ => []
         end.
  Fixpoint parents_of_list (par : option nat) (k : nat) (l : list L) : list position :=
    match l with
    | [] => []
    | c :: l' => parents_of (mkPos par k) c ++ parents_of_list par (S k) l'
    end.
  Lemma parents_of_group p i cs m :
    parents_of p (LGroup i cs m) = p :: parents_of_list (Some (pre i)) 0 cs.
  Proof.
    cbn [parents_of]. f_equal. generalize 0. induction cs as [|c cs IH]; intros; auto.
    cbn [parents_of_list]. now rewrite IH.
  Qed.
  Fixpoint levels_of (lvl : nat) (x : L) : list nat :=
    lvl :: match x with LGroup _ cs _ => flat_map (levels_of (lvl + 1)) cs | _ => [] end.
  Fixpoint max_of (lvl : nat) (x : L) : nat :=
    match x with
    | LGroup _ cs _ => fold_left (fun b c => Nat.max b (max_of (lvl + 1) c)) cs lvl
    | _ => lvl
    end.

  Lemma fold_max_shift {A} (f : A -> nat) l : forall a b,
    fold_left (fun b c => Nat.max b (f c)) l (Nat.max a b) =
    Nat.max a (fold_left (fun b c => Nat.max b (f c)) l b).
  Proof.
    induction l as [|x l IH]; intros a b; cbn [fold_left]; auto.
    rewrite <- Nat.max_assoc. apply IH.
  Qed.

  Lemma size_erase_lens p d t g n :
    length (pre_of (lab p d t g n)) = size n /\
    length (decos_of (lab p d t g n)) = n_decos n /\
    length (tokens_of (lab p d t g n)) = n_tokens n /\
    length (groups_of (lab p d t g n)) = n_groups n.
  Proof.
    revert p d t g. induction n as [x|x mm| | | |cs m IH] using node_ind'; intros p d t g;
      try (splits; reflexivity).
    rewrite lab_group. cbn [pre_of decos_of tokens_of groups_of size n_decos n_tokens n_groups].
    assert (E : forall p d t g,
      length (flat_map pre_of (labs p d t g cs)) = list_sum (map size cs) /\
      length (flat_map decos_of (labs p d t g cs)) = list_sum (map n_decos cs) /\
      length (flat_map tokens_of (labs p d t g cs)) = list_sum (map n_tokens cs) /\
      length (flat_map groups_of (labs p d t g cs)) = list_sum (map n_groups cs)).
    { clear p d t g. induction IH as [|c l Hc HF IHl]; intros p d t g; [splits; reflexivity|].
      cbn [labs flat_map map list_sum fold_right]. rewrite !app_length.
      destruct (Hc p d t g) as [-> [-> [-> ->]]].
      destruct (IHl (p + size c) (d + n_decos c) (t + n_tokens c) (g + n_groups c))
        as [-> [-> [-> ->]]]. splits; reflexivity. }
    destruct (E (S p) d t (S g)) as [E1 [E2 [E3 E4]]].
    cbn [length]. splits; auto.
  Qed.

  Lemma erase_lab p d t g n : erase (lab p d t g n) = n.
  Proof.
    revert p d t g. induction n as [x|x mm| | | |cs m IH] using node_ind'; intros; try reflexivity.
    rewrite lab_group. cbn [erase]. f_equal. generalize (S p) d t (S g). clear p d t g.
    induction IH as [|c l Hc HF IHl]; intros; auto. cbn [labs map]. now rewrite Hc, IHl.
  Qed.
  Lemma erase_labs l : forall p d t g, map erase (labs p d t g l) = l.
  Proof. induction l; intros; auto. cbn [labs map]. now rewrite erase_lab, IHl. Qed.

  (** The builder after storing a labelled tree. *)
  Definition stored (p : position) (lvl : nat) (x : L) (b : builder M) : builder M :=
    mkB (b_pre b ++ pre_of x) (b_decos b ++ decos_of x) (b_tokens b ++ tokens_of x)
        (b_groups b ++ groups_of x) (b_parents b ++ parents_of p x)
        (b_levels b ++ levels_of lvl x) (Nat.max (b_max b) (max_of lvl x)).
  Definition lab_at (b : builder M) (n : N) : L :=
    lab (length (b_pre b)) (length (b_decos b)) (length (b_tokens b)) (length (b_groups b)) n.

  Lemma updnth_app {A} (l1 l2 : list A) x y :
    updnth (length l1) x (l1 ++ y :: l2) = l1 ++ x :: l2.
  Proof. induction l1; [reflexivity|]. simpl length. cbn [app]. now rewrite updnth_cons_S, IHl1. Qed.
  Lemma nth_error_app_here {A} (l1 l2 : list A) y : nth_error (l1 ++ y :: l2) (length l1) = Some y.
  Proof. induction l1; simpl; auto. Qed.

  Lemma pack_node_group (cs : list N) m p lvl b :
    pack_node (Group cs m) p lvl b =
    let i := mkId (length (b_pre b)) CGroup (Some (length (b_groups b))) in
    (i, pack_children (length (b_pre b)) (lvl + 1) (length (b_groups b)) 0 cs
          (mkB (b_pre b ++ [i]) (b_decos b) (b_tokens b) (b_groups b ++ [([], m)])
               (b_parents b ++ [p]) (b_levels b ++ [lvl]) (Nat.max (b_max b) lvl))).
  Proof.
    cbn [pack_node b_pre b_groups]. unfold record_id.
    cbn [b_pre b_decos b_tokens b_groups b_parents b_levels b_max]. f_equal.
    generalize (lvl + 1) as lvl1. intros lvl1. generalize 0 as k.
    generalize (mkB (b_pre b ++ [mkId (length (b_pre b)) CGroup (Some (length (b_groups b)))])
      (b_decos b) (b_tokens b) (b_groups b ++ [([], m)])
               (b_parents b ++ [p]) (b_levels b ++ [lvl]) (Nat.max (b_max b) lvl)) as b1.
    induction cs as [|c cs IH]; intros b1 k; auto. cbn [pack_children].
    destruct (pack_node c _ _ b1). apply IH.
  Qed.

  Lemma pack_node_stored (n : N) : forall p lvl b,
    pack_node n p lvl b = (label (lab_at b n), stored p lvl (lab_at b n) b).
  Proof.
    induction n as [x|x mm| | | |cs m IH] using node_ind'; intros p lvl b;
      try (unfold stored; simpl; unfold record_id; simpl; rewrite ?app_nil_r; reflexivity).
    rewrite pack_node_group. unfold lab_at. rewrite lab_group. cbn zeta. cbn [label]. f_equal.
    set (i := mkId (length (b_pre b)) CGroup (Some (length (b_groups b)))).
    set (b1 := mkB _ _ _ _ _ _ _).
    (* generalised over the children stored so far *)
    assert (G : forall l, Forall (fun n => forall p lvl b,
                 pack_node n p lvl b = (label (lab_at b n), stored p lvl (lab_at b n) b)) l ->
      forall k done (b2 : builder M) gs,
        b_groups b2 = b_groups b ++ (done, m) :: gs ->
        pack_children (length (b_pre b)) (lvl + 1) (length (b_groups b)) k l b2 =
        let xs := labs (length (b_pre b2)) (length (b_decos b2)) (length (b_tokens b2))
                       (length (b_groups b2)) l in
        mkB (b_pre b2 ++ flat_map pre_of xs) (b_decos b2 ++ flat_map decos_of xs)
            (b_tokens b2 ++ flat_map tokens_of xs)
            (b_groups b ++ (done ++ map label xs, m) :: gs ++ flat_map groups_of xs)
            (b_parents b2 ++ parents_of_list (Some (length (b_pre b))) k xs)
            (b_levels b2 ++ flat_map (levels_of (lvl + 1)) xs)
            (fold_left (fun b c => Nat.max b (max_of (lvl + 1) c)) xs (b_max b2))).
    { clear b1 IH. intros l HF. induction HF as [|c l Hc HF IHl]; intros k done b2 gs Eg.
      - cbn. rewrite !app_nil_r. destruct b2; simpl in *. now subst.
      - cbn [pack_children]. rewrite Hc.
        set (x := lab_at b2 c).
        assert (Eg' : b_groups (add_child (length (b_groups b)) (label x) (stored (mkPos (Some (length (b_pre b))) k) (lvl + 1) x b2))
                      = b_groups b ++ (done ++ [label x], m) :: (gs ++ groups_of x)).
        { unfold add_child, stored. cbn [b_groups]. rewrite Eg, <- app_assoc. cbn [app].
          rewrite nth_error_app_here. now rewrite updnth_app. }
        rewrite (IHl _ _ _ _ Eg').
        assert (S1 : length (pre_of x) = size c) by apply size_erase_lens.
        assert (S2 : length (decos_of x) = n_decos c) by apply size_erase_lens.
        assert (S3 : length (tokens_of x) = n_tokens c) by apply size_erase_lens.
        assert (S4 : length (groups_of x) = n_groups c) by apply size_erase_lens.
        assert (Lg : length (b_groups b ++ (done ++ [label x], m) :: gs ++ groups_of x)
                     = length (b_groups b2) + n_groups c).
        { rewrite Eg. rewrite !app_length. cbn [length]. rewrite app_length. rewrite S4. lia. }
        rewrite Eg', Lg. clear Eg' Lg IHl.
        unfold add_child, stored.
        cbn [b_pre b_decos b_tokens b_groups b_parents b_levels b_max].
        rewrite !app_length. rewrite S1, S2, S3.
        cbn zeta. cbn [labs flat_map map parents_of_list fold_left].
        change (lab (length (b_pre b2)) (length (b_decos b2)) (length (b_tokens b2))
                  (length (b_groups b2)) c) with x.
        f_equal; rewrite <- ?app_assoc; auto. }
    rewrite (G cs IH 0 [] b1 []) by reflexivity. clear G. cbn zeta.
    unfold stored, b1. cbn [b_pre b_decos b_tokens b_groups b_parents b_levels b_max].
    rewrite !app_length. cbn [length app]. rewrite !Nat.add_1_r.
    rewrite parents_of_group. cbn [pre_of label decos_of tokens_of groups_of levels_of max_of pre].
    rewrite fold_max_shift. unfold i. rewrite Nat.add_1_r.
    f_equal; rewrite <- ?app_assoc; reflexivity.
  Qed.

  Lemma pack_root_stored (l : list N) : forall k roots (b : builder M),
    pack_root k l roots b =
    let xs := labs (length (b_pre b)) (length (b_decos b)) (length (b_tokens b))
                   (length (b_groups b)) l in
    (roots ++ map label xs,
     mkB (b_pre b ++ flat_map pre_of xs) (b_decos b ++ flat_map decos_of xs)
         (b_tokens b ++ flat_map tokens_of xs) (b_groups b ++ flat_map groups_of xs)
         (b_parents b ++ parents_of_list None k xs)
         (b_levels b ++ flat_map (levels_of 0) xs)
         (fold_left (fun b c => Nat.max b (max_of 0 c)) xs (b_max b))).
  Proof.
    induction l as [|c l IH]; intros k roots b.
    - cbn. rewrite !app_nil_r. destruct b; reflexivity.
    - cbn [pack_root]. rewrite pack_node_stored, IH. clear IH. cbn zeta.
      set (x := lab_at b c).
      assert (S1 : length (pre_of x) = size c) by apply size_erase_lens.
      assert (S2 : length (decos_of x) = n_decos c) by apply size_erase_lens.
      assert (S3 : length (tokens_of x) = n_tokens c) by apply size_erase_lens.
      assert (S4 : length (groups_of x) = n_groups c) by apply size_erase_lens.
      unfold stored. cbn [b_pre b_decos b_tokens b_groups b_parents b_levels b_max].
      rewrite !app_length. rewrite S1, S2, S3, S4.
      cbn [labs flat_map map parents_of_list fold_left].
      change (lab (length (b_pre b)) (length (b_decos b)) (length (b_tokens b))
                  (length (b_groups b)) c) with x.
      rewrite <- !app_assoc. cbn [app]. reflexivity.
  Qed.

  (** [pack] computes exactly the labelled tree. *)
  Definition labelled (ns : list N) : list L := labs 0 0 0 0 ns.
  Lemma pack_labelled (ns : list N) :
    pack ns =
    let xs := labelled ns in
    mkStorage (map label xs) (flat_map pre_of xs) (flat_map decos_of xs)
      (flat_map tokens_of xs) (flat_map groups_of xs) (parents_of_list None 0 xs)
      (flat_map (levels_of 0) xs)
      (fold_left (fun b c => Nat.max b (max_of 0 c)) xs 0 + 1).
  Proof. unfold pack. rewrite pack_root_stored. reflexivity. Qed.
End Labelled.
