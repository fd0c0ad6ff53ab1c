(** The call-sequence wrapper as a whole: context tokens, where the search
    starts, and what its prototypes and targets look like to the part-selection
    DAG. *)

From Coq Require Import String.
From Coq Require Import List Bool Arith Lia ZArith QArith Qcanon.
From Verif Require Import Base SeqNodes Transforms PackedSeq PackedSeqProofs Numbered Decisions EditSpec EditProofs SelectionDag SelectionSpec
  RegionDecisions PrefixBaselines Html CallSequence CallSpec CallProofs CallBaselines.
Import ListNotations.
Close Scope string_scope. Close Scope Qc_scope. Close Scope Q_scope. Close Scope Z_scope. Open Scope nat_scope. Open Scope list_scope.

(** call_sequence_wrapper.py:255-279, [token_node_utility_fn]. *)
Definition call_utilities (effective_precision : Qc) (t m : text) : utilities :=
  let util : Qc := if eqb m ARGS then 1%Qc else if eqb m EMPTY_ARGS then 1%Qc else if eqb m EXPECTED then 1%Qc
                   else if eqb m NOVEL then Q2Qc 10 else 0%Qc in
  mkUtilities (util * (1 - effective_precision))%Qc (util * effective_precision)%Qc.

(** ** Context tokens. *)
Definition has_text (n : N) : Prop := match n with Token _ _ | Deco _ => True | _ => False end.
(** The leaf [Token t m] starts before character [location], or no text precedes it. *)
Definition starts_before (ns : list N) (location : nat) (t : text) : Prop :=
  exists before m after, leaves ns = before ++ Token t m :: after /\
    (length (render before) < location \/ Forall (fun n => ~ has_text n) before).
Lemma silent (b : list N) : Forall not_group b -> Forall (fun n => ~ has_text n) b -> render b = [].
Proof.
  induction 1 as [|n b Hn HF IH]; intros H; auto. inversion H as [|? ? H1 H2]; subst. change (render (n :: b)) with (render_node n ++ render b).
  rewrite (IH H2). destruct n; auto; try now destruct H1. now destruct (Hn cs m).
Qed.
Definition reaches (l : list N) (position location : nat) (t : text) : Prop :=
  exists before m after, l = before ++ Token t m :: after /\
    (position + length (render before) < location \/ Forall (fun n => ~ has_text n) before).
Lemma reaches_silent n l position location t : ~ has_text n -> not_group n -> reaches (n :: l) position location t <-> reaches l position location t.
Proof.
  intros Hn Hg. assert (Hr : forall b, render (n :: b) = render b).
  { intros b. change (render (n :: b)) with (render_node n ++ render b). destruct n; auto; try now destruct Hn. now destruct (Hg cs m). }
  split; intros (b & m & a & E & C).
  - destruct b as [|n' b]; inversion E; subst; [now destruct Hn|]. exists b, m, a. split; auto. rewrite Hr in C.
    destruct C as [C|C]; auto. right. now inversion C.
  - exists (n :: b), m, a. rewrite E, Hr. split; auto. destruct C as [C|C]; auto.
Qed.
Lemma reaches_text n l position location t : has_text n -> Forall not_group l ->
  reaches (n :: l) position location t <->
  (exists m, n = Token t m) \/ (position + length (render_node n) < location /\ reaches l (position + length (render_node n)) location t).
Proof.
  intros Hn Hg. assert (Hr : forall b, render (n :: b) = render_node n ++ render b) by reflexivity. split.
  - intros (b & m & a & E & C). destruct b as [|n' b]; inversion E; subst; [left; eauto|right].
    destruct C as [C|C]; [|inversion C; contradiction]. rewrite Hr, app_length in C. split; [lia|]. exists b, m, a. split; auto. left. lia.
  - intros [(m & ->)|(H & b & m & a & -> & C)].
    + exists [], m, l. split; auto.
    + exists (n :: b), m, a. split; auto. left. rewrite Hr, app_length. destruct C as [C|C]; [lia|].
      apply Forall_app in Hg as [Hb _]. rewrite (silent b Hb C). cbn. lia.
Qed.
Lemma context_loop_spec location : forall l, Forall not_group (map item_node l) -> forall position seen t,
  In t (context_loop location position seen l) <-> In t seen \/ reaches (map item_node l) position location t.
Proof.
  induction l as [|[[n p] w] l IH]; intros Hg position seen t; cbn [context_loop map].
  - split; auto. intros [H|(b & m & a & E & _)]; auto. destruct b; discriminate.
  - cbn [map] in Hg. change (item_node (n, p, w)) with n in *. inversion Hg as [|? ? G1 G2]; subst.
    destruct n as [x|x m| | | |cs m]; try (rewrite (IH G2), reaches_silent by (auto; intros []); reflexivity).
    + rewrite reaches_text by (auto; exact I). cbn [render_node]. destruct (Nat.leb_spec location (position + length x)) as [H|H].
      * split; auto. intros [A|[(m & A)|(A & _)]]; auto; [discriminate|lia].
      * rewrite (IH G2). split; [intros [A|A]; auto|]. intros [A|[(m & A)|(_ & A)]]; auto; discriminate.
    + rewrite reaches_text by (auto; exact I). cbn [render_node]. destruct (Nat.leb_spec location (position + length x)) as [H|H].
      * cbn [In]. split; [intros [<-|A]; eauto|]. intros [A|[(m' & A)|(A & _)]]; auto; [inversion A; auto|lia].
      * rewrite (IH G2). cbn [In]. split; [intros [[<-|A]|A]; eauto|]. intros [A|[(m' & A)|(_ & A)]]; auto. inversion A; auto.
Qed.
Lemma leaves_not_group (ns : list N) : Forall not_group (leaves ns).
Proof.
  assert (H : forall n : N, Forall not_group (leaves_node n)).
  { induction n as [| | | | |cs m IH] using node_ind'; try (repeat constructor; intros ? ?; discriminate).
    cbn [leaves_node]. apply Forall_flat_map. exact IH. }
  unfold leaves. apply Forall_flat_map, Forall_forall. intros n _. apply H.
Qed.
Theorem context_tokens ns location t : In t (extract_context_tokens ns location) <-> starts_before ns location t.
Proof.
  unfold extract_context_tokens, walk_with_paths. rewrite context_loop_spec; rewrite walk_leaves; [|apply leaves_not_group].
  unfold reaches, starts_before. cbn. split; [intros [[]|H]; exact H|auto].
Qed.

(** ** Where the search starts. *)
Lemma rfind_spec c s : forall i, match rfind_from i c s with
  | Some k => i <= k < i + length s /\ nth_error s (k - i) = Some c /\ (forall j, k - i < j -> nth_error s j <> Some c)
  | None => ~ In c s
  end.
Proof.
  induction s as [|x s IH]; intros i; cbn [rfind_from]; auto. specialize (IH (S i)). destruct (rfind_from (S i) c s) as [k|].
  - destruct IH as (A & B & C). cbn [length]. splits; try lia.
    + replace (k - i) with (S (k - S i)) by lia. exact B.
    + intros j Hj. destruct j as [|j]; [lia|]. cbn. apply C. lia.
  - destruct (Nat.eqb_spec x c) as [->|Hx].
    + rewrite Nat.sub_diag. cbn. splits; try lia; auto. intros [|j] Hj; [lia|]. cbn. intros E. apply nth_error_In in E. auto.
    + intros [H|H]; auto.
Qed.
(** The last newline before the prediction location, or the beginning. *)
Definition line_start (s : text) (location k : nat) : Prop :=
  (k < location /\ nth_error s k = Some 10 /\ forall j, k < j < location -> nth_error s j <> Some 10) \/
  (k = 0 /\ forall j, j < location -> nth_error s j <> Some 10).
Lemma nth_firstn {A} (s : list A) : forall n j, j < n -> nth_error (firstn n s) j = nth_error s j.
Proof. induction s as [|x s IH]; intros [|n] [|j] H; cbn; auto; try lia. apply IH. lia. Qed.
Theorem adjusted_spec s location : line_start s location (adjusted_location s location).
Proof.
  unfold adjusted_location. pose proof (rfind_spec 10 (firstn location s) 0) as H. destruct (rfind_from 0 10 (firstn location s)) as [k|].
  - destruct H as (A & B & C). rewrite Nat.sub_0_r in *. rewrite firstn_length in A. left. splits.
    + lia.
    + rewrite nth_firstn in B by lia. exact B.
    + intros j Hj. rewrite <- (nth_firstn s location) by lia. apply C. lia.
  - right. split; auto. intros j Hj E. apply H. rewrite <- (nth_firstn s location) in E by lia. now apply nth_error_In in E.
Qed.

(** ** White space. *)
Section White.
  Variables (isspace : nat -> bool) (expected : list text).
  (** A decoration with a group behind it in the same sequence is white space, at
      every level. *)
  Definition spaced_list (l : list N) : Prop := forall a t b cs m c, l = a ++ Deco t :: b ++ Group cs m :: c -> white isspace t.
  Inductive spaced : list N -> Prop :=
  | spaced_intro l : spaced_list l -> (forall cs m, In (Group cs m) l -> spaced cs) -> spaced l.
  (** ... not counting the first node of a sequence. *)
  Inductive nearly : list N -> Prop :=
  | nearly_intro l : spaced_list (tl l) -> (forall cs m, In (Group cs m) l -> nearly cs) -> nearly l.
  Lemma spaced_list_tl n l : spaced_list (n :: l) -> spaced_list l.
  Proof. intros H a t b cs m c ->. apply (H (n :: a) t b cs m c). reflexivity. Qed.
  Fixpoint spaced_nearly l (H : spaced l) {struct H} : nearly l :=
    match H in spaced l0 return nearly l0 with
    | spaced_intro l A B => nearly_intro l
        (match l as l1 return spaced_list l1 -> spaced_list (tl l1) with [] => fun X => X | n :: l' => spaced_list_tl n l' end A)
        (fun cs m Hin => spaced_nearly cs (B cs m Hin))
    end.
  Lemma suffix_nearly s t : tree_suffix s t -> spaced s -> nearly t.
  Proof.
    induction 1 as [l|n l l' H IH|cs cs' m l H IH|t m i l|t i l]; intros Hs.
    - now apply spaced_nearly.
    - apply IH. inversion Hs as [? A B]; subst. constructor; [now apply spaced_list_tl in A|]. intros cs m Hi. apply (B cs m). now right.
    - inversion Hs as [? A B]; subst. constructor; [cbn; now apply spaced_list_tl in A|].
      intros cs0 m0 [E|Hi]; [inversion E; subst; apply IH; eapply B; left; reflexivity|apply spaced_nearly, (B cs0 m0); now right].
    - inversion Hs as [? A B]; subst. constructor; [cbn; now apply spaced_list_tl in A|].
      intros cs0 m0 [E|Hi]; [discriminate|apply spaced_nearly, (B cs0 m0); now right].
    - inversion Hs as [? A B]; subst. constructor; [cbn; now apply spaced_list_tl in A|].
      intros cs0 m0 [E|Hi]; [discriminate|apply spaced_nearly, (B cs0 m0); now right].
  Qed.
  Lemma nearly_calls :
    (forall l ks, finds l ks -> nearly l -> forall k, In k ks -> white_decos isspace k) /\
    (forall l ks, finds_within l ks -> (forall cs m, In (Group cs m) l -> nearly cs) -> forall k, In k ks -> white_decos isspace k).
  Proof.
    apply finds_mutind.
    - intros l k a ks (le & be & t & m & cl & A & B & C & D & E) _ IH Hn. inversion Hn as [? S1 S2]; subst.
      intros k' [<-|Hk].
      + intros t' Ht. destruct (callee k) as [|n r] eqn:Ek; [now destruct be|]. destruct (E n r eq_refl) as (E1 & _).
        destruct Ht as [->|Ht]; [destruct E1; eexists; reflexivity|]. apply in_split in Ht as (r1 & r2 & ->).
        assert (X : exists a', tl (le ++ (n :: r1 ++ Deco t' :: r2) ++ parenthesis (arguments k) cl :: a) = a' ++ Deco t' :: r2 ++ parenthesis (arguments k) cl :: a).
        { destruct le as [|n0 le]; cbn [app tl].
          - exists r1. rewrite <- app_assoc. reflexivity.
          - exists (le ++ n :: r1). repeat (rewrite <- app_assoc; cbn [app]). reflexivity. }
        destruct X as (a' & X). apply (S1 a' t' r2 _ _ a X).
      + apply IH; auto. intros cs m0 Hi. apply (S2 cs m0). rewrite !in_app_iff. right. right. now right.
    - intros l ks _ _ IH Hn. inversion Hn; subst. auto.
    - intros _ k [].
    - intros n l ks _ _ IH H. apply IH. intros cs m Hi. apply (H cs m). now right.
    - intros kids m l k1 k2 _ IH1 _ IH2 H k Hk. apply in_app_iff in Hk as [Hk|Hk].
      + apply IH1; auto. apply (H kids m). now left.
      + apply IH2; auto. intros cs m' Hi. apply (H cs m'). now right.
  Qed.
End White.

(** ** For the part-selection DAG. *)
Lemma walks_no_exit (T : list (lnode text)) : (forall i, ~ In (LExit i) (flat_map nodes T)) -> Forall (@SelectionSpec.no_exit text) (walks T).
Proof.
  assert (H : forall x : lnode text, (forall i, ~ In (LExit i) (nodes x)) -> Forall (@SelectionSpec.no_exit text) (walk x)).
  { induction x as [i t|i t m|i|i|i|i cs m IH] using lnode_ind'; intros H; try (repeat constructor; fail).
    - destruct (H i). now left.
    - cbn [walk]. constructor; [exact I|]. apply Forall_app. split; [|repeat constructor]. apply Forall_flat_map.
      rewrite Forall_forall in *. intros c Hc. apply IH; auto. intros j Hj. apply (H j). right. apply in_flat_map. eauto. }
  intros HT. unfold walks. apply Forall_flat_map, Forall_forall. intros x Hx. apply H. intros i Hi. apply (HT i). apply in_flat_map. eauto.
Qed.
Lemma no_decisions_text_only (T : list (lnode text)) : no_decisions (map erase T) -> Forall text_only T.
Proof.
  assert (H : forall x : lnode text, no_decisions_node (erase x) -> text_only x).
  { induction x as [i t|i t m|i|i|i|i cs m IH] using lnode_ind'; cbn [erase no_decisions_node text_only]; auto.
    induction IH as [|c cs Hc HF IHc]; cbn; auto. intros [A B]. auto. }
  unfold no_decisions. intros HT. rewrite Forall_forall in *. intros x Hx. apply H, HT. now apply in_map.
Qed.
Section Prototype.
  Variables (isspace : nat -> bool) (expected : list text).
  Lemma lines_no_exit seqs : Forall (Forall flat_node) seqs -> forall T, map erase T = lines seqs -> forall i, ~ In (LExit i) (flat_map nodes T).
  Proof.
    induction 1 as [|seq seqs H HF IH]; intros T ET i.
    - destruct T; [auto|discriminate].
    - cbn [lines flat_map app] in ET. destruct T as [|x [|y T]]; try discriminate ET. cbn [map] in ET. injection ET as Ex Ey ET.
      destruct x as [| | | | |j cs m]; try discriminate Ex. cbn in Ex. injection Ex as Ecs _. destruct y as [j' t| | | | |]; try discriminate Ey.
      assert (F : Forall flat cs) by (apply erase_flat; now rewrite Ecs).
      cbn [flat_map nodes app]. rewrite (flat_nodes cs F). intros [Hi|Hi]; [discriminate|]. apply in_app_iff in Hi as [Hi|[Hi|Hi]].
      + rewrite Forall_forall in F. now apply (F (LExit i)).
      + discriminate.
      + now apply (IH T ET i).
  Qed.
  Lemma lines_begin seqs T : map erase T = lines seqs -> ~ @begins_with_end text (walks T).
  Proof.
    destruct seqs as [|seq seqs]; intros ET.
    - destruct T; [auto|discriminate].
    - cbn [lines flat_map app] in ET. destruct T as [|x T]; [discriminate|]. cbn [map] in ET. injection ET as Ex ET.
      destruct x as [| | | | |j cs m]; try discriminate Ex. cbn. auto.
  Qed.
  Lemma marked_call_flat k s : marked_call isspace expected k s -> Forall flat_node s.
  Proof.
    intros (b & a & A & B & _). rewrite B. constructor; [exact I|]. apply Forall_app. split; [eapply marked_flat, A|]. repeat constructor.
  Qed.
End Prototype.
