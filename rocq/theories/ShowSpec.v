(** What a page shows: the specification vocabulary for displays. *)

From Coq Require Import String.
From Coq Require Import List Bool Arith Lia.
From Verif Require Import Base SeqNodes PackedSeq Decisions RegionDecisions Html EditReport.
Import ListNotations.
Close Scope string_scope. Open Scope list_scope.

(** The characters of a page with the spans around them, innermost first.  A [br] is a
    line break, and what is in a [style] element is not shown.  [None] unless the
    page is well-formed and all spans are closed in the end. *)
Fixpoint visible (hidden : bool) (stack : list text) (l : list item) : option (list (nat * list text)) :=
  match l with
  | [] => if hidden then None else match stack with [] => Some [] | _ => None end
  | Char c :: l' => if hidden then visible hidden stack l' else option_map (cons (c, stack)) (visible hidden stack l')
  | Tag t :: l' =>
      if hidden then if eqb t (chars "/style") then visible false stack l' else None
      else if eqb t (chars "style") then visible true stack l'
      else if eqb t (chars "br") then option_map (cons (10, stack)) (visible false stack l')
      else if closing t then match stack with [] => None | _ :: stack' => visible false stack' l' end
      else if opening t then visible false (t :: stack) l'
      else None
  end.
Definition page (s : text) : option (list (nat * list text)) :=
  match read InText s with Some l => visible false [] l | None => None end.
(** A line break outside of all spans. *)
Definition line_break : list (nat * list text) := [(10, [])].

(** ** Pages are read piece by piece. *)
Definition piece (stack : list text) (s : text) (out : list (nat * list text)) : Prop :=
  forall rest l r, read InText rest = Some l -> visible false stack l = Some r ->
    exists l', read InText (s ++ rest) = Some l' /\ visible false stack l' = Some (out ++ r).
Lemma piece_page s out : piece [] s out -> page s = Some out.
Proof.
  intros H. destruct (H [] [] []) as [l [H1 H2]]; auto. rewrite !app_nil_r in *. unfold page. now rewrite H1.
Qed.
Lemma piece_nil stack : piece stack [] [].
Proof. intros rest l r H1 H2. eauto. Qed.
Lemma piece_app stack s s' out out' : piece stack s out -> piece stack s' out' -> piece stack (s ++ s') (out ++ out').
Proof.
  intros H H' rest l r H1 H2. destruct (H' rest l r H1 H2) as [l1 [E1 E2]]. destruct (H _ _ _ E1 E2) as [l2 [F1 F2]].
  exists l2. rewrite <- !app_assoc. auto.
Qed.
Lemma piece_text stack t : piece stack (escape t) (under stack t).
Proof.
  intros rest l r H1 H2. eexists. split; [apply read_escape; exact H1|].
  induction t as [|c t IH]; [exact H2|]. cbn. now rewrite IH.
Qed.
Lemma read_plain s rest l : Forall (fun c => c <> 60 /\ c <> 62 /\ c <> 38) s -> read InText rest = Some l ->
  read InText (s ++ rest) = Some (map Char s ++ l).
Proof.
  intros F H. induction F as [|c s [N1 [N2 N3]] F IH]; [exact H|]. cbn [app read].
  apply Nat.eqb_neq in N1, N2, N3. rewrite N1, N3, N2, IH. reflexivity.
Qed.
Lemma piece_plain stack t : Forall (fun c => c <> 60 /\ c <> 62 /\ c <> 38) t -> piece stack t (under stack t).
Proof.
  intros F rest l r H1 H2. eexists. split; [apply read_plain; [exact F|exact H1]|]. clear -H2.
  induction t as [|c t IH]; [exact H2|]. cbn. now rewrite IH.
Qed.
Lemma piece_break stack : piece stack (chars "<br>") [(10, stack)].
Proof.
  intros rest l r H1 H2. change (chars "<br>" ++ rest) with (tag (chars "br") ++ rest). eexists. split; [apply read_tag; [plain_tag|exact H1]|].
  cbn. now rewrite H2.
Qed.
(** A span. *)
Definition plain_tag_text (t : text) : Prop := Forall (fun c => c <> 60 /\ c <> 62) t.
Lemma opening_tag t : opening t = true -> eqb t (chars "style") = false /\ eqb t (chars "br") = false /\ closing t = false.
Proof.
  intros H. unfold opening in H. apply eqb_eq in H. splits; apply neq_eqb; intros ->; discriminate.
Qed.
Lemma piece_span stack t s out : plain_tag_text t -> opening t = true -> piece (t :: stack) s out ->
  piece stack (tag t ++ s ++ chars "</span>") out.
Proof.
  intros F O H rest l r H1 H2. destruct (opening_tag t O) as [O1 [O2 O3]].
  assert (E : exists l', read InText (tag (chars "/span") ++ rest) = Some l' /\ visible false (t :: stack) l' = Some r).
  { eexists. split; [apply read_tag; [plain_tag|exact H1]|]. cbn. exact H2. }
  destruct E as [l1 [E1 E2]]. destruct (H _ _ _ E1 E2) as [l2 [F1 F2]].
  exists (Tag t :: l2). rewrite <- !app_assoc. split; [apply read_tag; auto|]. cbn [visible]. now rewrite O1, O2, O3, O.
Qed.
Lemma piece_style stack t : Forall (fun c => c <> 60 /\ c <> 62 /\ c <> 38) t ->
  piece stack (tag (chars "style") ++ t ++ tag (chars "/style")) [].
Proof.
  intros F rest l r H1 H2. rewrite <- !app_assoc.
  assert (E : read InText (tag (chars "/style") ++ rest) = Some (Tag (chars "/style") :: l)) by (apply read_tag; [plain_tag|exact H1]).
  eexists. split; [apply read_tag; [plain_tag|apply read_plain; [exact F|exact E]]|].
  cbn [visible]. change (eqb (chars "style") (chars "style")) with true. cbv iota.
  induction t as [|c t IH]; [cbn; exact H2|]. cbn [map app visible]. apply IH. now inversion F.
Qed.
(** What [document] reads is a piece. *)
Lemma read_app s : forall m rest l l', read m s = Some l -> read InText rest = Some l' -> read m (s ++ rest) = Some (l ++ l').
Proof.
  induction s as [|c s IH]; intros m rest l l' H H'.
  - cbn in H. destruct m; try discriminate. injection H as <-. exact H'.
  - cbn [app read] in *. destruct m as [|t|t].
    + destruct (c =? 60); [now apply IH|]. destruct (c =? 38); [now apply IH|]. destruct (c =? 62); [discriminate|].
      destruct (read InText s) as [l0|] eqn:E; [|discriminate]. injection H as <-. now rewrite (IH _ _ _ _ E H').
    + destruct (c =? 62).
      * destruct (read InText s) as [l0|] eqn:E; [|discriminate]. injection H as <-. now rewrite (IH _ _ _ _ E H').
      * destruct (c =? 60); [discriminate|]. now apply IH.
    + destruct (c =? 59); [|now apply IH]. destruct (entity t) as [x|]; [|discriminate].
      destruct (read InText s) as [l0|] eqn:E; [|discriminate]. injection H as <-. now rewrite (IH _ _ _ _ E H').
Qed.
Lemma nested_visible l : forall stack out l' r, nested stack l = Some out -> visible false [] l' = Some r ->
  visible false stack (l ++ l') = Some (out ++ r).
Proof.
  induction l as [|[c|t] l IH]; intros stack out l' r H H'.
  - cbn in H. destruct stack; [|discriminate]. injection H as <-. exact H'.
  - cbn [nested] in H. destruct (nested stack l) as [o|] eqn:E; [|discriminate]. injection H as <-. cbn [app visible]. now rewrite (IH _ _ _ _ E H').
  - cbn [nested] in H. cbn [app visible]. destruct (closing t) eqn:Ec.
    + unfold closing in Ec. apply eqb_eq in Ec. subst t. cbn. destruct stack as [|x stack]; [discriminate|]. now apply IH.
    + destruct (opening t) eqn:Eo; [|discriminate]. destruct (opening_tag t Eo) as [O1 [O2 _]]. rewrite O1, O2. now apply IH.
Qed.
Lemma document_piece s out : document s = Some out -> piece [] s out.
Proof.
  unfold document. destruct (read InText s) as [l|] eqn:E; [|discriminate]. intros H rest l' r H1 H2.
  exists (l ++ l'). split; [now apply read_app|now apply nested_visible].
Qed.

(** The parts of a suggestion as they are displayed: an empty region is shown as a
    marker. *)
Definition marks_empty (marker : text) : list (text * bool) -> list (text * bool) -> Prop :=
  Forall2 (fun displayed part => displayed = part \/ (displayed = (marker, true) /\ part = ([], true))).
(** The first list can be had from the second by leaving out elements. *)
Inductive scattered {A} : list A -> list A -> Prop :=
| sc_none : scattered [] []
| sc_take x l l' : scattered l l' -> scattered (x :: l) (x :: l')
| sc_drop x l l' : scattered l l' -> scattered l (x :: l').
(** A text with an arrow before each line break. *)
Fixpoint arrowed (t : text) : text :=
  match t with
  | [] => []
  | c :: t' => if c =? 10 then 8617 :: 10 :: arrowed t' else c :: arrowed t'
  end.
