(** Proofs about drawings: what the SVG shows, and where the view box lies. *)

From Coq Require Import String.
From Coq Require Import List Bool Arith Lia QArith Qcanon.
From Verif Require Import Base SeqNodes Graph GatedDag Html ShowSpec Drawing DrawSpec.
Import ListNotations.
Close Scope string_scope. Close Scope Qc_scope. Close Scope Q_scope. Open Scope nat_scope. Open Scope list_scope.

(** Induction over calls, through groups. *)
Lemma command_induction (P : command -> Prop) :
  (forall b t h s tags, P (Label b t h s tags)) -> (forall p t s d h x tags, P (LabelAt p t s d h x tags)) ->
  (forall b tags, P (Container b tags)) -> (forall ps h tags, P (Line ps h tags)) -> (forall p h tags, P (Dot p h tags)) ->
  (forall h tags body, Forall P body -> P (Group h tags body)) -> (forall t, P (Css t)) -> (forall t, P (Custom t)) ->
  forall c, P c.
Proof.
  intros H1 H2 H3 H4 H5 H6 H7 H8. fix IH 1.
  intros [b t h s tags|p t s d h x tags|b tags|ps h tags|p h tags|h tags body|t|t];
    [apply H1|apply H2|apply H3|apply H4|apply H5| |apply H7|apply H8].
  apply H6. induction body as [|c body IHb]; constructor; [apply IH|apply IHb].
Qed.

(** ** Reading piece by piece. *)
Definition mp (stack : list element) (s : text) (ms : list mark) : Prop :=
  forall rest l r, read InText rest = Some l -> scan stack l = Some r ->
    exists l', read InText (s ++ rest) = Some l' /\ scan stack l' = Some (ms ++ r).
Lemma mp_nil stack : mp stack [] [].
Proof. intros rest l r H1 H2. eauto. Qed.
Lemma mp_app stack s s' ms ms' : mp stack s ms -> mp stack s' ms' -> mp stack (s ++ s') (ms ++ ms').
Proof.
  intros H H' rest l r H1 H2. destruct (H' rest l r H1 H2) as [l1 [E1 E2]]. destruct (H _ _ _ E1 E2) as [l2 [F1 F2]].
  exists l2. rewrite <- !app_assoc. auto.
Qed.
Lemma mp_silent stack s s' ms : mp stack s [] -> mp stack s' ms -> mp stack (s ++ s') ms.
Proof. intros H H'. exact (mp_app stack s s' [] ms H H'). Qed.
Lemma mp_silent_end stack s s' ms : mp stack s ms -> mp stack s' [] -> mp stack (s ++ s') ms.
Proof. intros H H'. rewrite <- (app_nil_r ms). now apply mp_app. Qed.
Lemma mp_escape stack t : speaks stack = true -> mp stack (escape t) (shown stack t).
Proof.
  intros S rest l r H1 H2. eexists. split; [apply read_escape; exact H1|].
  induction t as [|c t IH]; [exact H2|]. cbn. now rewrite S, IH.
Qed.
Definition mild (t : text) : Prop := Forall (fun c => c <> 60 /\ c <> 62 /\ c <> 38) t.
Lemma mp_mild stack t : speaks stack = false -> mild t -> mp stack t [].
Proof.
  intros S F rest l r H1 H2. eexists. split; [apply read_plain; [exact F|exact H1]|]. clear F.
  induction t as [|c t IH]; [exact H2|]. cbn. now rewrite S, IH.
Qed.
Definition mildb (t : text) : bool := forallb (fun c => negb ((c =? 60) || (c =? 62) || (c =? 38))) t.
Lemma mildb_mild t : mildb t = true -> mild t.
Proof.
  unfold mildb, mild. rewrite forallb_forall, Forall_forall. intros H c Hc. specialize (H c Hc).
  apply negb_true_iff, orb_false_iff in H as [H H3]. apply orb_false_iff in H as [H1 H2]. now rewrite !Nat.eqb_neq in *.
Qed.
Definition tagb (t : text) : bool := forallb (fun c => negb ((c =? 60) || (c =? 62))) t.
Lemma tagb_plain t : tagb t = true -> plain_tag_text t.
Proof.
  unfold tagb, plain_tag_text. rewrite forallb_forall, Forall_forall. intros H c Hc. specialize (H c Hc).
  apply negb_true_iff, orb_false_iff in H as [H1 H2]. now rewrite !Nat.eqb_neq in *.
Qed.
Ltac literal := first [apply mildb_mild; vm_compute; reflexivity | apply tagb_plain; vm_compute; reflexivity].
Lemma mp_element stack t e s ms : plain_tag_text t -> read_tag_text t = Some (Opens e) -> plain_tag_text (fst e) ->
  mp (e :: stack) s ms -> mp stack (tag t ++ s ++ tag (47 :: fst e)) ms.
Proof.
  intros F O F' H rest l r H1 H2.
  assert (E : exists l', read InText (tag (47 :: fst e) ++ rest) = Some l' /\ scan (e :: stack) l' = Some r).
  { eexists. split; [apply read_tag; [constructor; [split; discriminate|exact F']|exact H1]|]. cbn [scan read_tag_text].
    destruct e as [n a]. cbn [fst]. now rewrite eqb_refl. }
  destruct E as [l1 [E1 E2]]. destruct (H _ _ _ E1 E2) as [l2 [F1 F2]].
  exists (Tag t :: l2). rewrite <- !app_assoc. split; [apply read_tag; auto|]. cbn [scan]. now rewrite O.
Qed.
Lemma mp_whole stack t e : plain_tag_text t -> read_tag_text t = Some (Whole e) -> mp stack (tag t) [Shape e stack].
Proof.
  intros F O rest l r H1 H2. exists (Tag t :: l). split; [apply read_tag; auto|]. cbn [scan]. now rewrite O, H2.
Qed.
Lemma scan_inside l : forall st ms stack l' r, speaks stack = false -> scan st l = Some ms -> scan stack l' = Some r ->
  scan (st ++ stack) (l ++ l') = Some (map (inside stack) ms ++ r).
Proof.
  induction l as [|[c|t] l IH]; intros st ms stack l' r S H H'; cbn [scan app] in *.
  - destruct st; [|discriminate]. injection H as <-. exact H'.
  - assert (E : speaks (st ++ stack) = speaks st) by (destruct st as [|[n a] st]; [exact S|reflexivity]). rewrite E.
    destruct (speaks st).
    + destruct (scan st l) as [m|] eqn:Em; [|discriminate]. injection H as <-. now rewrite (IH _ _ _ _ _ S Em H').
    + now apply IH.
  - destruct (read_tag_text t) as [[e|n|e]|]; [| | |discriminate].
    + now apply (IH (e :: st)).
    + destruct st as [|[n' a] st]; [discriminate|]. cbn [app]. destruct (eqb n n'); [|discriminate]. now apply IH.
    + destruct (scan st l) as [m|] eqn:Em; [|discriminate]. injection H as <-. now rewrite (IH _ _ _ _ _ S Em H').
Qed.
Lemma drawing_mp stack s ms : speaks stack = false -> drawing s = Some ms -> mp stack s (map (inside stack) ms).
Proof.
  unfold drawing. intros S. destruct (read InText s) as [l|] eqn:E; [|discriminate]. intros H rest l' r H1 H2.
  exists (l ++ l'). split; [now apply read_app|]. now apply (scan_inside l []).
Qed.
Lemma mp_drawing s ms : mp [] s ms -> drawing s = Some ms.
Proof. intros H. destruct (H [] [] []) as [l [H1 H2]]; auto. rewrite !app_nil_r in *. unfold drawing. now rewrite H1. Qed.

(** ** Reading tags. *)
Lemma last_end {A} (l l' : list A) d : l' <> [] -> List.last (l ++ l') d = List.last l' d.
Proof.
  intros N. induction l as [|x l IH]; [reflexivity|]. cbn [app List.last]. rewrite IH.
  destruct (l ++ l') eqn:E; [|reflexivity]. apply app_eq_nil in E. tauto.
Qed.
Lemma read_whole t n r a : List.hd 0 t <> 47 -> tag_name t = (n, r) -> attributes Between r = Some a -> List.last t 0 = 47 ->
  read_tag_text t = Some (Whole (n, a)).
Proof.
  intros N T A L. unfold read_tag_text. rewrite T, A, L.
  destruct t as [|c t]; [reflexivity|]. cbn in N.
  do 47 (destruct c as [|c]; [reflexivity|]). destruct c as [|c]; [congruence|reflexivity].
Qed.
Lemma read_open t n r a : List.hd 0 t <> 47 -> tag_name t = (n, r) -> attributes Between r = Some a -> List.last t 0 <> 47 ->
  read_tag_text t = Some (Opens (n, a)).
Proof.
  intros N T A L. unfold read_tag_text. rewrite T, A. apply Nat.eqb_neq in L. rewrite L.
  destruct t as [|c t]; [reflexivity|]. cbn in N.
  do 47 (destruct c as [|c]; [reflexivity|]). destruct c as [|c]; [congruence|reflexivity].
Qed.
Lemma attributes_value v : forall n acc rest, ~ List.In 34 v ->
  attributes (Value n acc) (v ++ 34 :: rest) = option_map (cons (n, acc ++ v)) (attributes Between rest).
Proof.
  induction v as [|c v IH]; intros n acc rest N; cbn [app attributes].
  - now rewrite Nat.eqb_refl, app_nil_r.
  - assert (c <> 34) by (intros ->; apply N; now left). apply Nat.eqb_neq in H. rewrite H, IH by (intros K; apply N; now right).
    now rewrite <- app_assoc.
Qed.
Lemma attributes_quote v n rest : ~ List.In 34 v ->
  attributes (After n) (quote v ++ rest) = option_map (cons (n, v)) (attributes Between rest).
Proof.
  intros N. unfold quote. cbn [app attributes]. rewrite <- app_assoc. cbn [app Nat.eqb]. apply (attributes_value v n [] rest N).
Qed.
Lemma attributes_bare v : forall n acc rest, Forall (fun c => blank c = false) v ->
  attributes (Bare n acc) (v ++ 32 :: rest) = option_map (cons (n, acc ++ v)) (attributes Between rest).
Proof.
  induction v as [|c v IH]; intros n acc rest F; cbn [app attributes].
  - cbn. now rewrite app_nil_r.
  - inversion F; subst. rewrite H1, IH by assumption. now rewrite <- app_assoc.
Qed.
(** A printed number: not empty, with no blank, quote or angle bracket. *)
Definition number_text (v : text) : Prop := v <> [] /\ Forall (fun c => blank c = false /\ c <> 34 /\ c <> 60 /\ c <> 62) v.
Lemma attributes_number v n rest : number_text v ->
  attributes (After n) (v ++ 32 :: rest) = option_map (cons (n, v)) (attributes Between rest).
Proof.
  intros [N F]. destruct v as [|c v]; [congruence|]. inversion F as [|? ? [B [Q _]] F']; subst. cbn [app attributes].
  apply Nat.eqb_neq in Q. rewrite Q. rewrite (attributes_bare v n [c]); [reflexivity|].
  eapply Forall_impl; [|exact F']. cbn. tauto.
Qed.

(** ** Quoted values. *)
Lemma plain_no_quote t : plain t -> ~ List.In 34 t.
Proof. unfold plain. rewrite Forall_forall. intros F I. now destruct (F 34 I). Qed.
Lemma plain_tagged t : plain t -> plain_tag_text t.
Proof. apply Forall_impl. tauto. Qed.
Lemma plain_app t t' : plain t -> plain t' -> plain (t ++ t').
Proof. intros. now apply Forall_app. Qed.
Definition plainb (t : text) : bool := forallb (fun c => negb ((c =? 34) || (c =? 60) || (c =? 62))) t.
Lemma plainb_plain t : plainb t = true -> plain t.
Proof.
  unfold plainb, plain. rewrite forallb_forall, Forall_forall. intros H c Hc. specialize (H c Hc).
  apply negb_true_iff, orb_false_iff in H as [H H3]. apply orb_false_iff in H as [H1 H2]. now rewrite !Nat.eqb_neq in *.
Qed.
Lemma plain_join l : Forall plain l -> plain (join [32] l).
Proof.
  induction l as [|x [|y l] IH]; intros F; [constructor|now inversion F|]. inversion F; subst.
  change (plain (x ++ [32] ++ join [32] (y :: l))). apply plain_app; [assumption|]. apply plain_app; [|now apply IH].
  repeat constructor; discriminate.
Qed.
Lemma number_plain v : number_text v -> plain v.
Proof. intros [_ F]. eapply Forall_impl; [|exact F]. cbn. tauto. Qed.
Lemma tagged_quote t : plain t -> plain_tag_text (quote t).
Proof.
  intros F. unfold quote. apply Forall_app. split; [repeat constructor; discriminate|].
  apply Forall_app. split; [now apply plain_tagged|repeat constructor; discriminate].
Qed.
Lemma tagged_app t t' : plain_tag_text t -> plain_tag_text t' -> plain_tag_text (t ++ t').
Proof. intros. now apply Forall_app. Qed.

Lemma classes_join tags k : join [32] tags ++ [32] ++ chars k = classes tags k.
Proof.
  unfold classes. destruct tags as [|x tags]; [reflexivity|].
  assert (G : forall l x, join [32] (x :: l) ++ [32] ++ chars k = words (x :: l) (chars k)).
  { induction l as [|y l IH]; intros z; [reflexivity|].
    change (join [32] (z :: y :: l)) with (z ++ [32] ++ join [32] (y :: l)). rewrite <- !app_assoc. now rewrite IH. }
  apply G.
Qed.
Lemma classes_plain tags k : Forall plain tags -> plain (chars k) -> plain (classes tags k).
Proof.
  intros F P. rewrite <- classes_join. apply plain_app; [now apply plain_join|]. apply plain_app; [|exact P].
  repeat constructor; discriminate.
Qed.

Lemma split_lines_nil t : split_lines t <> [].
Proof. induction t as [|c t IH]; cbn; [discriminate|]. destruct (c =? 10); [discriminate|]. destruct (split_lines t); discriminate. Qed.
Lemma split_lines_spec t : lines_of t (split_lines t).
Proof.
  induction t as [|c t IH]; cbn.
  - constructor. auto.
  - destruct (Nat.eqb_spec c 10) as [->|N].
    + apply (lines_more []); auto.
    + inversion IH as [t0 Ht Et|t0 rest ls Ht Hl Et]; subst.
      * constructor. intros [K|K]; [congruence|auto].
      * apply (lines_more (c :: t0)); [|assumption]. intros [K|K]; [congruence|auto].
Qed.

Section Svg.
  Variable num : Qc -> text.
  Hypothesis num_ok : forall q, number_text (num q).

  Ltac plain_text :=
    match goal with
    | |- plain (num _) => apply number_plain, num_ok
    | |- plain (classes _ _) => apply classes_plain; [assumption|apply plainb_plain; vm_compute; reflexivity]
    | |- plain (_ ++ _) => apply plain_app; plain_text
    | |- plain (join _ _) => apply plain_join; first [assumption|auto]
    | |- plain _ => first [assumption|apply plainb_plain; vm_compute; reflexivity]
    end.
  Ltac tagged :=
    match goal with
    | |- plain_tag_text (quote _) => apply tagged_quote; plain_text
    | |- plain_tag_text (num _) => apply plain_tagged, number_plain, num_ok
    | |- plain_tag_text (_ ++ _) => apply tagged_app; tagged
    | |- plain_tag_text _ => literal
    end.
  Lemma attr_quoted (s n : string) v rest a : (forall r, attributes Between (chars s ++ r) = attributes (After (chars n)) r) ->
    plain v -> attributes Between rest = Some a ->
    attributes Between (chars s ++ quote v ++ rest) = Some ((chars n, v) :: a).
  Proof using. intros E P R. rewrite E, attributes_quote by now apply plain_no_quote. now rewrite R. Qed.
  Lemma attr_last (s n : string) v : (forall r, attributes Between (chars s ++ r) = attributes (After (chars n)) r) ->
    plain v -> attributes Between (chars s ++ quote v) = Some [(chars n, v)].
  Proof using. intros E P. rewrite <- (app_nil_r (quote v)). now apply attr_quoted. Qed.
  Lemma attr_number (s n : string) q rest a : (forall r, attributes Between (chars s ++ r) = attributes (After (chars n)) r) ->
    attributes Between rest = Some a ->
    attributes Between (chars s ++ num q ++ 32 :: rest) = Some ((chars n, num q) :: a).
  Proof using num_ok. intros E R. rewrite E, attributes_number by apply num_ok. now rewrite R. Qed.
  Ltac attrs := repeat (apply attr_quoted; [intros; reflexivity|plain_text|]).
  Ltac not_empty := let E := fresh in intros E; apply (f_equal (@List.length _)) in E; unfold quote in E; rewrite ?app_length in E; cbn in E; lia.
  Lemma last_quote v : List.last (quote v) 0 = 34.
  Proof using. unfold quote. rewrite !last_end by (try discriminate; destruct v; discriminate). reflexivity. Qed.
  Ltac at_end := repeat (rewrite last_end by not_empty); rewrite ?last_quote.

  Lemma rect_reads stack b tags k : Forall plain tags -> plain (chars k) ->
    mp stack (rect num b tags (chars k)) [Shape (the_rect num b (classes tags k)) stack].
  Proof using num_ok.
    intros F P. unfold rect. rewrite classes_join. apply mp_whole.
    - assert (plain (classes tags k)) by now apply classes_plain. tagged.
    - eapply read_whole.
      + discriminate.
      + reflexivity.
      + change (attributes Between (chars " x=" ++ quote (num (b_left b)) ++ chars " y=" ++ quote (num (b_top b)) ++ chars "
              width=" ++ quote (num (b_width b)) ++ chars " height=" ++ quote (num (b_height b)) ++ chars "
              class=" ++ quote (classes tags k) ++ chars "
              /") = Some (snd (the_rect num b (classes tags k)))).
        assert (plain (classes tags k)) by now apply classes_plain.
        attrs. reflexivity.
      + at_end. reflexivity.
  Qed.

  Lemma mp_text stack t a l : plain_tag_text t -> read_tag_text t = Some (Opens (chars "text", a)) ->
    mp stack (tag t ++ escape l ++ tag (chars "/text")) (shown ((chars "text", a) :: stack) l).
  Proof using.
    intros F R. apply (mp_element stack t (chars "text", a)); [exact F|exact R|literal|]. apply mp_escape. reflexivity.
  Qed.
  Lemma title_reads stack hov items styles bounds hover : speaks stack = false ->
    mp stack (hover_title (mkRenderer items styles bounds hov) hover) (title hov hover stack).
  Proof using.
    intros S. unfold hover_title, title. destruct hover as [t|]; [|apply mp_nil]. cbn [r_hover]. destruct hov; [|apply mp_nil].
    apply (mp_element stack (chars "title") (el "title" [])); [literal|reflexivity|literal|]. apply mp_escape. reflexivity.
  Qed.
  (** The lines of a label. *)
  Lemma lines_read stack (f : nat * text -> text) size x y y' more ls : speaks stack = false ->
    (forall i l, mp stack (f (i, l)) (shown (el "text" ([(chars "font-size", num size); (chars "x", num x); (chars "y", num (y i))] ++ more) :: stack) l)) ->
    (forall i, y i = y' i) ->
    forall i, mp stack (join newline (map f (enumerate i ls))) (text_lines num size x y' more stack i ls).
  Proof using.
    intros Sp H Y. induction ls as [|l ls IH]; intros i; [apply mp_nil|]. cbn [enumerate map text_lines]. rewrite <- Y.
    destruct ls as [|l' ls].
    - cbn [enumerate map join text_lines]. rewrite app_nil_r. apply H.
    - change (join newline (f (i, l) :: map f (enumerate (S i) (l' :: ls))))
        with (f (i, l) ++ newline ++ join newline (map f (enumerate (S i) (l' :: ls)))).
      apply mp_app; [apply H|]. apply mp_silent; [|apply IH]. apply mp_mild; [exact Sp|literal].
  Qed.
  Lemma g_reads stack s ms : speaks stack = false -> mp (el "g" [] :: stack) s ms ->
    mp stack (chars "
      <g>
        " ++ s ++ chars "
      </g>
    ") ms.
  Proof using.
    intros S H.
    change (chars "
      <g>
        " ++ s ++ chars "
      </g>
    ") with (chars "
      " ++ tag (chars "g") ++ chars "
        " ++ s ++ chars "
      " ++ tag (chars "/g") ++ chars "
    ").
    apply mp_silent; [apply mp_mild; [exact S|literal]|].
    replace (tag (chars "g") ++ chars "
        " ++ s ++ chars "
      " ++ tag (chars "/g") ++ chars "
    ") with ((tag (chars "g") ++ (chars "
        " ++ s ++ chars "
      ") ++ tag (chars "/g")) ++ chars "
    ") by now rewrite <- !app_assoc.
    apply mp_silent_end; [|apply mp_mild; [exact S|literal]].
    apply (mp_element stack (chars "g") (el "g" [])); [literal|reflexivity|literal|].
    apply mp_silent; [apply mp_mild; [reflexivity|literal]|]. apply mp_silent_end; [exact H|apply mp_mild; [reflexivity|literal]].
  Qed.

  (** Items, one after the other. *)
  Definition glue (ts : list text) : text := flat_map (fun t => t ++ newline) ts.
  Lemma glue_app ts ts' : glue (ts ++ ts') = glue ts ++ glue ts'.
  Proof using. apply flat_map_app. Qed.
  Lemma glue_one stack t ms : speaks stack = false -> mp stack t ms -> mp stack (glue [t]) ms.
  Proof using.
    intros S H. unfold glue. cbn [flat_map]. rewrite app_nil_r. apply mp_silent_end; [exact H|apply mp_mild; [exact S|literal]].
  Qed.

  Lemma div_two q : (q / of_nat 2 = half * q)%Qc.
  Proof using. unfold Qcdiv. rewrite Qcmult_comm. f_equal. Qed.
  Lemma of_nat_pred n : n <> 0 -> (of_nat n - 1 = of_nat (n - 1))%Qc.
  Proof using.
    intros N. unfold of_nat. destruct n as [|n]; [congruence|]. rewrite Nat.sub_succ, Nat.sub_0_r.
    rewrite Nat2Z.inj_succ. unfold Z.succ. rewrite inject_Z_plus. change (inject_Z 1) with 1%Q. qc_lra.
  Qed.

  Lemma label_reads stack items styles bounds hov b t hover size tags : speaks stack = false -> Forall plain tags ->
    exists item ms, r_items (label_in_box num (mkRenderer items styles bounds hov) b t hover size tags) = items ++ [item] /\
      mp stack item ms /\ shows num hov stack (Label b t hover size tags) ms.
  Proof using num_ok.
    intros Sp F. eexists. eexists. split; [unfold label_in_box, add_item; cbn [r_items update_bounds]; reflexivity|].
    split; [|apply shows_label, split_lines_spec].
    match goal with |- mp _ (?A ++ ?t ++ ?B ++ ?r ++ ?C ++ ?x ++ ?D) _ =>
      replace (A ++ t ++ B ++ r ++ C ++ x ++ D) with (A ++ (t ++ B ++ r ++ C ++ x) ++ D) by (now rewrite <- !app_assoc) end.
    apply g_reads; [exact Sp|].
    apply mp_app; [apply title_reads; reflexivity|].
    apply mp_silent; [apply mp_mild; [reflexivity|literal]|].
    apply mp_app; [apply rect_reads; [exact F|apply plainb_plain; vm_compute; reflexivity]|].
    apply mp_silent; [apply mp_mild; [reflexivity|literal]|].
    eapply (lines_read _ _ size (px (center_point b)) (fun i => py (center_point b) + - size * (of_nat (Datatypes.length (split_lines t)) - 1) / of_nat 2 + size * of_nat i)%Qc).
    - reflexivity.
    - intros i l. cbv beta. apply mp_text.
      + tagged.
      + eapply read_open; [discriminate|reflexivity| |].
        * change (attributes Between (chars " font-size=" ++ num size ++ 32 :: chars "x=" ++ quote (num (px (center_point b))) ++ chars " y=" ++
           quote (num (py (center_point b) + - size * (of_nat (Datatypes.length (split_lines t)) - 1) / of_nat 2 + size * of_nat i)%Qc) ++
           chars " class=" ++ quote (chars "label_in_box") ++ []) = 
           Some ([(chars "font-size", num size); (chars "x", num (px (center_point b)));
             (chars "y", num ((fun i => py (center_point b) + - size * (of_nat (Datatypes.length (split_lines t)) - 1) / of_nat 2 + size * of_nat i) i)%Qc)] ++ [(chars "class", chars "label_in_box")])).
          apply attr_number; [intros; reflexivity|]. attrs. reflexivity.
        * at_end. apply Nat.eqb_neq. reflexivity.
    - intros i. cbv beta. rewrite div_two, of_nat_pred by (destruct (split_lines t) eqn:E; [now apply split_lines_nil in E|discriminate]).
      unfold center_point, vertical_center. cbn [py]. ring.
  Qed.
  Lemma label_at_reads stack items styles bounds hov p t size d hover padding tags : speaks stack = false -> Forall plain tags ->
    exists item ms, r_items (label_at_point num (mkRenderer items styles bounds hov) p t size d hover padding tags) = items ++ [item] /\
      mp stack item ms /\ shows num hov stack (LabelAt p t size d hover padding tags) ms.
  Proof using num_ok.
    intros Sp F. unfold label_at_point.
    destruct (vertical_offset d (Datatypes.length (split_lines t)) size padding) as [va vp] eqn:Ev.
    destruct (horizontal_offset d size padding) as [anchor hp] eqn:Eh.
    eexists. eexists. split; [unfold add_item; cbn [r_items update_bounds]; reflexivity|].
    split; [|apply shows_label_at, split_lines_spec].
    match goal with |- mp _ (?A ++ ?t ++ ?C ++ ?x ++ ?D) _ =>
      replace (A ++ t ++ C ++ x ++ D) with (A ++ (t ++ C ++ x) ++ D) by (now rewrite <- !app_assoc) end.
    apply g_reads; [exact Sp|].
    apply mp_app; [apply title_reads; reflexivity|].
    apply mp_silent; [apply mp_mild; [reflexivity|literal]|].
    assert (Ea : join [32] [chars "dominant-baseline: middle;"; anchor] = chars "dominant-baseline: middle; text-anchor: " ++ chars (anchor_of d) ++ [59]).
    { destruct d; injection Eh as <- <-; reflexivity. }
    rewrite Ea. clear Ea.
    assert (Ex : (px p + hp = px p + aside d padding * size)%Qc).
    { destruct d; injection Eh as <- <-; cbn [aside]; ring. }
    rewrite Ex. clear Ex.
    change (join [32] tags ++ chars " label_at_point") with (join [32] tags ++ [32] ++ chars "label_at_point"). rewrite classes_join.
    assert (Pd : plain (chars "dominant-baseline: middle; text-anchor: " ++ chars (anchor_of d) ++ [59])).
    { destruct d; apply plainb_plain; vm_compute; reflexivity. }
    assert (Pc : plain (classes tags "label_at_point")) by (apply classes_plain; [exact F|apply plainb_plain; vm_compute; reflexivity]).
    set (style := chars "dominant-baseline: middle; text-anchor: " ++ chars (anchor_of d) ++ [59]) in *.
    set (class := classes tags "label_at_point") in *.
    eapply (lines_read _ _ size (px p + aside d padding * size)%Qc (fun i => py p + va + vp + size * of_nat i)%Qc _ [(chars "style", style); (chars "class", class)]).
    - reflexivity.
    - intros i l. cbv beta. apply mp_text.
      + tagged.
      + eapply read_open; [discriminate|reflexivity| |].
        * change (attributes Between (chars " font-size=" ++ num size ++ 32 :: chars "x=" ++ quote (num (px p + aside d padding * size)%Qc) ++ chars " y=" ++
           quote (num ((fun i => py p + va + vp + size * of_nat i) i)%Qc) ++ chars " style=" ++ quote style ++ chars " class=" ++ quote class) =
           Some ([(chars "font-size", num size); (chars "x", num (px p + aside d padding * size)%Qc);
             (chars "y", num ((fun i => py p + va + vp + size * of_nat i) i)%Qc)] ++ [(chars "style", style); (chars "class", class)])).
          apply attr_number; [intros; reflexivity|]. attrs. apply attr_last; [intros; reflexivity|exact Pc].
        * at_end. apply Nat.eqb_neq. reflexivity.
    - intros i. cbv beta.
      destruct d; injection Ev as <- <-; cbn [below]; try ring.
      all: rewrite ?div_two, ?of_nat_pred by (destruct (split_lines t) eqn:E; [now apply split_lines_nil in E|discriminate]).
      all: try ring.
      change (fst (Nat.divmod (Datatypes.length (split_lines t) + 1) 1 0 1)) with ((Datatypes.length (split_lines t) + 1) / 2).
      rewrite Nat.div2_div, Nat.add_1_r. ring.
  Qed.
  Lemma container_reads stack items styles bounds hov b tags : speaks stack = false -> Forall plain tags ->
    exists item ms, r_items (container num (mkRenderer items styles bounds hov) b tags) = items ++ [item] /\
      mp stack item ms /\ shows num hov stack (Container b tags) ms.
  Proof using num_ok.
    intros Sp F. eexists. eexists. split; [unfold container, add_item; cbn [r_items update_bounds]; reflexivity|].
    split; [|apply shows_container]. apply g_reads; [exact Sp|].
    apply rect_reads; [exact F|apply plainb_plain; vm_compute; reflexivity].
  Qed.
  Lemma path_join ps : forall p, join [32] ((chars "M " ++ num (px p) ++ [32] ++ num (py p)) ::
    map (fun q => chars "L " ++ num (px q) ++ [32] ++ num (py q)) ps) = path_data num (p :: ps).
  Proof using.
    assert (G : forall ps x, join [32] (x :: map (fun q => chars "L " ++ num (px q) ++ [32] ++ num (py q)) ps) =
      x ++ flat_map (fun q => chars " L " ++ num (px q) ++ [32] ++ num (py q)) ps).
    { induction ps0 as [|q ps0 IH]; intros x; [now rewrite app_nil_r|]. cbn [map flat_map].
      match goal with |- join _ (_ :: ?y :: ?l) = _ => change (join [32] (x :: y :: l)) with (x ++ [32] ++ join [32] (y :: l)) end.
      rewrite IH. reflexivity. }
    intros p. rewrite G. cbn [path_data]. now rewrite <- !app_assoc.
  Qed.
  Lemma path_plain ps : plain (path_data num ps).
  Proof using num_ok.
    destruct ps as [|p ps]; [constructor|]. cbn [path_data].
    assert (G : plain (flat_map (fun q => chars " L " ++ num (px q) ++ [32] ++ num (py q)) ps)).
    { induction ps as [|q ps IH]; [constructor|]. cbn [flat_map]. repeat apply plain_app; auto; plain_text. }
    repeat apply plain_app; auto; plain_text.
  Qed.
  Lemma line_reads stack items styles bounds hov ps hover tags : speaks stack = false -> ps <> [] -> Forall plain tags ->
    exists r item ms, line num (mkRenderer items styles bounds hov) ps hover tags = Ok r /\ r_items r = items ++ [item] /\
      r_styles r = styles /\ r_hover r = hov /\
      mp stack item ms /\ shows num hov stack (Line ps hover tags) ms.
  Proof using num_ok.
    intros Sp N F. destruct ps as [|p ps]; [congruence|]. unfold line. eexists. eexists. eexists. split; [reflexivity|].
    split; [unfold add_item; cbn [r_items update_bounds]; reflexivity|]. do 2 (split; [reflexivity|]).
    split; [|apply shows_line].
    match goal with |- mp _ (?A ++ ?t ++ ?C ++ ?x ++ ?D) _ =>
      replace (A ++ t ++ C ++ x ++ D) with (A ++ (t ++ C ++ x) ++ D) by (now rewrite <- !app_assoc) end.
    apply g_reads; [exact Sp|].
    apply mp_app; [apply title_reads; reflexivity|].
    apply mp_silent; [apply mp_mild; [reflexivity|literal]|].
    rewrite path_join. change (join [32] tags ++ chars " line") with (join [32] tags ++ [32] ++ chars "line"). rewrite classes_join.
    pose proof (path_plain (p :: ps)) as Pp.
    assert (Pc : plain (classes tags "line")) by (apply classes_plain; [exact F|apply plainb_plain; vm_compute; reflexivity]).
    set (d := path_data num (p :: ps)) in *. set (class := classes tags "line") in *.
    apply mp_whole; [tagged|]. eapply read_whole; [discriminate|reflexivity| |].
    - change (attributes Between (chars " d=" ++ quote d ++ chars " class=" ++ quote class ++ chars "
              marker-start=" ++ quote (chars "url(#arrowstart)") ++ chars "
              marker-end=" ++ quote (chars "url(#arrowend)") ++ chars "/") =
        Some [(chars "d", d); (chars "class", class); (chars "marker-start", chars "url(#arrowstart)"); (chars "marker-end", chars "url(#arrowend)")]).
      attrs. reflexivity.
    - at_end. reflexivity.
  Qed.
  Lemma dot_reads stack items styles bounds hov p hover tags : speaks stack = false -> Forall plain tags ->
    exists item ms, r_items (dot num (mkRenderer items styles bounds hov) p hover tags) = items ++ [item] /\
      mp stack item ms /\ shows num hov stack (Dot p hover tags) ms.
  Proof using num_ok.
    intros Sp F. eexists. eexists. split; [unfold dot, add_item; cbn [r_items update_bounds]; reflexivity|].
    split; [|apply shows_dot].
    match goal with |- mp _ (?A ++ ?t ++ ?C ++ ?x ++ ?D) _ =>
      replace (A ++ t ++ C ++ x ++ D) with (A ++ (t ++ C ++ x) ++ D) by (now rewrite <- !app_assoc) end.
    apply g_reads; [exact Sp|].
    apply mp_app; [apply title_reads; reflexivity|].
    apply mp_silent; [apply mp_mild; [reflexivity|literal]|].
    change (join [32] tags ++ chars " dot") with (join [32] tags ++ [32] ++ chars "dot"). rewrite classes_join.
    assert (Pc : plain (classes tags "dot")) by (apply classes_plain; [exact F|apply plainb_plain; vm_compute; reflexivity]).
    set (class := classes tags "dot") in *.
    apply mp_whole; [tagged|]. eapply read_whole; [discriminate|reflexivity| |].
    - change (attributes Between (chars " cx=" ++ quote (num (px p)) ++ chars " cy=" ++ quote (num (py p)) ++ chars " class=" ++ quote class ++ chars "/") =
        Some [(chars "cx", num (px p)); (chars "cy", num (py p)); (chars "class", class)]).
      attrs. reflexivity.
    - at_end. reflexivity.
  Qed.

  (** Calls, one after the other. *)
  Lemma perform_all_eq r l : (fix go (r : renderer) (l : list command) : result renderer :=
    match l with [] => Ok r | c :: l' => do r1 <- perform num r c; go r1 l' end) r l = perform_all num r l.
  Proof using. revert r. induction l as [|c l IH]; intros r; [reflexivity|]. cbn [perform_all]. destruct (perform num r c); cbn; auto. Qed.
  Definition done (stack : list element) (r : renderer) (c : command) : Prop :=
    exists r' ts ms, perform num r c = Ok r' /\ r_items r' = r_items r ++ ts /\ r_hover r' = r_hover r /\
      (Forall plain_css (r_styles r) -> Forall plain_css (r_styles r')) /\
      mp stack (glue ts) ms /\ shows num (r_hover r) stack c ms.
  Definition all_done (stack : list element) (r : renderer) (l : list command) : Prop :=
    exists r' ts ms, perform_all num r l = Ok r' /\ r_items r' = r_items r ++ ts /\ r_hover r' = r_hover r /\
      (Forall plain_css (r_styles r) -> Forall plain_css (r_styles r')) /\
      mp stack (glue ts) ms /\ shows_all num (r_hover r) stack l ms.
  Lemma done_all l : Forall (fun c => forall stack r, speaks stack = false -> plain_call c -> done stack r c) l ->
    Forall plain_call l -> forall stack r, speaks stack = false -> all_done stack r l.
  Proof using.
    induction l as [|c l IH]; intros D P stack r Sp; inversion D as [|? ? D1 D2]; inversion P as [|? ? P1 P2]; subst.
    - exists r, [], []. splits; auto; [now rewrite app_nil_r|apply mp_nil|constructor].
    - destruct (D1 stack r Sp P1) as [r1 [ts1 [ms1 [E1 [I1 [H1 [S1 [M1 W1]]]]]]]].
      destruct (IH D2 P2 stack r1 Sp) as [r2 [ts2 [ms2 [E2 [I2 [H2 [S2 [M2 W2]]]]]]]].
      exists r2, (ts1 ++ ts2), (ms1 ++ ms2). cbn [perform_all]. rewrite E1. cbn [bind]. splits; auto.
      + now rewrite I2, I1, app_assoc.
      + congruence.
      + rewrite glue_app. now apply mp_app.
      + constructor; [exact W1|]. now rewrite <- H1.
  Qed.
  Lemma perform_done c : forall stack r, speaks stack = false -> plain_call c -> done stack r c.
  Proof using num_ok.
    induction c as [b t h s tags|p t s d h x tags|b tags|ps h tags|p h tags|h tags body IH|t|t] using command_induction;
      intros stack [items styles bounds hov] Sp P; inversion P; subst; unfold done; cbn [perform r_items r_styles r_hover].
    - destruct (label_reads stack items styles bounds hov b t h s tags Sp) as [it [ms [E [M W]]]]; [assumption|].
      eexists. exists [it], ms. splits; [reflexivity|exact E|reflexivity|auto|now apply glue_one|exact W].
    - destruct (label_at_reads stack items styles bounds hov p t s d h x tags Sp) as [it [ms [E [M W]]]]; [assumption|].
      eexists. exists [it], ms. splits; [reflexivity|exact E| |auto|now apply glue_one|exact W].
      + unfold label_at_point. destruct (vertical_offset _ _ _ _), (horizontal_offset _ _ _). reflexivity.
      + unfold label_at_point. destruct (vertical_offset _ _ _ _), (horizontal_offset _ _ _). auto.
    - destruct (container_reads stack items styles bounds hov b tags Sp) as [it [ms [E [M W]]]]; [assumption|].
      eexists. exists [it], ms. splits; [reflexivity|exact E|reflexivity|auto|now apply glue_one|exact W].
    - destruct (line_reads stack items styles bounds hov ps h tags Sp) as [r' [it [ms [E [I [S1 [S2 [M W]]]]]]]]; [assumption|assumption|].
      exists r', [it], ms. splits; [exact E|exact I|exact S2|now rewrite S1|now apply glue_one|exact W].
    - destruct (dot_reads stack items styles bounds hov p h tags Sp) as [it [ms [E [M W]]]]; [assumption|].
      eexists. exists [it], ms. splits; [reflexivity|exact E|reflexivity|auto|now apply glue_one|exact W].
    - set (g := el "g" [(chars "class", join [32] tags)]).
      destruct (done_all body IH H3 (g :: stack) (group_open (mkRenderer items styles bounds hov) h tags) eq_refl)
        as [r2 [ts [ms [E [I [Hh [S1 [M W]]]]]]]].
      cbn [group_open add_item r_items r_styles r_hover r_bounds] in *.
      eexists. eexists. exists (title hov h (g :: stack) ++ ms). splits.
      + rewrite perform_all_eq, E. reflexivity.
      + unfold group_close, add_item. cbn [r_items]. rewrite I, <- !app_assoc. reflexivity.
      + exact Hh.
      + exact S1.
      + rewrite !glue_app. unfold glue at 1 3. cbn [flat_map]. rewrite !app_nil_r.
        assert (F : Forall plain tags) by assumption.
        match goal with |- mp _ (((?A ++ tag ?t ++ ?B ++ ?ti ++ ?C) ++ ?n) ++ glue ts ++ ?D ++ ?n) _ =>
          replace (((A ++ tag t ++ B ++ ti ++ C) ++ n) ++ glue ts ++ D ++ n) with
            (A ++ (tag t ++ (B ++ ti ++ (C ++ n) ++ glue ts ++ A) ++ tag (chars "/g")) ++ chars "
    " ++ n) end.
        2:{ rewrite <- !app_assoc. reflexivity. }
        apply mp_silent; [apply mp_mild; [exact Sp|literal]|].
        apply mp_silent_end; [|apply mp_mild; [exact Sp|literal]].
        apply (mp_element stack _ g).
        * tagged.
        * eapply read_open; [discriminate|reflexivity| |].
          -- change (attributes Between (chars " class=" ++ quote (join [32] tags)) = Some [(chars "class", join [32] tags)]).
             apply attr_last; [intros; reflexivity|plain_text].
          -- at_end. apply Nat.eqb_neq. reflexivity.
        * literal.
        * apply mp_silent; [apply mp_mild; [reflexivity|literal]|].
          apply mp_app; [apply title_reads; reflexivity|].
          apply mp_silent; [apply mp_mild; [reflexivity|literal]|].
          apply mp_silent_end; [exact M|apply mp_mild; [reflexivity|literal]].
      + now apply shows_group.
    - exists (configure_style_css (mkRenderer items styles bounds hov) t), [], []. splits; auto.
      + cbn. now rewrite app_nil_r.
      + cbn. intros F. apply Forall_app. split; auto.
      + apply mp_nil.
      + constructor.
    - eexists. exists [t], (map (inside stack) ms). splits; [reflexivity|reflexivity|reflexivity|auto| |now constructor].
      apply glue_one; [exact Sp|]. now apply drawing_mp.
  Qed.
  Lemma perform_all_done l stack r : speaks stack = false -> Forall plain_call l -> all_done stack r l.
  Proof using num_ok. intros Sp P. apply done_all; auto. rewrite Forall_forall. intros c _ stack' r'. apply perform_done. Qed.

  (** The markers of the arrows. *)
  Definition arrows : text := chars "
      <defs>
        <marker id=""arrowend""
            markerWidth=""5"" markerHeight=""4""
            refX=""5"" refY=""2""
            orient=""auto"" markerUnits=""strokeWidth""
        >
          <path d=""M0,0 L0,4 L5,2 z"" fill=""black"" />
        </marker>
        <marker id=""arrowstart""
            markerWidth=""5"" markerHeight=""5""
            refX=""0"" refY=""2""
            orient=""auto"" markerUnits=""strokeWidth""
        >
          <circle cx=""1.5"" cy=""2"" r=1.5 fill=""black"" />
        </marker>
      </defs>
        ".
  Lemma plain_css_mild l : Forall plain_css l -> mild (join newline l).
  Proof using.
    induction l as [|x [|y l] IH]; intros F; inversion F as [|? ? P F']; subst; [constructor| |].
    - eapply Forall_impl; [|exact P]. cbn. tauto.
    - change (mild (x ++ newline ++ join newline (y :: l))). apply Forall_app. split.
      + eapply Forall_impl; [|exact P]. cbn. tauto.
      + apply Forall_app. split; [literal|exact (IH F')].
  Qed.
  Lemma join_glue stack ts ms : speaks stack = false -> mp stack (glue ts) ms ->
    mp stack (join newline ts ++ newline) ms.
  Proof using.
    intros Sp M. destruct ts as [|t ts].
    - cbn [join app]. change (mp stack ([] ++ newline) ms). apply mp_silent_end; [exact M|apply mp_mild; [exact Sp|literal]].
    - assert (E : forall l x, join newline (x :: l) ++ newline = glue (x :: l)).
      { induction l as [|y l IH]; intros x; [cbn; now rewrite app_nil_r|].
        change (join newline (x :: y :: l)) with (x ++ newline ++ join newline (y :: l)). rewrite <- !app_assoc, IH.
        unfold glue. cbn [flat_map]. now rewrite <- !app_assoc. }
      now rewrite E.
  Qed.
  Definition view_attribute (v : box) : text :=
    num (b_left v) ++ [32] ++ num (b_top v) ++ [32] ++ num (b_width v) ++ [32] ++ num (b_height v).
  Definition svg_element (v : box) : element := el "svg" [(chars "class", chars "rendered_graph"); (chars "viewBox", view_attribute v)].
  (** The arrow heads that lines refer to. *)
  Definition arrow_marks : list mark :=
    let marker name h r := el "marker" [(chars "id", chars name); (chars "markerWidth", chars "5"); (chars "markerHeight", chars h);
      (chars "refX", chars r); (chars "refY", chars "2"); (chars "orient", chars "auto"); (chars "markerUnits", chars "strokeWidth")] in
    [Shape (el "path" [(chars "d", chars "M0,0 L0,4 L5,2 z"); (chars "fill", chars "black")]) [marker "arrowend" "4" "5"; el "defs" []];
     Shape (el "circle" [(chars "cx", chars "1.5"); (chars "cy", chars "2"); (chars "r", chars "1.5"); (chars "fill", chars "black")])
       [marker "arrowstart" "5" "0"; el "defs" []]]%string.
  Lemma arrows_drawn : drawing arrows = Some arrow_marks.
  Proof using. vm_compute. reflexivity. Qed.

  Lemma to_html_reads r padding ts ms : Forall plain_css (r_styles r) -> r_items r = ts ->
    mp [el "g" []; svg_element (viewbox r padding)] (glue ts) ms ->
    drawing (to_html num r padding) = Some (map (inside [svg_element (viewbox r padding)]) arrow_marks ++ ms).
  Proof using num_ok.
    intros F I M. apply mp_drawing. unfold to_html. rewrite I. set (v := viewbox r padding) in *.
    match goal with |- mp _ (?A ++ tag ?st ++ ?B ++ ?sty ++ ?C ++ tag ?cl ++ ?A' ++ tag ?sv ++ ?ar ++ ?its ++ ?en) _ =>
      replace (A ++ tag st ++ B ++ sty ++ C ++ tag cl ++ A' ++ tag sv ++ ar ++ its ++ en) with
        (A ++ (tag st ++ (B ++ sty ++ C) ++ tag cl) ++ A' ++
         (tag sv ++ (arrows ++ (tag (chars "g") ++ (chars "
          " ++ (its ++ newline) ++ chars "        ") ++ tag (chars "/g")) ++ chars "
      ") ++ tag (chars "/svg")) ++ chars "
    ") end.
    2:{ rewrite <- !app_assoc. reflexivity. }
    apply mp_silent; [apply mp_mild; [reflexivity|literal]|].
    apply mp_silent.
    { apply (mp_element [] _ (el "style" [(chars "type", chars "text/css")])); [literal|reflexivity|literal|].
      apply mp_silent; [apply mp_mild; [reflexivity|literal]|].
      apply mp_silent; [apply mp_mild; [reflexivity|now apply plain_css_mild]|]. apply mp_mild; [reflexivity|literal]. }
    apply mp_silent; [apply mp_mild; [reflexivity|literal]|].
    apply mp_silent_end; [|apply mp_mild; [reflexivity|literal]].
    assert (Pv : plain (view_attribute v)) by (unfold view_attribute; plain_text).
    apply (mp_element [] _ (svg_element v)).
    - change (plain_tag_text (chars "svg class=""rendered_graph"" viewBox=" ++ quote (view_attribute v))). tagged.
    - eapply read_open; [discriminate|reflexivity| |].
      + change (attributes Between (chars " class=" ++ quote (chars "rendered_graph") ++ chars " viewBox=" ++ quote (view_attribute v)) =
          Some [(chars "class", chars "rendered_graph"); (chars "viewBox", view_attribute v)]).
        attrs. apply attr_last; [intros; reflexivity|exact Pv].
      + at_end. apply Nat.eqb_neq. reflexivity.
    - literal.
    - apply mp_app; [apply drawing_mp; [reflexivity|apply arrows_drawn]|].
      apply mp_silent_end; [|apply mp_mild; [reflexivity|literal]].
      apply (mp_element _ (chars "g") (el "g" [])); [literal|reflexivity|literal|].
      apply mp_silent; [apply mp_mild; [reflexivity|literal]|].
      apply mp_silent_end; [apply join_glue; [reflexivity|exact M]|apply mp_mild; [reflexivity|literal]].
  Qed.
  Theorem svg_shows (l : list command) with_default_styles with_hover_text padding : Forall plain_call l ->
    exists r ms, perform_all num (new_renderer with_default_styles with_hover_text) l = Ok r /\
      shows_all num with_hover_text [el "g" []; svg_element (viewbox r padding)] l ms /\
      drawing (to_html num r padding) = Some (map (inside [svg_element (viewbox r padding)]) arrow_marks ++ ms).
  Proof using num_ok.
    intros P.
    destruct (perform_all_done l [] (new_renderer with_default_styles with_hover_text) eq_refl P) as [r0 [? [? [E0 _]]]].
    destruct (perform_all_done l [el "g" []; svg_element (viewbox r0 padding)] (new_renderer with_default_styles with_hover_text) eq_refl P)
      as [r [ts [ms [E [I [Hh [Sy [M W]]]]]]]].
    rewrite E0 in E. injection E as ->.
    exists r, ms. splits; [exact E0|exact W|]. apply (to_html_reads r padding ts); auto.
    apply Sy. unfold new_renderer. destruct with_default_styles; repeat constructor; cbn; discriminate.
  Qed.
End Svg.
