(** HTML text: Python's [html.escape], a reader for the markup the renderers
    produce, and [render_regions_to_html]. *)

From Coq Require Import List Bool Arith Lia String Ascii.
From Verif Require Import Base SeqNodes PackedSeq Decisions RegionDecisions.
Import ListNotations.

(** Code points of an ASCII literal. *)
Fixpoint chars (s : string) : text :=
  match s with EmptyString => [] | String a s' => nat_of_ascii a :: chars s' end.

(** [s.replace(c, r)] for a one-character [c]. *)
Definition replace (c : nat) (r : text) (s : text) : text :=
  flat_map (fun x => if x =? c then r else [x]) s.
(** [html.escape] of the standard library (quote=True), used at
    region_decisions.py:245 and edit_dags.py:1916, 1959.  Not part of /repo. *)
Definition escape (s : text) : text :=
  replace 39 (chars "&#x27;") (replace 34 (chars "&quot;")
    (replace 62 (chars "&gt;") (replace 60 (chars "&lt;") (replace 38 (chars "&amp;") s)))).

(** ** Specification: reading markup back. *)
Inductive item := Char (c : nat) | Tag (t : text).
Inductive mode := InText | InTag (t : text) | InEntity (t : text).
Definition entity (t : text) : option nat :=
  if eqb t (chars "amp") then Some 38 else if eqb t (chars "lt") then Some 60
  else if eqb t (chars "gt") then Some 62 else if eqb t (chars "quot") then Some 34
  else if eqb t (chars "#x27") then Some 39 else None.
(** [None] when the input is not well-formed: a stray [<], [>] or [&], an
    unknown entity, or an unfinished tag. *)
Fixpoint read (m : mode) (s : text) : option (list item) :=
  match s with
  | [] => match m with InText => Some [] | _ => None end
  | c :: s' =>
      match m with
      | InText =>
          if c =? 60 then read (InTag []) s'
          else if c =? 38 then read (InEntity []) s'
          else if c =? 62 then None
          else option_map (cons (Char c)) (read InText s')
      | InTag t =>
          if c =? 62 then option_map (cons (Tag t)) (read InText s')
          else if c =? 60 then None
          else read (InTag (t ++ [c])) s'
      | InEntity t =>
          if c =? 59 then match entity t with
                          | Some x => option_map (cons (Char x)) (read InText s')
                          | None => None
                          end
          else read (InEntity (t ++ [c])) s'
      end
  end.
(** Characters with the tags open around them, innermost first.  [None] unless every
    closing tag is [/span] and closes the last open tag, every other tag opens a
    span, and all are closed in the end. *)
Definition opening (t : text) : bool := eqb (firstn 5 t) (chars "span ").
Definition closing (t : text) : bool := eqb t (chars "/span").
Fixpoint nested (stack : list text) (l : list item) : option (list (nat * list text)) :=
  match l with
  | [] => match stack with [] => Some [] | _ => None end
  | Char c :: l' => option_map (cons (c, stack)) (nested stack l')
  | Tag t :: l' =>
      if closing t then match stack with [] => None | _ :: stack' => nested stack' l' end
      else if opening t then nested (t :: stack) l'
      else None
  end.
(** The text of a document and the spans around each character. *)
Definition document (s : text) : option (list (nat * list text)) :=
  match read InText s with Some l => nested [] l | None => None end.
Definition under (stack : list text) (t : text) : list (nat * list text) := map (fun c => (c, stack)) t.

(** ** Escaping and reading. *)
Lemma replace_app c r s s' : replace c r (s ++ s') = replace c r s ++ replace c r s'.
Proof. apply flat_map_app. Qed.
Lemma escape_app s s' : escape (s ++ s') = escape s ++ escape s'.
Proof. unfold escape. now rewrite !replace_app. Qed.
Lemma escape_one c : escape [c] =
  if c =? 38 then chars "&amp;" else if c =? 60 then chars "&lt;" else if c =? 62 then chars "&gt;"
  else if c =? 34 then chars "&quot;" else if c =? 39 then chars "&#x27;" else [c].
Proof.
  destruct (Nat.eqb_spec c 38) as [->|N1]; [reflexivity|]. destruct (Nat.eqb_spec c 60) as [->|N2]; [reflexivity|].
  destruct (Nat.eqb_spec c 62) as [->|N3]; [reflexivity|]. destruct (Nat.eqb_spec c 34) as [->|N4]; [reflexivity|].
  destruct (Nat.eqb_spec c 39) as [->|N5]; [reflexivity|].
  unfold escape, replace at 5. cbn [flat_map]. apply Nat.eqb_neq in N1, N2, N3, N4, N5. rewrite N1. cbn [app].
  unfold replace at 4. cbn [flat_map]. rewrite N2. cbn [app].
  unfold replace at 3. cbn [flat_map]. rewrite N3. cbn [app].
  unfold replace at 2. cbn [flat_map]. rewrite N4. cbn [app].
  unfold replace. cbn [flat_map]. rewrite N5. reflexivity.
Qed.
Lemma read_escape s rest l : read InText rest = Some l ->
  read InText (escape s ++ rest) = Some (map Char s ++ l).
Proof.
  intros H. induction s as [|c s IH]; [exact H|].
  change (c :: s) with ([c] ++ s). rewrite escape_app, <- app_assoc, escape_one.
  destruct (Nat.eqb_spec c 38) as [->|N1]; [cbn -[escape]; now rewrite IH|].
  destruct (Nat.eqb_spec c 60) as [->|N2]; [cbn -[escape]; now rewrite IH|].
  destruct (Nat.eqb_spec c 62) as [->|N3]; [cbn -[escape]; now rewrite IH|].
  destruct (Nat.eqb_spec c 34) as [->|N4]; [cbn -[escape]; now rewrite IH|].
  destruct (Nat.eqb_spec c 39) as [->|N5]; [cbn -[escape]; now rewrite IH|].
  cbn [app read]. apply Nat.eqb_neq in N1, N2, N3. rewrite N2, N1, N3, IH. reflexivity.
Qed.
Lemma read_tag_body t : forall acc rest l, Forall (fun c => c <> 60 /\ c <> 62) t -> read InText rest = Some l ->
  read (InTag acc) (t ++ 62 :: rest) = Some (Tag (acc ++ t) :: l).
Proof.
  induction t as [|c t IH]; intros acc rest l F H.
  - cbn. rewrite H. now rewrite app_nil_r.
  - inversion F as [|? ? [N1 N2] F']; subst. apply Nat.eqb_neq in N1, N2. cbn [app read]. rewrite N2, N1.
    rewrite (IH _ _ _ F' H). now rewrite <- app_assoc.
Qed.
Definition tag (t : text) : text := 60 :: t ++ [62].
Lemma read_tag t rest l : Forall (fun c => c <> 60 /\ c <> 62) t -> read InText rest = Some l ->
  read InText (tag t ++ rest) = Some (Tag t :: l).
Proof.
  intros F H. unfold tag. cbn [app read]. rewrite <- app_assoc. now apply read_tag_body.
Qed.
Lemma nested_chars stack s l r : nested stack l = Some r -> nested stack (map Char s ++ l) = Some (under stack s ++ r).
Proof. intros H. induction s as [|c s IH]; [exact H|]. cbn. now rewrite IH. Qed.

(** ** region_decisions.py:195-252, [render_regions_to_html]. *)
Definition newline : text := [10].
(** Lines 219-232, up to the root tag. *)
Definition region_style (text_color border_color background_color : text) : text :=
  chars "<style>" ++ newline ++
  chars "        .regions_root {" ++ newline ++
  chars "            white-space: pre;" ++ newline ++
  chars "            font-family: monospace;" ++ newline ++
  chars "            color: black;" ++ newline ++
  chars "            font-weight: bold;" ++ newline ++
  chars "        }" ++ newline ++
  chars "        .regions_root .in_region {" ++ newline ++
  chars "            color: " ++ text_color ++ chars ";" ++ newline ++
  chars "            border: solid 1px " ++ border_color ++ chars ";" ++ newline ++
  chars "            border-radius: 3px;" ++ newline ++
  chars "            background-color: " ++ background_color ++ chars ";" ++ newline ++
  chars "        }" ++ newline ++
  chars "      </style>".
(** Lines 234-249, the loop and the closing of a region left open. *)
Fixpoint region_parts (was_in_region : bool) (l : list part) : text :=
  match l with
  | [] => if was_in_region then chars "</span>" else []
  | (t, b) :: l' =>
      (if b && negb was_in_region then chars "<span class=""in_region"">" else []) ++
      (if negb b && was_in_region then chars "</span>" else []) ++
      escape t ++ region_parts b l'
  end.
(** Line 238: U+FE19. *)
Definition empty_marker : text := [65049].
Definition render_regions_to_html {M} (prototype : storage M) (asg : assignments)
    (text_color border_color background_color : text) : result text :=
  match extract_sequence_with_regions prototype asg empty_marker with
  | (parts, None) =>
      Ok (region_style text_color border_color background_color ++
          chars "<span class=""regions_root"">" ++ region_parts false parts ++ chars "</span>")
  | (_, Some e) => Err e
  end.

Definition root_span : text := chars "span class=""regions_root""".
Definition region_span : text := chars "span class=""in_region""".
(** The spans around the characters of a part. *)
Definition region_stack (b : bool) : list text := if b then [region_span; root_span] else [root_span].

Lemma read_nested_tag t stack rest r : Forall (fun c => c <> 60 /\ c <> 62) t ->
  (exists l, read InText rest = Some l /\
     (if closing t then match stack with [] => None | _ :: stack' => nested stack' l end
      else if opening t then nested (t :: stack) l else None) = Some r) ->
  exists l, read InText (tag t ++ rest) = Some l /\ nested stack l = Some r.
Proof. intros F [l [H1 H2]]. eexists. split; [apply read_tag; [exact F|exact H1]|exact H2]. Qed.
Lemma read_nested_text s stack rest r :
  (exists l, read InText rest = Some l /\ nested stack l = Some r) ->
  exists l, read InText (escape s ++ rest) = Some l /\ nested stack l = Some (under stack s ++ r).
Proof. intros [l [H1 H2]]. eexists. split; [apply read_escape; exact H1|apply nested_chars; exact H2]. Qed.

Ltac plain_tag := repeat (apply Forall_cons; [split; discriminate|]); apply Forall_nil.
Lemma region_parts_read l : forall b,
  exists i, read InText (region_parts b l ++ chars "</span>") = Some i /\
    nested (region_stack b) i = Some (flat_map (fun p => under (region_stack (snd p)) (fst p)) l).
Proof.
  induction l as [|[t b'] l IH]; intros b.
  - destruct b; (eexists; split; [vm_compute; reflexivity|vm_compute; reflexivity]).
  - cbn [region_parts]. rewrite <- !app_assoc.
    destruct (read_nested_text t (region_stack b') _ _ (IH b')) as [i [R1 R2]].
    destruct b, b'; cbn [andb negb]; cbn [app]; cbn [flat_map fst snd].
    + eauto.
    + apply (read_nested_tag (chars "/span")); [plain_tag|]. eauto.
    + apply (read_nested_tag region_span); [plain_tag|]. eauto.
    + eauto.
Qed.
Theorem regions_html {M} (prototype : storage M) asg c1 c2 c3 parts :
  extract_sequence_with_regions prototype asg empty_marker = (parts, None) ->
  exists body, render_regions_to_html prototype asg c1 c2 c3 = Ok (region_style c1 c2 c3 ++ body) /\
    document body = Some (flat_map (fun p => under (region_stack (snd p)) (fst p)) parts).
Proof.
  intros E. unfold render_regions_to_html. rewrite E. eexists. split; [reflexivity|].
  unfold document.
  destruct (read_nested_tag root_span [] (region_parts false parts ++ chars "</span>")
    (flat_map (fun p => under (region_stack (snd p)) (fst p)) parts)) as [i [R1 R2]]; [plain_tag| |].
  - destruct (region_parts_read parts false) as [i [R1 R2]]. eauto.
  - match goal with |- match read InText ?x with _ => _ end = _ =>
      change x with (tag root_span ++ (region_parts false parts ++ chars "</span>")) end.
    now rewrite R1.
Qed.
