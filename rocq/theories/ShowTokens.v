(** Token probabilities on a page. *)

From Coq Require Import String.
From Coq Require Import List Bool Arith Lia ZArith QArith Qcanon.
From Verif Require Import Base SeqNodes Transforms PackedSeq PackedSeqProofs Numbered Decisions RegionDecisions Html TokenProb Properties_Tree Combine Show ShowSpec ShowProofs.
Import ListNotations.
Close Scope string_scope. Close Scope Qc_scope. Close Scope Q_scope. Close Scope Z_scope. Open Scope nat_scope. Open Scope list_scope.

(** The text nodes of a tree with their positions in the preorder. *)
Definition text_positions {M} (ns : list (node M)) : list (nat * node M) :=
  filter (fun x => is_text (snd x)) (combine (seq 0 (length (nodes_of ns))) (nodes_of ns)).
Lemma flatten_values {M} (toks : list (text * Qc)) (ns : list (node M)) must r : align_token_log_probs toks (pack ns) must = Ok r ->
  exists l, flatten_token_log_probs_from_parsed (pack ns) r = Ok l /\
    Forall2 (fun kn x => fst x = own_text (snd kn) /\ (if is_token (snd kn) then In (fst kn, snd x) r else snd x = 0%Qc)) (text_positions ns) l.
Proof.
  intros E. apply align_result in E as [st' E].
  destruct (align_nodes_ok (subs ns) (rev toks)) as [[r' [st'' [E' [_ Hk]]]]|[E' _]]; rewrite E in E'; [injection E' as <- <-|discriminate].
  assert (Hd : forall x, In x (subs ns) -> is_token (erase x) = true -> exists p, assoc (pre (label x)) r = Some p).
  { intros x Hx Ht. apply assoc_key_some. rewrite Hk. apply (in_map (fun x => pre (label x))). apply filter_In. auto. }
  exists (flat_map (entry r) (subs ns)). unfold flatten_token_log_probs_from_parsed.
  rewrite <- subs_pre. split; [apply flatten_nodes; auto using subs_placed|].
  unfold text_positions. rewrite <- subs_nodes, map_length. pose proof (subs_index ns) as Hi. clear E Hk.
  revert Hi Hd. generalize 0 as j. induction (subs ns) as [|x xs IH]; intros j Hi Hd; [constructor|].
  cbn [map length seq] in Hi. injection Hi as H1 H2.
  assert (Hd' := fun x Hx => Hd x (or_intror Hx)). specialize (IH (S j) H2 Hd').
  cbn [map length seq combine filter flat_map snd].
  destruct x as [i t|i t m|i|i|i|i cs m]; cbn [entry erase is_text app]; try exact IH.
  - constructor; [|exact IH]. split; reflexivity.
  - destruct (Hd (LToken i t m) (or_introl eq_refl) eq_refl) as [p Hp]. cbn [label] in Hp, H1. rewrite Hp. constructor; [|exact IH].
    cbn [fst snd own_text is_token]. split; [reflexivity|]. rewrite <- H1. now apply assoc_In.
Qed.
Definition probs_page (percent : Qc -> text) (context : text) (shown : list (text * Qc)) : list (nat * list text) :=
  under [mono_span] context ++ flat_map (fun x => under [colour_span percent (snd x); probs_span] (arrowed (fst x))) shown.
Lemma with_arrows_spec t : with_arrows t = arrowed t.
Proof. induction t as [|c t IH]; [reflexivity|]. unfold with_arrows, replace in *. cbn [flat_map arrowed]. rewrite IH. now destruct (c =? 10). Qed.
Lemma probs_piece percent context l : (forall q, Forall (fun c => c <> 60 /\ c <> 62) (percent q)) ->
  piece [] (tag mono_span ++ escape context ++ chars "</span>" ++ render_tokens_and_log_probs_to_html percent l) (probs_page percent context l).
Proof.
  intros HP. unfold probs_page. rewrite (app_assoc (escape context)), (app_assoc (tag mono_span)).
  apply piece_app; [apply piece_span; [apply mono_plain|apply mono_opens|apply piece_text]|].
  unfold render_tokens_and_log_probs_to_html. apply piece_span; [plain_tag|reflexivity|].
  induction l as [|x l IH]; [apply piece_nil|]. cbn [map concat flat_map]. apply piece_app; [|exact IH].
  rewrite with_arrows_spec. apply piece_span; [|reflexivity|apply piece_text]. unfold plain_tag_text, colour_span. repeat rewrite Forall_app. splits; auto; plain_tag.
Qed.
(** Entries of lists side by side. *)
Lemma map_fst_combine {A B} (l : list A) (l' : list B) : length l = length l' -> map fst (combine l l') = l.
Proof. revert l'. induction l as [|x l IH]; intros [|y l'] H; try discriminate; auto. cbn. f_equal. apply IH. now injection H. Qed.
Lemma map_snd_combine {A B} (l : list A) (l' : list B) : length l = length l' -> map snd (combine l l') = l'.
Proof. revert l'. induction l as [|x l IH]; intros [|y l'] H; try discriminate; auto. cbn. f_equal. apply IH. now injection H. Qed.
Lemma NoDup_map_inj {A B} (l : list (A * B)) k v v' : NoDup (map fst l) -> In (k, v) l -> In (k, v') l -> v = v'.
Proof.
  induction l as [|[a b] l IH]; cbn; [intros _ []|]. intros N H H'. inversion N as [|? ? N1 N2]; subst.
  destruct H as [H|H], H' as [H'|H']; [congruence| | |now apply IH].
  - injection H as -> ->. destruct N1. apply (in_map fst) in H'. exact H'.
  - injection H' as -> ->. destruct N1. apply (in_map fst) in H. exact H.
Qed.
Lemma utility_lines rounded n (ks : list Qc) : n = length ks ->
  @Ok (option (list text)) (Some (map (fun x => chars "Target " ++ number_text (fst x) ++ chars ": " ++ rounded (cneg (snd x)))
    (combine (seq 0 (length (map Fin ks))) (map Fin ks)))) =
  Ok (Some (map (fun x => chars "Target " ++ number_text (fst x) ++ chars ": " ++ rounded (Fin (- snd x)%Qc)) (combine (seq 0 n) ks))).
Proof.
  intros ->. do 2 f_equal. rewrite map_length. generalize 0 as j. induction ks as [|k ks IH]; intros j; [reflexivity|]. cbn. f_equal. apply IH.
Qed.
