(** The codec, the pseudo parser and its clients: specification and proofs. *)

From Coq Require Import List Bool Arith Lia Sorting.Sorted.
From Verif Require Import Base SeqNodes StackParser StackParserProofs ParseShape Subtokenizer PseudoParse.
Import ListNotations.

(** ** The codec *)
Section Codec.
  Lemma assoc_dict_set {K V} `{EqDec K} (k : K) (v : V) d k' :
    assoc k' (dict_set k v d) = if eqb k' k then Some v else assoc k' d.
  Proof.
    induction d as [|[k0 v0] d IH]; cbn [dict_set].
    - cbn [assoc]. reflexivity.
    - destruct (eqb k k0) eqn:E.
      + apply eqb_eq in E. subst k0. cbn [assoc]. destruct (eqb k' k); auto.
      + cbn [assoc]. rewrite IH. destruct (eqb k' k0) eqn:E0; auto.
        apply eqb_eq in E0. subst k0. destruct (eqb k' k) eqn:E1; auto.
        apply eqb_eq in E1. subst k'. now rewrite eqb_refl in E.
  Qed.
  Lemma dict_set_fresh {K V} `{EqDec K} (k : K) (v : V) d : assoc k d = None -> length (dict_set k v d) = S (length d).
  Proof.
    induction d as [|[k0 v0] d IH]; cbn [dict_set assoc length]; auto.
    destruct (eqb k k0); [discriminate|]. intros E. cbn [length]. now rewrite IH.
  Qed.

  (** The three dicts describe one numbering of distinct tokens. *)
  Record codec_ok (c : codec) : Prop := {
    ck_range : forall t i, assoc t (token_to_index c) = Some i -> 1 <= i <= length (token_to_index c);
    ck_inv : forall t i, assoc t (token_to_index c) = Some i <-> assoc i (index_to_token c) = Some t;
    ck_type : forall t i, assoc t (token_to_index c) = Some i -> exists ty, assoc i (index_to_type c) = Some ty }.
  Definition extends (c c' : codec) : Prop :=
    (forall t i, assoc t (token_to_index c) = Some i -> assoc t (token_to_index c') = Some i) /\
    (forall i t, assoc i (index_to_token c) = Some t -> assoc i (index_to_token c') = Some t) /\
    (forall t i ty, assoc t (token_to_index c) = Some i -> assoc i (index_to_type c) = Some ty ->
       assoc i (index_to_type c') = Some ty).
  Lemma extends_refl c : extends c c.
  Proof. repeat split; auto. Qed.
  Lemma extends_trans a b c : extends a b -> extends b c -> extends a c.
  Proof.
    intros [A1 [A2 A3]] [B1 [B2 B3]]. repeat split; auto. intros t i ty E1 E2.
    eapply B3; eauto.
  Qed.
  Lemma new_codec_ok : codec_ok new_codec.
  Proof. constructor; cbn; intros; try discriminate. split; discriminate. Qed.

  Lemma add_token_spec c t ty : codec_ok c -> assoc t (token_to_index c) = None ->
    exists c', add_token c t ty false = Ok (c', length (token_to_index c) + 1) /\ codec_ok c' /\ extends c c' /\
      assoc t (token_to_index c') = Some (length (token_to_index c) + 1) /\
      assoc (length (token_to_index c) + 1) (index_to_type c') = Some ty /\
      (forall u, u <> t -> assoc u (token_to_index c') = assoc u (token_to_index c)).
  Proof.
    intros [H1 H2 H3] E. unfold add_token. rewrite E. set (n := length (token_to_index c) + 1).
    assert (Hn : forall u, assoc u (token_to_index c) <> Some n).
    { intros u C. apply H1 in C. unfold n in C. lia. }
    assert (Hn' : assoc n (index_to_token c) = None).
    { destruct (assoc n (index_to_token c)) as [u|] eqn:En; auto. apply H2 in En. now apply Hn in En. }
    eexists. split; [reflexivity|]. cbn [token_to_index index_to_token index_to_type]. splits.
    - constructor; cbn [token_to_index index_to_token index_to_type].
      + intros u i. rewrite assoc_dict_set, dict_set_fresh by auto. destruct (eqb u t).
        * intros [= <-]. unfold n. lia.
        * intros Eu. apply H1 in Eu. lia.
      + intros u i. rewrite !assoc_dict_set. destruct (eqb u t) eqn:Eu.
        * apply eqb_eq in Eu. subst u. split.
          -- intros [= <-]. now rewrite eqb_refl.
          -- destruct (eqb i n) eqn:Ei; [apply eqb_eq in Ei; now subst|]. intros C. apply H2 in C. congruence.
        * apply eqb_neq in Eu. split.
          -- intros C. rewrite neq_eqb; [now apply H2|]. intros ->. now apply Hn in C.
          -- destruct (eqb i n) eqn:Ei; [congruence|]. apply H2.
      + intros u i. rewrite !assoc_dict_set. destruct (eqb i n) eqn:Ei; eauto. destruct (eqb u t) eqn:Eu.
        * intros [= <-]. rewrite eqb_refl in Ei. discriminate.
        * apply H3.
    - unfold extends. cbn [token_to_index index_to_token index_to_type]. splits.
      + intros u i Eu. rewrite assoc_dict_set, neq_eqb; auto. congruence.
      + intros i u Eu. rewrite assoc_dict_set, neq_eqb; auto. congruence.
      + intros u i ty' Eu Et. rewrite assoc_dict_set, neq_eqb; auto. intros ->. now apply Hn in Eu.
    - now rewrite assoc_dict_set, eqb_refl.
    - now rewrite assoc_dict_set, eqb_refl.
    - intros u Hu. now rewrite assoc_dict_set, neq_eqb.
  Qed.

  (** [tok c i t] : the codec knows [t] under the code [i]. *)
  Definition knows (c : codec) (t : text) (i : nat) : Prop := assoc t (token_to_index c) = Some i.
  Definition has_type (c : codec) (i : nat) (ty : ttype) : Prop := assoc i (index_to_type c) = Some ty.

  Lemma encode_matches_spec ms : forall c c' l, codec_ok c -> encode_matches c ms = Ok (c', l) ->
    codec_ok c' /\ extends c c' /\ Forall2 (fun m i => knows c' (fst m) i /\ has_type c' i (snd m)) ms l.
  Proof.
    induction ms as [|[t ty] ms IH]; intros c c' l Hc E; cbn [encode_matches] in E.
    - injection E as <- <-. splits; auto using extends_refl.
    - apply bind_ok_inv in E as [c1 [E1 E2]].
      assert (G : codec_ok c1 /\ extends c c1).
      { destruct (assoc t (token_to_index c)) eqn:Et.
        - injection E1 as <-. split; auto using extends_refl.
        - destruct (add_token_spec c t ty Hc Et) as [c2 [A1 [A2 [A3 _]]]]. rewrite A1 in E1. injection E1 as <-. auto. }
      destruct G as [G1 G2]. destruct (assoc t (token_to_index c1)) as [i|] eqn:Ei; [|discriminate].
      destruct (assoc i (index_to_type c1)) as [ty'|] eqn:Ey; [|discriminate].
      destruct (eqb ty ty') eqn:Eq; [|discriminate]. apply eqb_eq in Eq. subst ty'.
      apply bind_ok_inv in E2 as [[c2 l'] [E2 [= <- <-]]]. destruct (IH _ _ _ G1 E2) as [I1 [I2 I3]].
      cbn [fst snd]. splits; auto; [eapply extends_trans; eauto|]. constructor; auto. cbn [fst snd]. split.
      + now apply I2.
      + now apply (proj2 (proj2 I2) t).
  Qed.
  (** Encoding succeeds when no token has two types. *)
  Definition types_by (ty : text -> ttype) (c : codec) : Prop :=
    forall t i, knows c t i -> has_type c i (ty t).
  Lemma encode_matches_ok (ty : text -> ttype) ms : Forall (fun m => snd m = ty (fst m)) ms ->
    forall c, codec_ok c -> types_by ty c -> exists c' l, encode_matches c ms = Ok (c', l) /\ types_by ty c'.
  Proof.
    induction 1 as [|[t ty0] ms E0 HF IH]; intros c Hc Ht; cbn [encode_matches]; [eauto|]. cbn [fst snd] in E0. subst ty0.
    assert (G : exists c1, (match assoc t (token_to_index c) with
               | Some _ => Ok c | None => do r <- add_token c t (ty t) false; Ok (fst r) end) = Ok c1 /\
               codec_ok c1 /\ types_by ty c1 /\ exists i, knows c1 t i).
    { destruct (assoc t (token_to_index c)) as [i|] eqn:Et.
      - exists c. splits; auto. now exists i.
      - destruct (add_token_spec c t (ty t) Hc Et) as [c2 [A1 [A2 [A3 [A4 [A5 A6]]]]]]. exists c2. rewrite A1. splits; auto.
        + intros u i Hu. destruct (eq_dec u t) as [->|Hn].
          * unfold knows in Hu. rewrite A4 in Hu. injection Hu as <-. exact A5.
          * unfold knows in Hu. rewrite A6 in Hu by auto. eapply (proj2 (proj2 A3)); [exact Hu|]. now apply Ht.
        + eexists. exact A4. }
    destruct G as [c1 [-> [G1 [G2 [i Gi]]]]]. cbn [bind]. rewrite Gi. rewrite (G2 _ _ Gi). rewrite eqb_refl.
    destruct (IH c1 G1 G2) as [c' [l [E Hc']]]. rewrite E. cbn [bind]. eauto.
  Qed.

  Lemma mapM_F2 {A B} (f : A -> result B) l l' : Forall2 (fun x y => f x = Ok y) l l' -> mapM f l = Ok l'.
  Proof. induction 1 as [|x y l l' E F IH]; cbn [mapM]; auto. now rewrite E, IH. Qed.
  Lemma decode_known c ms l : codec_ok c ->
    Forall2 (fun (m : text * ttype) i => knows c (fst m) i /\ has_type c i (snd m)) ms l ->
    decode_token c l = Ok (map fst ms) /\ decode_type c l = Ok (map snd ms).
  Proof.
    intros Hc F. split; apply mapM_F2; induction F as [|m i ms l [K Y] F IH]; constructor; auto.
    - apply (ck_inv _ Hc) in K. now rewrite K.
    - now rewrite Y.
  Qed.

  (** Histories of registrations and encodings. *)
  Inductive codec_op := Register (t : text) (ty : ttype) | Encode (ms : list (text * ttype)).
  Definition codec_step (c : codec) (op : codec_op) : result codec :=
    match op with
    | Register t ty => do r <- add_token c t ty false; Ok (fst r)
    | Encode ms => do r <- encode_matches c ms; Ok (fst r)
    end.
  Fixpoint codec_run (c : codec) (ops : list codec_op) : result codec :=
    match ops with [] => Ok c | op :: ops' => do c' <- codec_step c op; codec_run c' ops' end.
  Lemma codec_step_ok c op c' : codec_ok c -> codec_step c op = Ok c' -> codec_ok c' /\ extends c c'.
  Proof.
    intros Hc E. destruct op as [t ty|ms]; cbn [codec_step] in E.
    - destruct (assoc t (token_to_index c)) as [i|] eqn:Et.
      + unfold add_token in E. rewrite Et in E. discriminate.
      + destruct (add_token_spec c t ty Hc Et) as [c2 [A1 [A2 [A3 _]]]]. rewrite A1 in E. injection E as <-. auto.
    - apply bind_ok_inv in E as [[c2 l] [E [= <-]]]. apply encode_matches_spec in E as [A [B _]]; auto.
  Qed.
  Lemma codec_run_ok ops : forall c c', codec_ok c -> codec_run c ops = Ok c' -> codec_ok c' /\ extends c c'.
  Proof.
    induction ops as [|op ops IH]; intros c c' Hc E; cbn [codec_run] in E.
    - injection E as <-. auto using extends_refl.
    - apply bind_ok_inv in E as [c1 [E1 E2]]. apply codec_step_ok in E1 as [A B]; auto.
      destruct (IH _ _ A E2). split; auto. eapply extends_trans; eauto.
  Qed.
  Lemma decode_extends c c' l ts : extends c c' -> decode_token c l = Ok ts -> decode_token c' l = Ok ts.
  Proof.
    intros [_ [E _]] D. apply mapM_F2. apply mapM_ok_iff in D. induction D as [|i t l ts Hi F IH]; constructor; auto.
    destruct (assoc i (index_to_token c)) eqn:Ei; [|discriminate]. injection Hi as ->. now rewrite (E _ _ Ei).
  Qed.
End Codec.

(** ** The pseudo parser *)
Section Parser.
  Variable lex : text -> list (text * ttype).
  Variable ty : text -> ttype.
  (** A token's text determines its type; the newline is a token. *)
  Hypothesis Hty : forall code, Forall (fun m => snd m = ty (fst m)) (lex code).
  Hypothesis Hnl : lex newline_text = [(newline_text, ty newline_text)].

  Lemma encode_ok c code : codec_ok c -> types_by ty c ->
    exists c' l, encode lex c code = Ok (c', l) /\ codec_ok c' /\ types_by ty c' /\ extends c c' /\
      Forall2 (fun t i => knows c' t i) (map fst (lex code)) l.
  Proof using Hty.
    intros Hc Ht. unfold encode. destruct (encode_matches_ok ty _ (Hty code) c Hc Ht) as [c' [l [E T]]].
    exists c', l. destruct (encode_matches_spec _ _ _ _ Hc E) as [A [B F]]. splits; auto.
    clear -F. induction F as [|m i ms l [K _] F IH]; constructor; auto.
  Qed.
  Lemma encode_one_ok c s c' i : codec_ok c -> types_by ty c -> encode_one lex c s = Ok (c', i) ->
    codec_ok c' /\ types_by ty c' /\ extends c c' /\ exists t, map fst (lex s) = [t] /\ knows c' t i.
  Proof using Hty.
    intros Hc Ht E. unfold encode_one in E. destruct (encode_ok c s Hc Ht) as [c1 [l [E1 [A1 [A2 [A3 A4]]]]]].
    rewrite E1 in E. cbn [bind fst snd] in E. destruct l as [|j [|? ?]]; try discriminate. injection E as <- <-.
    splits; auto. inversion A4 as [|t ? ? ? K F Em]; subst. inversion F; subst. eauto.
  Qed.
  Definition token_of (s t : text) : Prop := map fst (lex s) = [t].
  Lemma encode_pairs_ok l : forall c c' ps, codec_ok c -> types_by ty c -> encode_pairs lex c l = Ok (c', ps) ->
    codec_ok c' /\ types_by ty c' /\ extends c c' /\
    Forall2 (fun ab ij => exists t u, token_of (fst ab) t /\ token_of (snd ab) u /\ knows c' t (fst ij) /\ knows c' u (snd ij)) l ps.
  Proof using Hty.
    induction l as [|[a b] l IH]; intros c c' ps Hc Ht E; cbn [encode_pairs] in E.
    - injection E as <- <-. splits; auto using extends_refl.
    - apply bind_ok_inv in E as [[c1 i] [E1 E]]. apply bind_ok_inv in E as [[c2 j] [E2 E]].
      apply bind_ok_inv in E as [[c3 r] [E3 [= <- <-]]]. cbn [fst snd] in *.
      apply encode_one_ok in E1 as [A1 [A2 [A3 [t [A4 A5]]]]]; auto.
      apply encode_one_ok in E2 as [B1 [B2 [B3 [u [B4 B5]]]]]; auto.
      destruct (IH _ _ _ B1 B2 E3) as [C1 [C2 [C3 C4]]]. splits; auto.
      + eapply extends_trans; [|exact C3]. eapply extends_trans; eauto.
      + constructor; auto. exists t, u. cbn [fst snd]. splits; auto; [|now apply C3].
        apply C3. now apply B3.
  Qed.
  Lemma encode_all_ok l : forall c c' ps, codec_ok c -> types_by ty c -> encode_all lex c l = Ok (c', ps) ->
    codec_ok c' /\ types_by ty c' /\ extends c c' /\
    Forall2 (fun a i => exists t, token_of a t /\ knows c' t i) l ps.
  Proof using Hty.
    induction l as [|a l IH]; intros c c' ps Hc Ht E; cbn [encode_all] in E.
    - injection E as <- <-. splits; auto using extends_refl.
    - apply bind_ok_inv in E as [[c1 i] [E1 E]].
      apply bind_ok_inv in E as [[c3 r] [E3 [= <- <-]]]. cbn [fst snd] in *.
      apply encode_one_ok in E1 as [A1 [A2 [A3 [t [A4 A5]]]]]; auto.
      destruct (IH _ _ _ A1 A2 E3) as [C1 [C2 [C3 C4]]]. splits; auto.
      + eapply extends_trans; eauto.
      + constructor; auto. exists t. split; auto. now apply C3.
  Qed.

  (** Brackets of codes and brackets of texts. *)
  Lemma balanced_along {A B} `{EqDec A} `{EqDec B} (R : A -> B -> Prop) (ps : list (B * B)) (pt : list (A * A)) :
    (forall t u i, R t i -> R u i -> t = u) -> (forall t i j, R t i -> R t j -> i = j) ->
    Forall2 (fun ab ij => R (fst ab) (fst ij) /\ R (snd ab) (snd ij)) pt ps ->
    forall ctx l, balanced ps ctx l -> forall ctx' ts, Forall2 R ts l ->
      match ctx, ctx' with Some i, Some t => R t i | None, None => True | _, _ => False end ->
      balanced pt ctx' ts.
  Proof.
    intros Inj Fun FP.
    assert (Ho : forall t i, R t i -> In t (openers pt) -> In i (openers ps)).
    { intros t i K Hi. clear -FP K Hi Fun. unfold openers in *. induction FP as [|[a b] [x y] pt ps [K1 K2] F IH]; [destruct Hi|].
      cbn [map fst snd] in *. destruct Hi as [->|Hi]; [left; eauto|right; auto]. }
    assert (Hcl : forall t i, R t i -> In t (closers pt) -> In i (closers ps)).
    { intros t i K Hi. clear -FP K Hi Fun. unfold closers in *. induction FP as [|[a b] [x y] pt ps [K1 K2] F IH]; [destruct Hi|].
      cbn [map fst snd] in *. destruct Hi as [->|Hi]; [left; eauto|right; auto]. }
    assert (Hp : forall t u i j, R t i -> R u j -> In (t, u) pt -> In (i, j) ps).
    { intros t u i j K1 K2 Hi. clear -FP K1 K2 Hi Fun. induction FP as [|[a b] [x y] pt ps [L1 L2] F IH]; [destruct Hi|].
      cbn [fst snd] in *. destruct Hi as [[= -> ->]|Hi]; [|right; auto].
      left. rewrite (Fun _ _ _ K1 L1), (Fun _ _ _ K2 L2). reflexivity. }
    assert (Hp' : forall t u i j, R t i -> R u j -> In (i, j) ps -> In (t, u) pt).
    { intros t u i j K1 K2 Hi. clear -FP K1 K2 Hi Inj. induction FP as [|[a b] [x y] pt ps [L1 L2] F IH]; [destruct Hi|].
      cbn [fst snd] in *. destruct Hi as [[= -> ->]|Hi]; [|right; auto].
      left. rewrite (Inj _ _ _ K1 L1), (Inj _ _ _ K2 L2). reflexivity. }
    assert (Hc' : forall t i, R t i -> In i (closers ps) -> In t (closers pt)).
    { intros t i K Hi. clear -FP K Hi Inj. unfold closers in *. induction FP as [|[a b] [x y] pt ps [K1 K2] F IH]; [destruct Hi|].
      cbn [map fst snd] in *. destruct Hi as [->|Hi]; [left; eauto|right; auto]. }
    intros ctx l Bl. induction Bl as [ctx|ctx i l N1 N2 Bl IH|o i l Hi Hn Bl IH|ctx o k inner l Hi B1 IH1 B2 IH2];
      intros ctx' ts F Hx.
    - inversion F; subst. apply bal_nil.
    - inversion F as [|t ? ts' ? K F']; subst. apply bal_plain; eauto.
    - inversion F as [|t ? ts' ? K F']; subst. destruct ctx' as [o'|]; [|destruct Hx].
      apply bal_stray; eauto.
    - inversion F as [|t ? ts' ? K F']; subst. apply Forall2_app_inv_r in F' as [tin [tr [F1 [F2 ->]]]].
      inversion F2 as [|u ? ts2 ? K2 F3]; subst. apply bal_pair; eauto.
  Qed.
  Lemma knows_inj c : codec_ok c -> forall t u i, knows c t i -> knows c u i -> t = u.
  Proof. intros Hc t u i X Y. apply (ck_inv _ Hc) in X, Y. congruence. Qed.
  Lemma knows_fun c t i j : knows c t i -> knows c t j -> i = j.
  Proof. unfold knows. congruence. Qed.
  Lemma F2_flip {A B} (R : A -> B -> Prop) l l' : Forall2 R l l' -> Forall2 (fun y x => R x y) l' l.
  Proof. induction 1; auto. Qed.
  Lemma balanced_transfer (c : codec) (ps : list (nat * nat)) (pt : list (text * text)) ts l :
    codec_ok c -> Forall2 (fun ab ij => knows c (fst ab) (fst ij) /\ knows c (snd ab) (snd ij)) pt ps ->
    Forall2 (knows c) ts l -> (balanced ps None l <-> balanced pt None ts).
  Proof.
    intros Hc FP F. split; intros Bl.
    - apply (balanced_along (knows c) ps pt (knows_inj c Hc) (knows_fun c) FP None l Bl None ts F I).
    - apply (balanced_along (fun i t => knows c t i) pt ps) with (ctx := None) (l := ts); auto.
      + intros i j t. apply knows_fun.
      + intros i t u. now apply knows_inj.
      + apply F2_flip in FP. exact FP.
      + now apply F2_flip.
  Qed.
  Lemma proper_codes (c : codec) (ps : list (nat * nat)) (pt : list (text * text)) : codec_ok c ->
    Forall2 (fun ab ij => knows c (fst ab) (fst ij) /\ knows c (snd ab) (snd ij)) pt ps ->
    proper_pairs pt -> proper_pairs ps.
  Proof.
    intros Hc F [N1 [N2 N3]].
    assert (Inj : forall t u i, knows c t i -> knows c u i -> t = u).
    { intros t u i A B. apply (ck_inv _ Hc) in A, B. congruence. }
    assert (Fo : Forall2 (knows c) (openers pt) (openers ps)).
    { clear -F. unfold openers. induction F as [|ab ij pt ps [K _] F IH]; constructor; auto. }
    assert (Fc : Forall2 (knows c) (closers pt) (closers ps)).
    { clear -F. unfold closers. induction F as [|ab ij pt ps [_ K] F IH]; constructor; auto. }
    assert (In2 : forall (l : list text) l' i, Forall2 (knows c) l l' -> In i l' -> exists t, In t l /\ knows c t i).
    { clear. intros l l' i F. induction F as [|t j l l' K F IH]; intros Hi; [destruct Hi|].
      destruct Hi as [->|Hi]; [exists t; split; [now left|auto]|]. destruct (IH Hi) as [u [A B]]. exists u. split; [now right|auto]. }
    assert (ND : forall (l : list text) l', Forall2 (knows c) l l' -> NoDup l -> NoDup l').
    { clear -Inj In2. intros l l' F. induction F as [|t j l l' K F IH]; intros Hn; constructor; inversion Hn; subst; auto.
      intros C. destruct (In2 _ _ _ F C) as [u [A B]]. rewrite (Inj _ _ _ K B) in *. contradiction. }
    split; [now apply (ND (openers pt))|split; [now apply (ND (closers pt))|]].
    intros i Hi C. destruct (In2 _ _ _ Fo Hi) as [t [A1 A2]]. destruct (In2 _ _ _ Fc C) as [u [B1 B2]].
    rewrite (Inj _ _ _ A2 B2) in A1. now apply (N3 u).
  Qed.
  Lemma F2_app {A B} (R : A -> B -> Prop) a b a' b' : Forall2 R a a' -> Forall2 R b b' -> Forall2 R (a ++ b) (a' ++ b').
  Proof. intros F G. induction F; cbn [app]; auto. Qed.
  Lemma knows_ext c c' ts l : extends c c' -> Forall2 (knows c) ts l -> Forall2 (knows c') ts l.
  Proof. intros E F. induction F; constructor; auto. now apply E. Qed.
  Lemma decode_knows c ts l : codec_ok c -> types_by ty c -> Forall2 (knows c) ts l ->
    decode_token c l = Ok ts /\ decode_type c l = Ok (map ty ts).
  Proof.
    intros Hc Ht F. split; apply mapM_F2; induction F as [|t i ts l K F IH]; constructor; auto.
    - apply (ck_inv _ Hc) in K. now rewrite K.
    - now rewrite (Ht _ _ K).
  Qed.
  Lemma balanced_app {T} `{EqDec T} (ps : list (T * T)) ctx a b : balanced ps ctx a -> balanced ps ctx b -> balanced ps ctx (a ++ b).
  Proof.
    intros A B. induction A as [ctx|ctx t ts N1 N2 A IH|o t ts Hi Hn A IH|ctx o k inner ts Hi A1 IH1 A2 IH2]; auto; cbn [app].
    - apply bal_plain; auto.
    - apply bal_stray; auto.
    - rewrite <- app_assoc. cbn [app]. apply bal_pair; auto.
  Qed.

  (** What a successful pseudo-parse tells. *)
  Record parse_of (pt : list (text * text)) (terminate : bool) (code : text) (r : parsed) : Prop := {
    po_texts : exists pre post, length pre = n_pre r /\ length post = n_post r /\
        texts r = pre ++ map fst (lex code) ++ post /\
        incl pre (openers pt) /\ incl post (newline_text :: closers pt) /\
        (terminate = true -> post <> [] -> last post [] = newline_text) /\
        (terminate = false -> incl post (closers pt));
    po_raws : raws r = repeat [] (n_pre r) ++ map fst (lex code) ++ repeat [] (n_post r);
    po_types : types r = map ty (texts r);
    po_balanced : balanced pt None (texts r);
    po_idle : balanced pt None (map fst (lex code)) <-> n_pre r = 0 /\ n_post r = 0;
    po_tree : valid_tree (tree r) (length (texts r));
    po_root : p_ann (tree r) = ARoot;
    po_leaves : filter nonempty_range (leaf_ranges (tree r)) = map single (seq 0 (length (texts r)));
    po_wf : well_formed (length (texts r)) (tree r);
    po_lows : code <> [] -> lex code <> [] -> Forall (fun k => fst k < length (texts r)) (leaf_ranges (tree r));
    po_shape : shaped (fun a b => exists o c, nth_error (texts r) a = Some o /\ nth_error (texts r) b = Some c /\ In (o, c) pt) (tree r) }.

  Lemma F2_In_r {A B} (R : A -> B -> Prop) l l' y : Forall2 R l l' -> In y l' -> exists x, In x l /\ R x y.
  Proof.
    induction 1 as [|a b l l' K F IH]; intros Hi; [destruct Hi|].
    destruct Hi as [->|Hi]; [exists a; split; [now left|auto]|]. destruct (IH Hi) as [u [P Q]]. exists u. split; [now right|auto].
  Qed.
  Lemma F2_nth {A B} (R : A -> B -> Prop) l l' : Forall2 R l l' -> forall k y, nth_error l' k = Some y ->
    exists x, nth_error l k = Some x /\ R x y.
  Proof.
    induction 1 as [|a b l l' K F IH]; intros k y E; destruct k; try discriminate; cbn [nth_error] in *; [|eauto].
    injection E as <-. eauto.
  Qed.
  Lemma correction_members {T} `{EqDec T} (ps : list (T * T)) ts pre post : proper_pairs ps ->
    error_correcting_prefix_and_suffix ps ts = (pre, post) -> incl pre (openers ps) /\ incl post (closers ps).
  Proof.
    intros HP E. unfold error_correcting_prefix_and_suffix in E.
    destruct (fold_left (correct_step ps) ts ([], [])) as [S P] eqn:EF. injection E as <- <-.
    destruct (correct_loop ps HP ts _ _ _ _ EF) as [Q [-> [E1 [E2 E3]]]].
    assert (FS : Forall (fun o => In o (openers ps)) S) by (apply E3; constructor).
    split.
    - intros o Ho. cbn [app] in Ho. rewrite <- in_rev in Ho. rewrite Forall_forall in E2. auto.
    - intros x Hx. apply in_flat_map in Hx as [o [Ho Hx]]. rewrite Forall_forall in FS.
      apply FS in Ho. destruct (opener_pair ps _ Ho) as [k Hk]. apply (o2c_iff ps HP) in Hk. rewrite Hk in Hx.
      destruct Hx as [<-|[]]. apply (o2c_iff ps HP) in Hk. now apply (pair_opener ps) in Hk as [_ Hk].
  Qed.

  (** What the parse says about codes. *)
  Record inside (pairs : list (text * text)) (p : parser) (r : parsed) : Prop := {
    in_codec : codec_ok (codec_after r);
    in_types : types_by ty (codec_after r);
    in_codes : Forall2 (knows (codec_after r)) (texts r) (codes r);
    in_pairs : Forall2 (fun ab ij => knows (codec_after r) (fst ab) (fst ij) /\ knows (codec_after r) (snd ab) (snd ij))
                 pairs (match_pairs p);
    in_tree : splitters p = [] -> split_types p = [] -> exists ns,
        tree r = PNode 0 (Some (length (codes r))) ARoot ns /\ forest (match_pairs p) None 0 (codes r) ns }.

  Theorem pseudo_parse_inside pairs split_tokens unsplit stypes terminate p code :
    make_parser lex pairs split_tokens unsplit stypes terminate = Ok p ->
    (forall s t, In s (openers pairs ++ closers pairs) -> token_of s t -> t = s) ->
    proper_pairs pairs -> ~ In newline_text (openers pairs) -> ~ In newline_text (closers pairs) ->
    exists r, pseudo_parse lex p code = Ok r /\ parse_of pairs terminate code r /\ inside pairs p r.
  Proof using Hty Hnl.
    intros Hm Hself HP Hno Hnc. unfold make_parser in Hm.
    apply bind_ok_inv in Hm as [[c1 m] [E1 Hm]]. apply bind_ok_inv in Hm as [[c2 u] [E2 Hm]].
    apply bind_ok_inv in Hm as [[c3 sp] [E3 [= <-]]]. cbn [fst snd] in *.
    apply encode_pairs_ok in E1 as [A1 [A2 [_ A4]]]; [|apply new_codec_ok|intros t i K; discriminate].
    apply encode_pairs_ok in E2 as [B1 [B2 [B3 _]]]; auto.
    apply encode_all_ok in E3 as [C1 [C2 [C3 _]]]; auto.
    assert (FP : Forall2 (fun ab ij => knows c3 (fst ab) (fst ij) /\ knows c3 (snd ab) (snd ij)) pairs m).
    { assert (X : extends c1 c3) by (eapply extends_trans; eauto).
      assert (Hs : forall ab, In ab pairs -> forall t, (token_of (fst ab) t -> t = fst ab) /\ (token_of (snd ab) t -> t = snd ab)).
      { intros ab Hi t. split; intros Ht; apply Hself in Ht; auto; apply in_app_iff; [left|right]; now apply in_map. }
      clear -A4 X Hs. induction A4 as [|ab ij pairs m [t [u [T1 [T2 [K1 K2]]]]] F IH]; constructor.
      - destruct (Hs ab (or_introl eq_refl) t) as [Q1 _]. destruct (Hs ab (or_introl eq_refl) u) as [_ Q2].
        rewrite <- (Q1 T1), <- (Q2 T2). split; now apply X.
      - apply IH. intros ab' Hi. apply Hs. now right. }
    unfold pseudo_parse. cbn [codec_of match_pairs newline_terminate splitters split_types unsplittable_pairs].
    destruct (encode_ok c3 code C1 C2) as [c4 [toks [E4 [D1 [D2 [D3 D4]]]]]]. rewrite E4. cbn [bind].
    assert (FP4 : Forall2 (fun ab ij => knows c4 (fst ab) (fst ij) /\ knows c4 (snd ab) (snd ij)) pairs m).
    { clear -FP D3. induction FP as [|ab ij ps m [K1 K2] F IH]; constructor; auto. split; now apply D3. }
    pose proof (proper_codes c4 m pairs D1 FP4 HP) as HPm.
    destruct (error_correcting_prefix_and_suffix m toks) as [pre suf0] eqn:Ec.
    pose proof (correction_balances m HPm toks pre suf0 Ec) as Hb0.
    destruct (correction_members m toks pre suf0 HPm Ec) as [Mpre Msuf].
    (* texts of the brackets added *)
    assert (Tx : forall (f : text * text -> text) (g : nat * nat -> nat), (forall ab ij, In ab pairs ->
                  knows c4 (fst ab) (fst ij) /\ knows c4 (snd ab) (snd ij) -> knows c4 (f ab) (g ij)) ->
               forall l, incl l (map g m) -> exists ts, Forall2 (knows c4) ts l /\ incl ts (map f pairs)).
    { intros f g Hfg l Hl. induction l as [|i l IH]; [exists []; split; auto; intros x []|].
      destruct IH as [ts [F1 F2]]; [intros x Hx; apply Hl; now right|].
      specialize (Hl i (or_introl eq_refl)). apply in_map_iff in Hl as [ij [<- Hij]].
      destruct (F2_In_r _ _ _ _ FP4 Hij) as [ab [Hab K]].
      exists (f ab :: ts). split; [constructor; auto|]. intros x [<-|Hx]; auto. now apply in_map. }
    destruct (Tx fst fst) with (l := pre) as [tpre [Fpre Ipre]]; [tauto|exact Mpre|].
    destruct (Tx snd snd) with (l := suf0) as [tsuf [Fsuf Isuf]]; [tauto|exact Msuf|]. clear Tx.
    assert (G : exists c5 suf tpost, (if negb (length suf0 =? 0) && terminate
              then do r <- encode lex c4 newline_text;
                   match snd r with i :: _ => Ok (fst r, suf0 ++ [i]) | [] => Err IndexError end
              else Ok (c4, suf0)) = Ok (c5, suf) /\ codec_ok c5 /\ types_by ty c5 /\ extends c4 c5 /\
              Forall2 (knows c5) tpost suf /\ balanced m None (pre ++ toks ++ suf) /\
              (suf = [] <-> suf0 = []) /\ incl tpost (newline_text :: closers pairs) /\
              (terminate = true -> tpost <> [] -> last tpost [] = newline_text) /\
              (terminate = false -> incl tpost (closers pairs))).
    { destruct (negb (length suf0 =? 0) && terminate) eqn:Eb.
      - apply andb_true_iff in Eb as [Eb1 Eb2]. apply negb_true_iff, Nat.eqb_neq in Eb1. subst terminate.
        destruct (encode_ok c4 newline_text D1 D2) as [c5 [l [E5 [P1 [P2 [P3 P4]]]]]]. rewrite E5. cbn [bind fst snd].
        rewrite Hnl in P4. cbn [map fst] in P4. inversion P4 as [|? i ? ? K F]; subst. inversion F; subst.
        exists c5, (suf0 ++ [i]), (tsuf ++ [newline_text]). splits; auto.
        + apply F2_app; [now apply (knows_ext c4)|auto].
        + rewrite !app_assoc. rewrite <- app_assoc with (l := pre). apply balanced_app; auto.
          assert (Hi : forall l l' (f : list text), Forall2 (knows c5) l l' -> In i l' -> In newline_text l).
          { intros l l' _ FF Hi. destruct (F2_In_r _ _ _ _ FF Hi) as [t [Ht Kt]].
            apply (ck_inv _ P1) in Kt, K. congruence. }
          apply bal_plain; [| |apply bal_nil].
          * intros C. apply Hno. eapply Hi; [exact []| |exact C].
            clear -FP4 P3. unfold openers. induction FP4 as [|ab ij ps m [K1 K2] F IH]; constructor; auto. now apply P3.
          * intros C. apply Hnc. eapply Hi; [exact []| |exact C].
            clear -FP4 P3. unfold closers. induction FP4 as [|ab ij ps m [K1 K2] F IH]; constructor; auto. now apply P3.
        + split; intros C; [destruct suf0; discriminate|]. subst suf0. cbn in Eb1. congruence.
        + intros x Hx. apply in_app_iff in Hx as [Hx|[<-|[]]]; [right; auto|now left].
        + intros _ _. apply last_last.
        + discriminate.
      - exists c4, suf0, tsuf. splits; auto using extends_refl.
        + tauto.
        + intros x Hx. right. auto.
        + intros -> Hn. rewrite andb_true_r in Eb. apply negb_false_iff, Nat.eqb_eq in Eb.
          destruct suf0; [|discriminate]. inversion Fsuf; subst. congruence. }
    destruct G as [c5 [suf [tpost [-> [P1 [P2 [P3 [P4 [P5 [P6 [P7 [P8 P9]]]]]]]]]]]]. cbn [bind].
    set (corrected := pre ++ toks ++ suf) in *.
    set (txt := tpre ++ map fst (lex code) ++ tpost).
    assert (Fall : Forall2 (knows c5) txt corrected).
    { apply F2_app; [now apply (knows_ext c4)|]. apply F2_app; auto. now apply (knows_ext c4). }
    destruct (decode_knows c5 txt corrected P1 P2 Fall) as [Dt Dy]. rewrite Dt. cbn [bind].
    destruct (decode_knows c5 (map fst (lex code)) toks P1 P2) as [Dr _]; [now apply (knows_ext c4)|].
    rewrite Dr. cbn [bind]. rewrite Dy. cbn [bind].
    destruct (match_tree m HPm true corrected P5) as [ns [Fo Em]]; [now left|]. rewrite Em. cbn [bind].
    set (root := PNode 0 (Some (length corrected)) ARoot ns).
    pose proof (forest_tiles _ _ _ _ _ Fo) as Ft. cbn [Nat.add] in Ft.
    assert (Wr : well_formed (length corrected) root).
    { apply WF; auto with arith. - now apply (forest_well_formed _ _ 0 _ _ Fo). - discriminate. }
    assert (Vr : forall n', well_formed (length corrected) n' -> same_frame root n' -> valid_tree n' (length corrected)).
    { intros n' Hw [F1 [F2 F3]]. inversion Hw; subst. cbn in F1, F2. injection F2 as ->. subst lo.
      do 2 eexists. split; [reflexivity|auto]. }
    assert (V : valid_parse_ranges root (length corrected) = true).
    { assert (Vt : valid_tree root (length corrected)) by (apply Vr; auto; repeat split).
      apply valid_parse_ranges_iff; auto. now apply (valid_tree_forward _ (length corrected)). }
    rewrite V. cbn [negb].
    set (sps := sp ++ map fst (filter (fun x => mem (snd (snd x)) stypes) (combine toks (lex code)))).
    assert (Ur : unsplit_tree root) by (constructor; [discriminate|apply (forest_unsplit _ _ _ _ _ Fo)]).
    destruct (split_parse_ok corrected sps u root Wr Ur) as [n' En]. rewrite En. cbn [bind].
    destruct (split_parse_spec corrected sps u None root n' Wr Ur En) as [W' [F' [L' _]]].
    pose proof (Vr n' W' F') as Vn.
    assert (V' : valid_parse_ranges n' (length corrected) = true).
    { apply valid_parse_ranges_iff; auto. now apply (valid_tree_forward _ (length corrected)). }
    rewrite V'. cbn [negb]. eexists. split; [reflexivity|].
    pose proof (F2_len _ _ _ Fall) as Ltx. pose proof (F2_len _ _ _ Fpre) as Lp. pose proof (F2_len _ _ _ P4) as Lq.
    split.
    2: { constructor; cbn [tree codes texts types raws n_pre n_post codec_after match_pairs splitters split_types]; auto.
         - clear -FP4 P3. induction FP4 as [|ab ij ps m [K1 K2] F IH]; constructor; auto. split; now apply P3.
         - intros -> ->. exists ns. split; auto.
           assert (Z : sps = []).
           { unfold sps. cbn [app]. clear. generalize (combine toks (lex code)). intros l. induction l; auto. }
           rewrite Z in En. cbn in En. now injection En as <-. }
    constructor; cbn [tree codes texts types raws n_pre n_post].
    - exists tpre, tpost. splits; auto.
    - reflexivity.
    - reflexivity.
    - apply (balanced_transfer c5 m pairs txt corrected); auto.
      clear -FP4 P3. induction FP4 as [|ab ij ps m [K1 K2] F IH]; constructor; auto. split; now apply P3.
    - assert (Hcodes : balanced m None toks <-> balanced pairs None (map fst (lex code)))
        by (apply (balanced_transfer c4); auto).
      rewrite <- Hcodes, (correction_idle m HPm), Ec. split.
      + intros [= -> ->]. split; auto. destruct suf; auto. destruct P6 as [_ P6]. discriminate P6; auto.
      + intros [Z1 Z2]. destruct pre; [|discriminate]. destruct suf; [|discriminate].
        destruct P6 as [P6 _]. now rewrite P6.
    - now rewrite Ltx.
    - now destruct F' as [_ [_ F3]].
    - rewrite L'. rewrite Ltx. unfold root. cbn [leaf_ranges]. destruct ns as [|c0 cs] eqn:Ens.
      + assert (Z : length corrected = 0) by (inversion Ft; auto). rewrite Z. reflexivity.
      + now rewrite (forest_leaves _ _ _ _ _ Fo).
    - rewrite Ltx. exact W'.
    - intros _ Hl. rewrite L', Ltx. unfold root. cbn [leaf_ranges]. destruct ns as [|c0 cs] eqn:Ens.
      + exfalso. assert (Z : length corrected = 0) by (inversion Ft; auto). rewrite <- Ltx in Z. unfold txt in Z.
        rewrite !app_length, map_length in Z. destruct (lex code); [congruence|cbn in Z; lia].
      + exact (forest_lows _ _ _ _ _ Fo).
    - assert (FP5 : Forall2 (fun ab ij => knows c5 (fst ab) (fst ij) /\ knows c5 (snd ab) (snd ij)) pairs m).
      { clear -FP4 P3. induction FP4 as [|ab ij ps m [K1 K2] F IH]; constructor; auto. split; now apply P3. }
      set (Pc := fun a b => exists o c, nth_error corrected a = Some o /\ nth_error corrected b = Some c /\ In (o, c) m).
      assert (Sr : shaped Pc root).
      { assert (Hns : Forall (fun n => shaped Pc n /\ item n) ns).
        { apply (forest_shaped Pc m corrected None 0 corrected ns Fo); [|intros k Hk; reflexivity].
          intros a b o c Ea Eb Hi. exists o, c. auto. }
        apply Shaped; try (intros C; discriminate); try (intros [C|[C|C]]; discriminate).
        - intros _. apply (Forall_impl item (P := fun n => shaped Pc n /\ item n)); auto. intros a Ha. apply Ha.
        - apply (Forall_impl (shaped Pc) (P := fun n => shaped Pc n /\ item n)); auto. intros a Ha. apply Ha. }
      assert (Sn : shaped Pc n').
      { unfold split_parse in En. destruct sps as [|s0 ss] eqn:Esp; [injection En as <-; auto|].
        apply bind_ok_inv in En as [x [Ex [= <-]]]. exact (split_node_shaped Pc corrected _ u root x Wr Ur Sr Ex). }
      eapply shaped_mono; [|exact Sn]. intros a b [o [c [Ea [Eb Hi]]]].
      destruct (F2_nth _ _ _ Fall _ _ Ea) as [to [Eto Ko]]. destruct (F2_nth _ _ _ Fall _ _ Eb) as [tc [Etc Kc]].
      exists to, tc. splits; auto. destruct (F2_In_r _ _ _ _ FP5 Hi) as [[x y] [Hxy [K1 K2]]]. cbn [fst snd] in *.
      rewrite (knows_inj c5 P1 _ _ _ Ko K1), (knows_inj c5 P1 _ _ _ Kc K2). exact Hxy.
  Qed.
  Theorem pseudo_parse_spec pairs split_tokens unsplit stypes terminate p code :
    make_parser lex pairs split_tokens unsplit stypes terminate = Ok p ->
    (forall s t, In s (openers pairs ++ closers pairs) -> token_of s t -> t = s) ->
    proper_pairs pairs -> ~ In newline_text (openers pairs) -> ~ In newline_text (closers pairs) ->
    exists r, pseudo_parse lex p code = Ok r /\ parse_of pairs terminate code r.
  Proof using Hty Hnl.
    intros Hm Hs HP Ho Hc. destruct (pseudo_parse_inside _ _ _ _ _ _ code Hm Hs HP Ho Hc) as [r [E [P _]]]. eauto.
  Qed.
End Parser.

(** ** From parse trees to node sequences *)
Section Nested.
  Variables isupper islower isdigit isspace : nat -> bool.
  Variables (tokens : list text) (tys : list ttype) (deco subtok : list ntype).
  Notation kind := (p_type isspace tokens tys).
  Notation convert := (to_nested isupper islower isdigit isspace tokens tys deco subtok).

  (** The ranges of [cs] follow one another and cover [lo..hi] ([None]: the end). *)
  Inductive chained : nat -> option nat -> list pnode -> Prop :=
  | ch_last c : chained (p_lo c) (p_hi c) [c]
  | ch_cons c mid hi l : p_hi c = Some mid -> chained mid hi l -> chained (p_lo c) hi (c :: l).
  (** Which trees can be converted. *)
  Inductive convertible : pnode -> Prop :=
  | cv_decoration n ty : kind n = Ok ty -> In ty deco -> convertible n
  | cv_subtokens n ty : kind n = Ok ty -> In ty subtok -> convertible n
  | cv_leaf n ty : kind n = Ok ty -> p_children n = [] -> convertible n
  | cv_group lo hi ann cs ty : kind (PNode lo hi ann cs) = Ok ty -> chained lo hi cs -> Forall convertible cs ->
      convertible (PNode lo hi ann cs).

  Lemma chained_check lo hi cs : cs <> [] ->
    (eqb (Some lo :: map p_hi cs) (map (fun c => Some (p_lo c)) cs ++ [hi]) = true <-> chained lo hi cs).
  Proof.
    revert lo. induction cs as [|c cs IH]; intros lo Hn; [congruence|]. clear Hn.
    split.
    - intros E. apply eqb_eq in E. cbn [map app] in E. injection E as -> E. destruct cs as [|c' cs].
      + cbn [map app] in E. injection E as <-. constructor.
      + cbn [map app] in E. injection E as E1 E2. apply (ch_cons c (p_lo c')); auto. apply IH; [discriminate|].
        cbn [map app]. rewrite <- E2. apply eqb_refl.
    - intros Hc. inversion Hc as [|? mid ? ? Em Hr]; subst; [cbn [map app]; apply eqb_refl|].
      destruct cs as [|c' cs]; [inversion Hr|]. apply IH in Hr; [|discriminate]. apply eqb_eq in Hr.
      cbn [map app] in *. injection Hr as -> Hr. rewrite Em, Hr. apply eqb_refl.
  Qed.
  Lemma convert_go cs :
    (fix go (l : list pnode) : result (list (node mtype)) :=
       match l with [] => Ok [] | c :: l' => do x <- convert c; do r <- go l'; Ok (x :: r) end) cs = mapM convert cs.
  Proof. induction cs as [|c cs IH]; auto. cbn [mapM]. now rewrite <- IH. Qed.

  Lemma convert_eq n : convert n =
    do ty <- kind n;
    if mem ty deco then Ok (Deco (p_text tokens n))
    else if mem ty subtok then Ok (Group (subtokenize_token isupper islower isdigit isspace (p_text tokens n)) (MNode ty))
    else match p_children n with
         | [] => Ok (Token (p_text tokens n) (MNode ty))
         | cs => if eqb (Some (p_lo n) :: map p_hi cs) (map (fun c => Some (p_lo c)) cs ++ [p_hi n])
                 then do l <- mapM convert cs; Ok (Group l (MNode ty)) else Err ValueError
         end.
  Proof.
    destruct n as [lo hi ann cs]. cbn [to_nested p_children p_lo p_hi].
    destruct (kind (PNode lo hi ann cs)) as [ty|]; cbn [bind]; auto.
    destruct (mem ty deco), (mem ty subtok); auto. destruct cs as [|c cs]; auto.
    rewrite <- convert_go. reflexivity.
  Qed.

  Theorem convert_ok_iff n : (exists s, convert n = Ok s) <-> convertible n.
  Proof.
    induction n as [lo hi ann cs IH] using pnode_ind'. rewrite convert_eq. split.
    - intros [s E]. destruct (kind (PNode lo hi ann cs)) as [ty|] eqn:Ek; [|discriminate]. cbn [bind] in E.
      destruct (mem ty deco) eqn:Md; [apply mem_true_iff in Md; eapply cv_decoration; eauto|].
      destruct (mem ty subtok) eqn:Ms; [apply mem_true_iff in Ms; eapply cv_subtokens; eauto|].
      cbn [p_children p_lo p_hi] in E. destruct cs as [|c cs]; [eapply cv_leaf; eauto|].
      set (ccs := c :: cs) in *. assert (Hn : ccs <> []) by discriminate.
      assert (E2 : (if eqb (Some lo :: map p_hi ccs) (map (fun c => Some (p_lo c)) ccs ++ [hi])
         then do l <- mapM convert ccs; Ok (Group l (MNode ty)) else Err ValueError) = Ok s) by exact E. clear E. rename E2 into E.
      destruct (eqb (Some lo :: map p_hi ccs) (map (fun c => Some (p_lo c)) ccs ++ [hi])) eqn:Eb; [|discriminate].
      apply chained_check in Eb; auto. eapply cv_group; eauto.
      assert (E' : exists l, mapM convert ccs = Ok l).
      { apply bind_ok_inv in E as [l [E _]]. eauto. }
      destruct E' as [l E']. apply mapM_ok_iff in E'.
      clear -IH E'. induction E' as [|x y ccs l Hx F IHF]; constructor; inversion IH; subst; auto.
      apply H1. eauto.
    - intros Hc. inversion Hc as [n ty Ek Hi|n ty Ek Hi|n ty Ek El|? ? ? ? ty Ek Hch HF]; subst.
      + rewrite Ek. cbn [bind]. apply mem_true_iff in Hi. rewrite Hi. eauto.
      + rewrite Ek. cbn [bind]. apply mem_true_iff in Hi. rewrite Hi. destruct (mem ty deco); eauto.
      + rewrite Ek. cbn [bind]. rewrite El. destruct (mem ty deco), (mem ty subtok); eauto.
      + rewrite Ek. cbn [bind]. destruct (mem ty deco), (mem ty subtok); eauto. cbn [p_children p_lo p_hi].
        assert (E' : exists l, mapM convert cs = Ok l).
        { clear -IH HF. induction cs as [|c cs IHc]; cbn [mapM]; eauto. inversion IH; inversion HF; subst.
          destruct IHc as [l El]; auto. destruct (proj2 H1 H5) as [x Ex]. rewrite Ex, El. cbn [bind]. eauto. }
        destruct E' as [l El]. destruct cs as [|c cs]; eauto. set (ccs := c :: cs) in *.
        apply chained_check in Hch; [|discriminate]. rewrite Hch, El. cbn [bind]. eauto.
  Qed.
  (** The only exceptions: ValueError for a bad boundary, AssertionError for a
      sibling leaf that has children. *)
  Theorem convert_errors n e : convert n = Err e -> e = ValueError \/ e = AssertionError.
  Proof.
    induction n as [lo hi ann cs IH] using pnode_ind'. rewrite convert_eq.
    destruct (kind (PNode lo hi ann cs)) as [ty|e0] eqn:Ek; cbn [bind].
    - destruct (mem ty deco), (mem ty subtok); try discriminate. cbn [p_children p_lo p_hi].
      destruct cs as [|c cs]; [discriminate|]. set (ccs := c :: cs) in *.
      match goal with |- context [if ?b then _ else _] => destruct b end; [|intros [= <-]; auto].
      destruct (mapM convert ccs) as [l|e0] eqn:Em; cbn [bind]; [discriminate|]. intros [= ->].
      clear -IH Em. induction ccs as [|x l IHl]; [discriminate|]. inversion IH; subst. cbn [mapM] in Em.
      destruct (convert x) as [y|e1] eqn:Ex; cbn [bind] in Em; [|injection Em as ->; now apply H1].
      destruct (mapM convert l) as [ys|e1]; cbn [bind] in Em; [discriminate|]. injection Em as ->. auto.
    - intros [= ->]. unfold p_type in Ek. cbn [p_ann p_children] in Ek. destruct ann; try discriminate.
      destruct cs; [|injection Ek as <-; auto].
      destruct (p_text tokens (PNode lo hi ASibling [])) as [|z l]; [discriminate|].
      destruct (forallb isspace (z :: l)); [discriminate|].
      match type of Ek with (if ?b then _ else _) = _ => destruct b; discriminate end.
  Qed.

  (** *** Text *)
  Lemma subtokenize_text t : render (subtokenize_token isupper islower isdigit isspace t) = t.
  Proof.
    unfold subtokenize_token. rewrite <- (tokens_concat isupper islower isdigit isspace t) at 2.
    induction (code_to_tokens isupper islower isdigit isspace t) as [|s l IH]; auto.
    cbn [map concat]. unfold render in *. cbn [flat_map map concat] in *. rewrite <- IH. reflexivity.
  Qed.
  Lemma slice_join {A} (l : list A) lo mid hi : lo <= mid -> match hi with Some h => mid <= h | None => True end ->
    py_slice (lo, Some mid) l ++ py_slice (mid, hi) l = py_slice (lo, hi) l.
  Proof.
    intros H1 H2. unfold py_slice. cbn [fst snd].
    assert (Sk : forall a b, skipn b (skipn a l) = skipn (a + b) l).
    { clear. intros a. revert l. induction a as [|a IH]; intros l b; auto. destruct l; cbn [skipn Nat.add]; [now rewrite skipn_nil|apply IH]. }
    assert (E : skipn mid l = skipn (mid - lo) (skipn lo l)) by (rewrite Sk; f_equal; lia).
    destruct hi as [h|].
    - rewrite E. replace (h - lo) with ((mid - lo) + (h - mid)) by lia.
      generalize (mid - lo) (h - mid) (skipn lo l). clear. intros a b k. revert k. induction a as [|a IH]; intros k; auto.
      destruct k; cbn [Nat.add firstn skipn app]; [destruct b; reflexivity|]. now rewrite IH.
    - rewrite E. apply firstn_skipn.
  Qed.
  Lemma chained_text lo hi cs : chained lo hi cs -> Forall forward_ranges cs ->
    (match hi with Some h => lo <= h | None => True end) /\ flat_map (p_text tokens) cs = concat (py_slice (lo, hi) tokens).
  Proof.
    induction 1 as [c|c mid hi l Em Hr IH]; intros HF; inversion HF as [|? ? F1 F2]; subst.
    - split; [destruct c; cbn in *; tauto|]. cbn [flat_map]. now rewrite app_nil_r.
    - destruct (IH F2) as [I1 I2]. assert (L : p_lo c <= mid).
      { destruct c as [l0 h0 a0 c0]. cbn [p_hi] in Em. subst h0. cbn in F1. tauto. }
      split; [destruct hi; auto; lia|]. cbn [flat_map]. rewrite I2. unfold p_text. rewrite Em, <- concat_app.
      rewrite slice_join; auto.
  Qed.
  Theorem convert_text n s : forward_ranges n -> convert n = Ok s -> render [s] = p_text tokens n.
  Proof.
    revert s. induction n as [lo hi ann cs IH] using pnode_ind'. intros s Hf E. rewrite convert_eq in E.
    apply bind_ok_inv in E as [ty [Ek E]].
    assert (Hcs : Forall forward_ranges cs).
    { cbn in Hf. destruct Hf as [_ Hf]. clear -Hf. induction cs; constructor; cbn in Hf; tauto. }
    destruct (mem ty deco); [injection E as <-; cbn; now rewrite app_nil_r|].
    destruct (mem ty subtok).
    { injection E as <-. pose proof (subtokenize_text (p_text tokens (PNode lo hi ann cs))) as R.
      unfold render in *. cbn. rewrite !app_nil_r. exact R. }
    cbn [p_children p_lo p_hi] in E. destruct cs as [|c cs]; [injection E as <-; cbn; now rewrite app_nil_r|].
    set (ccs := c :: cs) in *.
    match type of E with (if ?b then _ else _) = _ => destruct b eqn:Eb; [|discriminate] end.
    apply chained_check in Eb; [|discriminate]. apply bind_ok_inv in E as [l [El [= <-]]].
    destruct (chained_text _ _ _ Eb Hcs) as [_ Ht].
    transitivity (render l); [unfold render; cbn; now rewrite app_nil_r|].
    unfold p_text at 1. cbn [p_lo p_hi]. rewrite <- Ht. apply mapM_ok_iff in El.
    clear -El IH Hcs. induction El as [|x y ccs l Ex F IHF]; auto. inversion IH; inversion Hcs; subst.
    cbn [flat_map]. rewrite <- (H1 y), <- IHF; auto. unfold render. cbn. now rewrite app_nil_r.
  Qed.
  Lemma well_formed_forward size n : well_formed size n -> forward_ranges n.
  Proof.
    induction n as [lo hi ann cs IH] using pnode_ind'. intros Hw. inversion Hw as [? ? ? ? Ha Hb Hc Hd He]; subst. cbn. split; auto.
    clear -IH Hd. induction cs as [|c cs IHc]; cbn; auto. inversion IH; inversion Hd; subst. split; auto.
  Qed.
  (** Parse trees are convertible. *)
  Lemma tiles_chained lo hi cs : tiles lo hi cs -> cs <> [] -> chained lo (Some hi) cs.
  Proof.
    induction 1 as [|lo mid hi ann cs l Hle Hc Hr IH]; intros Hn; [congruence|].
    destruct l as [|c l].
    - inversion Hr; subst. apply (ch_last (PNode lo (Some hi) ann cs)).
    - apply (ch_cons (PNode lo (Some mid) ann cs) mid); auto. apply IH. discriminate.
  Qed.
End Nested.

(** ** Truncation points *)
Section Truncation.
  Variable raw : list text.
  Definition boundary (k : nat) : Prop := exists m, m <= length raw /\ k = length (concat (firstn m raw)).

  Lemma boundary_le m : length (concat (firstn m raw)) <= length (concat raw).
  Proof. rewrite <- (firstn_skipn m raw) at 2. rewrite concat_app, app_length. lia. Qed.
  Lemma boundary_S m t : nth_error raw m = Some t ->
    length (concat (firstn (S m) raw)) = length (concat (firstn m raw)) + length t.
  Proof.
    intros E. assert (firstn (S m) raw = firstn m raw ++ [t]) as ->.
    { clear -E. revert m E. induction raw as [|x l IH]; intros [|m] E; try discriminate; cbn in *; [now injection E as ->|].
      f_equal. now apply IH. }
    rewrite concat_app, app_length. cbn [concat]. now rewrite app_nil_r.
  Qed.
  (** Leaves that read the tokens from [m] on, in order. *)
  Definition reads (m : nat) (l : list pnode) : Prop :=
    m <= length raw /\
    filter nonempty_range (map (fun n => (p_lo n, p_hi n)) l) = map single (seq m (length raw - m)).
  Lemma reads_step m n l : reads m (n :: l) ->
    (p_hi n = Some (p_lo n) /\ leaf_length raw n = Ok 0 /\ reads m l) \/
    (exists t, p_lo n = m /\ nth_error raw m = Some t /\ leaf_length raw n = Ok (length t) /\ reads (S m) l).
  Proof.
    intros [Hm E]. cbn [map filter] in E. unfold nonempty_range at 1 in E. cbn [fst snd] in E. unfold leaf_length.
    destruct (eqb (p_hi n) (Some (p_lo n))) eqn:Eb; cbn [negb] in E; [left; split; [now apply eqb_eq|split; [auto|split; auto]]|right].
    destruct (length raw - m) as [|d] eqn:Ed; [discriminate|]. cbn [seq map] in E. injection E as E1 E2 E3.
    destruct (nth_error raw m) as [t|] eqn:En; [|apply nth_error_None in En; lia].
    exists t. rewrite E1. splits; auto. rewrite En. auto. split; [lia|]. rewrite E3. do 2 f_equal. lia.
  Qed.
  Lemma reads_nil m : reads m [] -> m = length raw.
  Proof. intros [Hm E]. cbn in E. destruct (length raw - m) eqn:Ed; [lia|discriminate]. Qed.

  Lemma match_pair_loop_spec cursor l : forall m ci cd fin k,
    reads m (map fst l) -> ci = length (concat (firstn m raw)) ->
    (cd <> None -> cursor < ci) -> (fin = true -> cd <> None) ->
    match_pair_loop raw cursor ci cd fin l = Ok (Some k) -> cursor < k /\ boundary k.
  Proof.
    induction l as [|[n d] l IH]; intros m ci cd fin k Hr Hci Hcd Hfin E; cbn [match_pair_loop] in E; [discriminate|].
    cbn [map fst] in Hr. set (found := (cursor <? ci) && match cd with None => true | Some _ => false end) in *.
    destruct (found && (d =? 0)); [discriminate|]. apply bind_ok_inv in E as [len [El E]].
    assert (Hcd' : (if found then Some d else cd) <> None -> cursor < ci).
    { destruct found eqn:Ef; auto. intros _. apply andb_true_iff in Ef as [Ef _]. now apply Nat.ltb_lt in Ef. }
    assert (Hpos : exists m', reads m' (map fst l) /\ ci + len = length (concat (firstn m' raw))).
    { apply reads_step in Hr as [[_ [L R]]|[t [Hl [Ht [L R]]]]]; rewrite L in El; injection El as <-.
      - exists m. rewrite Nat.add_0_r. auto.
      - exists (S m). split; auto. now rewrite (boundary_S _ _ Ht), Hci. }
    destruct Hpos as [m' [R' E']]. destruct fin.
    - injection E as <-. split; [specialize (Hcd (Hfin eq_refl)); lia|]. exists m'. split; auto. apply R'.
    - eapply IH in E; eauto.
      + intros Hn. specialize (Hcd' Hn). lia.
      + destruct (if found then Some d else cd); [discriminate|]. intros C. discriminate.
  Qed.
  Lemma depth_leaves_leaves deeper n : forall d l, depth_leaves deeper n d = Ok l ->
    map (fun x => (p_lo (fst x), p_hi (fst x))) l = leaf_ranges n.
  Proof.
    induction n as [lo hi ann cs IH] using pnode_ind'. intros d l E. cbn [depth_leaves leaf_ranges] in *.
    destruct cs as [|c cs]; [now injection E as <-|].
    set (ccs := c :: cs) in *.
    assert (G : forall xs l, Forall (fun n => forall d l, depth_leaves deeper n d = Ok l ->
                  map (fun x => (p_lo (fst x), p_hi (fst x))) l = leaf_ranges n) xs ->
       (fix go (l : list pnode) : result (list (pnode * nat)) :=
                 match l with
                 | [] => Ok []
                 | c :: l' =>
                     do inc <- (if eqb (p_ann c) AMiddle then
                                  match ccs with
                                  | [lc; mc; rc] =>
                                      if eqb (p_ann lc) ALeft && eqb (p_ann rc) ARight then deeper lc rc
                                      else Err AssertionError
                                  | _ => Err ValueError
                                  end
                                else Ok false);
                     do x <- depth_leaves deeper c (if inc then S d else d);
                     do r <- go l';
                     Ok (x ++ r)
                 end) xs = Ok l -> map (fun x => (p_lo (fst x), p_hi (fst x))) l = flat_map leaf_ranges xs).
    { clear. induction xs as [|x xs IHx]; intros l HF E; [now injection E as <-|]. inversion HF; subst.
      apply bind_ok_inv in E as [inc [E1 E]]. apply bind_ok_inv in E as [lx [E2 E]]. apply bind_ok_inv in E as [lr [E3 [= <-]]].
      rewrite map_app. cbn [flat_map]. f_equal; eauto. }
    apply (G ccs); auto.
  Qed.

  Theorem match_pair_index_range root tys w cursor k :
    filter nonempty_range (leaf_ranges root) = map single (seq 0 (length raw)) ->
    cursor < length (concat raw) ->
    infer_match_pair_truncation_index root raw tys w cursor = Ok (Some k) ->
    cursor < k /\ k <= length (concat raw) /\ boundary k.
  Proof.
    intros HL Hc E. unfold infer_match_pair_truncation_index in E.
    rewrite (proj2 (Nat.eqb_neq _ _)) in E by lia. rewrite (proj2 (Nat.ltb_ge _ _)) in E by lia.
    apply bind_ok_inv in E as [l [El E]].
    eapply match_pair_loop_spec with (m := 0) in E as [A B]; auto.
    - splits; auto. destruct B as [m [Hm ->]]. apply boundary_le.
    - split; [lia|]. rewrite Nat.sub_0_r, map_map. now rewrite (depth_leaves_leaves _ _ _ _ El).
    - congruence.
    - discriminate.
  Qed.

  (** *** Splits *)
  Lemma split_leaves_leaves n : forall b, map (fun x => (p_lo (fst x), p_hi (fst x))) (split_leaves n b) = leaf_ranges n.
  Proof.
    induction n as [lo hi ann cs IH] using pnode_ind'. intros b. cbn [split_leaves leaf_ranges].
    destruct cs as [|c cs]; auto. revert c IH.
    induction cs as [|c' cs IHc]; intros c IH; inversion IH as [|? ? H1 H2]; subst.
    - cbn [flat_map]. rewrite app_nil_r. apply H1.
    - rewrite map_app, H1. specialize (IHc c' H2). cbn [flat_map] in *. now rewrite IHc.
  Qed.
  (** The leaf [e] is the last child of a split group. *)
  Inductive ends_split : pnode -> pnode -> Prop :=
  | es_here lo hi cs c : p_children c = [] -> ends_split (PNode lo hi ASplit (cs ++ [c])) c
  | es_child lo hi ann cs c e : In c cs -> ends_split c e -> ends_split (PNode lo hi ann cs) e.
  Lemma split_leaves_ends n : forall b e, In (e, true) (split_leaves n b) <->
    ends_split n e \/ (p_children n = [] /\ b = true /\ e = n).
  Proof.
    induction n as [lo hi ann cs IH] using pnode_ind'. intros b e. cbn [split_leaves p_children].
    destruct cs as [|c cs].
    { split.
      - intros [[= <- ->]|[]]. right. auto.
      - intros [C|[_ [-> ->]]]; [|now left].
        inversion C as [? ? cs0 c0 Hl E|? ? ? ? c0 ? Hi]; subst; [destruct cs0; discriminate|destruct Hi]. }
    assert (G : forall cs c, Forall (fun n => forall b e, In (e, true) (split_leaves n b) <->
                    ends_split n e \/ (p_children n = [] /\ b = true /\ e = n)) (c :: cs) ->
       In (e, true) ((fix go (l : list pnode) : list (pnode * bool) :=
               match l with
               | [] => []
               | [c] => split_leaves c (eqb ann ASplit)
               | c :: l' => split_leaves c false ++ go l'
               end) (c :: cs)) <->
       (exists d, In d (c :: cs) /\ ends_split d e) \/
       (ann = ASplit /\ exists cs0, c :: cs = cs0 ++ [e] /\ p_children e = [])).
    { clear. induction cs as [|c' cs IHc]; intros c HF; inversion HF as [|? ? H1 H2]; subst.
      - rewrite H1. split.
        + intros [E|[E1 [E2 ->]]]; [left; exists c; split; [now left|auto]|].
          apply eqb_eq in E2. right. split; auto. exists []. auto.
        + intros [[d [[<-|[]] Hd]]|[-> [cs0 [Ed Hd]]]]; [now left|].
          destruct cs0 as [|? [|? ?]]; try discriminate. injection Ed as <-. right. splits; auto.
      - specialize (IHc c' H2). rewrite in_app_iff, H1, IHc. split.
        + intros [[Hx|[_ [C _]]]|[[d [Hd1 Hd2]]|[-> [cs0 [Ed Hd]]]]]; [|discriminate| |].
          * left. exists c. split; [now left|auto].
          * left. exists d. split; [now right|auto].
          * right. split; auto. exists (c :: cs0). split; auto. cbn [app]. now rewrite Ed.
        + intros [[d [[<-|Hd1] Hd2]]|[-> [cs0 [Ed Hd]]]]; [now left; left|right; left; eauto|].
          right. right. split; auto. destruct cs0 as [|? cs0]; [discriminate|]. injection Ed as -> Ed. eauto. }
    rewrite (G cs c IH). split.
    - intros [[d [Hd1 Hd2]]|[-> [cs0 [Ed Hd1]]]]; left; [eapply es_child; eauto|].
      rewrite Ed. now apply es_here.
    - intros [He|[C _]]; [|discriminate]. inversion He as [? ? cs0 c0 Hl Ecs|? ? ? ? c0 ? Hi He']; subst.
      + right. split; auto. exists cs0. auto.
      + left. eauto.
  Qed.

  (** Token [m] starts after the cursor, ends a split group and is one of the
      wanted splitters. *)
  Definition stops (root : pnode) (splitters : list text) (cursor m : nat) : Prop :=
    cursor < length (concat (firstn m raw)) /\
    (exists e, ends_split root e /\ p_lo e = m) /\
    exists t, nth_error raw m = Some t /\ In t splitters.

  Lemma split_loop_spec splitters cursor l : forall m ci after,
    reads m (map fst l) -> ci = length (concat (firstn m raw)) ->
    (after = true -> cursor < ci) -> Forall (fun x => p_lo (fst x) < length raw) l ->
    Forall (fun x => snd x = true -> p_hi (fst x) = Some (S (p_lo (fst x)))) l ->
    exists k, split_loop raw splitters cursor ci after l = Ok k /\
      ((exists m' e t, m <= m' /\ In (e, true) l /\ p_lo e = m' /\ cursor < length (concat (firstn m' raw)) /\
          nth_error raw m' = Some t /\ In t splitters /\ k = length (concat (firstn (S m') raw)) /\
          forall e' t', In (e', true) l -> p_lo e' < m' -> nth_error raw (p_lo e') = Some t' -> In t' splitters ->
             m <= p_lo e' -> length (concat (firstn (p_lo e') raw)) <= cursor) \/
       (k = length (concat raw) /\
          forall e' t', In (e', true) l -> nth_error raw (p_lo e') = Some t' -> In t' splitters ->
             m <= p_lo e' -> length (concat (firstn (p_lo e') raw)) <= cursor)).
  Proof.
    induction l as [|[n b] l IH]; intros m ci after Hr Hci Ha Hlo Hb; cbn [split_loop].
    - apply reads_nil in Hr. subst m. exists ci. split; auto. right. rewrite Hci, firstn_all. split; auto. intros ? ? [].
    - cbn [map fst] in Hr. inversion Hlo as [|? ? L1 L2]; inversion Hb as [|? ? B1 B2]; subst. cbn [fst snd] in *.
      set (after' := after || (cursor <? length (concat (firstn m raw)))).
      assert (Ha' : after' = true <-> cursor < length (concat (firstn m raw))).
      { unfold after'. rewrite orb_true_iff, Nat.ltb_lt. tauto. }
      apply reads_step in Hr as [[Eh [L R]]|[t [Hl [Ht [L R]]]]].
      + rewrite L. cbn [bind]. rewrite Nat.add_0_r.
        assert (b = false) as -> by (destruct b; auto; specialize (B1 eq_refl); rewrite Eh in B1; injection B1; lia).
        rewrite andb_false_r. cbn [bind].
        destruct (IH m _ after' R eq_refl) as [k [E Hk]]; auto; [apply Ha'|]. exists k. split; auto.
        destruct Hk as [[m' [e [u [A1 [A2 [A3 [A4 [A5 [A6 [A7 A8]]]]]]]]]]|[A1 A2]].
        * left. exists m', e, u. splits; auto; [now right|]. intros e' t' [[=]|Hi]; eauto.
        * right. split; auto. intros e' t' [[=]|Hi]; eauto.
      + rewrite L. cbn [bind].
        assert (Enext : length (concat (firstn m raw)) + length t = length (concat (firstn (S m) raw))) by now rewrite (boundary_S _ _ Ht).
        assert (Hge : forall e', In (e', true) l -> S m <= p_lo e').
        { intros e' Hi. rewrite Forall_forall in B2. specialize (B2 _ Hi eq_refl). cbn [fst] in B2.
          destruct R as [_ R]. assert (Hin : In (p_lo e', p_hi e') (map single (seq (S m) (length raw - S m)))).
          { rewrite <- R. apply filter_In. split.
            - rewrite map_map. apply in_map_iff. exists (e', true). auto.
            - unfold nonempty_range. cbn [fst snd]. rewrite B2, neq_eqb; auto. intros [= C]. lia. }
          apply in_map_iff in Hin as [j [E Hj]]. apply in_seq in Hj. injection E as -> _. lia. }
        unfold nth_or. rewrite Hl, Ht. cbn [bind].
        destruct (after' && b) eqn:Eab.
        * apply andb_true_iff in Eab as [Ea ->]. apply Ha' in Ea. destruct (mem t splitters) eqn:Em.
          -- apply mem_true_iff in Em. eexists. split; [reflexivity|]. left. exists m, n, t. splits; auto; [now left|].
             intros e' t' [[= <-]|Hi]; [lia|]. intros C. specialize (Hge _ Hi). lia.
          -- destruct (IH (S m) _ after' R Enext) as [k [E Hk]]; auto; [intros; lia|]. exists k. split; auto.
             apply mem_false_iff in Em.
             destruct Hk as [[m' [e [u [A1 [A2 [A3 [A4 [A5 [A6 [A7 A8]]]]]]]]]]|[A1 A2]].
             ++ left. exists m', e, u. splits; auto; [lia|now right|]. intros e' t' [[= <-]|Hi] C1 C2 C3 C4.
                ** rewrite Hl in C2. congruence.
                ** specialize (Hge _ Hi). eauto.
             ++ right. split; auto. intros e' t' [[= <-]|Hi] C2 C3 C4.
                ** rewrite Hl in C2. congruence.
                ** specialize (Hge _ Hi). eauto.
        * cbn [bind]. destruct (IH (S m) _ after' R Enext) as [k [E Hk]]; auto.
          { intros C. apply Ha' in C. lia. }
          exists k. split; auto.
          assert (Hn : b = true -> length (concat (firstn m raw)) <= cursor).
          { intros ->. rewrite andb_true_r in Eab. destruct (le_lt_dec (length (concat (firstn m raw))) cursor) as [|C]; auto.
            apply Ha' in C. congruence. }
          destruct Hk as [[m' [e [u [A1 [A2 [A3 [A4 [A5 [A6 [A7 A8]]]]]]]]]]|[A1 A2]].
          -- left. exists m', e, u. splits; auto; [lia|now right|]. intros e' t' [[= <- ->]|Hi] C1 C2 C3 C4.
             ++ rewrite Hl. auto.
             ++ specialize (Hge _ Hi). eauto.
          -- right. split; auto. intros e' t' [[= <- ->]|Hi] C2 C3 C4.
             ++ rewrite Hl. auto.
             ++ specialize (Hge _ Hi). eauto.
  Qed.

  Theorem split_index_spec root splitters cursor :
    filter nonempty_range (leaf_ranges root) = map single (seq 0 (length raw)) ->
    Forall (fun r => fst r < length raw) (leaf_ranges root) ->
    (forall e, ends_split root e -> p_hi e = Some (S (p_lo e))) ->
    cursor < length (concat raw) ->
    exists k, infer_split_truncation_index root raw splitters cursor = Ok k /\
      cursor < k /\ k <= length (concat raw) /\
      ((exists m, stops root splitters cursor m /\ k = length (concat (firstn (S m) raw)) /\
          forall m', m' < m -> ~ stops root splitters cursor m') \/
       (k = length (concat raw) /\ forall m, ~ stops root splitters cursor m)).
  Proof.
    intros HL Hlo He Hc. unfold infer_split_truncation_index.
    rewrite (proj2 (Nat.eqb_neq _ _)) by lia. rewrite (proj2 (Nat.ltb_ge _ _)) by lia.
    assert (Hfl : forall e, In (e, true) (split_leaves root false) <-> ends_split root e).
    { intros e. rewrite split_leaves_ends. split; [intros [E|[_ [C _]]]; [auto|discriminate]|auto]. }
    destruct (split_loop_spec splitters cursor (split_leaves root false) 0 0 false) as [k [E Hk]]; auto.
    - split; [lia|]. rewrite Nat.sub_0_r, map_map, split_leaves_leaves. exact HL.
    - discriminate.
    - rewrite <- (split_leaves_leaves root false) in Hlo. rewrite Forall_map in Hlo. exact Hlo.
    - apply Forall_forall. intros [e b] Hi. cbn [fst snd]. intros ->. apply He. now apply Hfl.
    - exists k. split; auto. destruct Hk as [[m' [e [u [A1 [A2 [A3 [A4 [A5 [A6 [A7 A8]]]]]]]]]]|[A1 A2]].
      + splits.
        * rewrite A7, (boundary_S _ _ A5). lia.
        * rewrite A7. apply boundary_le.
        * left. exists m'. splits; auto.
          -- split; auto. split; [exists e; split; auto; now apply Hfl|eauto].
          -- intros m2 Hm2 [C1 [[e' [C2 C3]] [t' [C4 C5]]]]. subst m2. apply Hfl in C2.
             specialize (A8 e' t' C2 Hm2 C4 C5 (Nat.le_0_l _)). lia.
      + rewrite A1. splits; auto. right. split; auto. intros m2 [C1 [[e' [C2 C3]] [t' [C4 C5]]]]. subst m2. apply Hfl in C2.
        specialize (A2 e' t' C2 C4 C5 (Nat.le_0_l _)). lia.
  Qed.
  Theorem fallbacks_range root tys w splitters cursor k :
    filter nonempty_range (leaf_ranges root) = map single (seq 0 (length raw)) ->
    Forall (fun r => fst r < length raw) (leaf_ranges root) ->
    (forall e, ends_split root e -> p_hi e = Some (S (p_lo e))) ->
    cursor < length (concat raw) ->
    truncation_with_fallbacks root raw tys w splitters cursor = Ok k ->
    cursor < k /\ k <= length (concat raw).
  Proof.
    intros HL Hlo He Hc E. unfold truncation_with_fallbacks in E. apply bind_ok_inv in E as [[j|] [E1 E]].
    - injection E as <-. destruct (match_pair_index_range _ _ _ _ _ HL Hc E1) as [A [B _]]. auto.
    - destruct (split_index_spec root splitters cursor HL Hlo He Hc) as [k' [E' [A [B _]]]]. rewrite E' in E. injection E as <-. auto.
  Qed.
End Truncation.

(** ** Indentation widths *)
Section Indents.
  Lemma divides_all_iff c l : divides_all c l = true <-> Forall (fun w => w mod c = 0) l.
  Proof.
    unfold divides_all. rewrite forallb_forall, Forall_forall. split; intros Hx w Hw; specialize (Hx w Hw);
      [now apply Nat.eqb_eq in Hx|now apply Nat.eqb_eq].
  Qed.
  (** The last candidate that divides every width. *)
  Theorem infer_last lengths cands : lengths <> [] ->
    (exists a r b, cands = a ++ r :: b /\ infer_from_lengths lengths cands = r /\ Forall (fun w => w mod r = 0) lengths /\
        Forall (fun c => ~ Forall (fun w => w mod c = 0) lengths) b) \/
    (infer_from_lengths lengths cands = 1 /\ Forall (fun c => ~ Forall (fun w => w mod c = 0) lengths) cands).
  Proof.
    intros Hl. assert (E : infer_from_lengths lengths cands =
      fold_left (fun best c => if divides_all c lengths then c else best) cands 1) by (destruct lengths; [congruence|auto]).
    rewrite E. clear E. induction cands as [|c cands IH] using rev_ind; [right; auto|].
    rewrite fold_left_app. cbn [fold_left]. destruct (divides_all c lengths) eqn:Ed.
    - apply divides_all_iff in Ed. left. exists cands, c, []. splits; auto.
    - assert (Hn : ~ Forall (fun w => w mod c = 0) lengths) by (intros C; apply divides_all_iff in C; congruence).
      destruct IH as [[a [r [b [-> [E [Hr Hb]]]]]]|[E Hb]].
      + left. exists a, r, (b ++ [c]). splits; auto.
        * now rewrite <- app_assoc.
        * apply Forall_app. split; auto.
      + right. split; auto. apply Forall_app. split; auto.
  Qed.
  Theorem infer_largest lengths cands : lengths <> [] -> StronglySorted lt cands ->
    let r := infer_from_lengths lengths cands in
    Forall (fun w => w mod r = 0) lengths /\ (In r cands \/ r = 1) /\
    (forall c, In c cands -> Forall (fun w => w mod c = 0) lengths -> c <= r).
  Proof.
    intros Hl Hs r. destruct (infer_last lengths cands Hl) as [[a [r' [b [-> [E [Hr Hb]]]]]]|[E Hb]]; fold r in E; rewrite E.
    - splits; auto; [left; apply in_app_iff; right; now left|]. intros c Hc Hd.
      apply in_app_iff in Hc as [Hc|[->|Hc]]; auto.
      + clear -Hs Hc. induction a as [|x a IH]; [destruct Hc|]. cbn [app] in Hs. inversion Hs as [|? ? S1 S2]; subst.
        destruct Hc as [->|Hc]; auto. rewrite Forall_forall in S2. apply Nat.lt_le_incl, S2, in_app_iff. right. now left.
      + rewrite Forall_forall in Hb. exfalso. exact (Hb c Hc Hd).
    - splits; auto.
      + apply Forall_forall. intros w _. apply Nat.mod_1_r.
      + intros c Hc Hd. rewrite Forall_forall in Hb. exfalso. exact (Hb c Hc Hd).
  Qed.
  (** The widths observed: non-empty white space right after a change of depth. *)
  Theorem indent_lengths_spec tys : forall raw w, In w (indent_lengths tys raw) <->
    exists k p r, nth_error tys k = Some p /\ (p = TPythonIndent \/ p = TPythonDedent) /\
      nth_error tys (S k) = Some TWhiteSpace /\ nth_error raw (S k) = Some r /\ r <> [] /\ w = length r.
  Proof.
    induction tys as [|p tys IH]; intros raw w.
    { split; [intros []|]. intros [[|k] [p [r [E _]]]]; discriminate. }
    destruct tys as [|t tys].
    { split; [intros []|]. intros [k [p0 [r [_ [_ [E _]]]]]]. destruct k; discriminate. }
    destruct raw as [|r0 [|r raw]].
    { split; [intros []|]. intros [k [p0 [r [_ [_ [_ [E _]]]]]]]. discriminate. }
    { split; [intros []|]. intros [k [p0 [r [_ [_ [_ [E _]]]]]]]. destruct k; discriminate. }
    cbn [indent_lengths]. rewrite in_app_iff. specialize (IH (r :: raw) w).
    assert (Hd : In w (if eqb t TWhiteSpace && (eqb p TPythonIndent || eqb p TPythonDedent) && negb (length r =? 0) then [length r] else [])
             <-> (p = TPythonIndent \/ p = TPythonDedent) /\ t = TWhiteSpace /\ r <> [] /\ w = length r).
    { destruct (eqb t TWhiteSpace && (eqb p TPythonIndent || eqb p TPythonDedent) && negb (length r =? 0)) eqn:Eb.
      - apply andb_true_iff in Eb as [Eb E3]. apply andb_true_iff in Eb as [E1 E2]. apply eqb_eq in E1. apply orb_true_iff in E2.
        apply negb_true_iff, Nat.eqb_neq in E3. split.
        + intros [<-|[]]. splits; auto; [destruct E2 as [E2|E2]; apply eqb_eq in E2; auto|]. intros ->. now apply E3.
        + intros [_ [_ [_ ->]]]. now left.
      - split; [intros []|]. intros [Hp [-> [Hr ->]]]. exfalso. rewrite eqb_refl in Eb. cbn [andb] in Eb.
        assert (E2 : eqb p TPythonIndent || eqb p TPythonDedent = true) by (destruct Hp as [->| ->]; reflexivity).
        rewrite E2 in Eb. cbn [andb] in Eb. apply negb_false_iff, Nat.eqb_eq in Eb. destruct r; [congruence|discriminate]. }
    split.
    - intros [Hw|Hw].
      + apply Hd in Hw as [Hp [-> [Hr ->]]]. exists 0, p, r. cbn. splits; auto.
      + apply IH in Hw as [k [p' [r' [A1 [A2 [A3 [A4 [A5 A6]]]]]]]]. exists (S k), p', r'. splits; auto.
    - intros [k [p' [r' [A1 [A2 [A3 [A4 [A5 A6]]]]]]]]. destruct k as [|k].
      + left. apply Hd. cbn in A1, A3, A4. injection A1 as ->. injection A3 as ->. injection A4 as ->. splits; auto.
      + right. apply IH. exists k, p', r'. splits; auto.
  Qed.
End Indents.

(** *** What follows from the shape *)
Section Uses.
  Variable P : nat -> nat -> Prop.
  Variables isupper islower isdigit isspace : nat -> bool.

  Lemma shaped_convertible tokens tys deco subtok size n : well_formed size n -> shaped P n ->
    convertible isspace tokens tys deco subtok n.
  Proof.
    induction n as [lo hi ann cs IH] using pnode_ind'. intros Hw Hs.
    inversion Hw as [? h ? ? W1 W2 W3 W4 W5]; subst. inversion Hs as [? ? ? ? S1 S2 S3 S4]; subst.
    assert (Hk : exists ty, p_type isspace tokens tys (PNode lo (Some h) ann cs) = Ok ty).
    { unfold p_type. cbn [p_ann p_children]. destruct ann; eauto. rewrite S1 by auto.
      destruct (p_text tokens (PNode lo (Some h) ASibling [])) as [|z l]; eauto. destruct (forallb isspace (z :: l)); eauto.
      match goal with |- exists ty, (if ?b then _ else _) = _ => destruct b; eauto end. }
    destruct Hk as [ty Hk]. destruct cs as [|c cs]; [eapply cv_leaf; eauto|].
    eapply cv_group; eauto.
    - destruct W3 as [C|W3]; [discriminate|]. apply tiles_chained; auto. discriminate.
    - clear -IH W4 S4. induction IH as [|x l Hx HF IHF]; inversion W4; inversion S4; subst; constructor; auto.
  Qed.
  Lemma shaped_ends n e : shaped P n -> (forall k, In k (leaf_ranges n) -> nonempty_range k = true -> snd k = Some (S (fst k))) ->
    ends_split n e -> p_hi e = Some (S (p_lo e)).
  Proof.
    intros Hs HL He. induction He as [lo hi cs c Hl|lo hi ann cs c e Hi He IH]; inversion Hs as [? ? ? ? S1 S2 S3 S4]; subst.
    - specialize (S3 ltac:(discriminate)). apply Forall_app in S3 as [_ S3]. inversion S3 as [|? ? [_ [h [Eh Hh]]] _]; subst.
      apply (HL (p_lo c, p_hi c)).
      + destruct c as [l0 h0 a0 cs0]. cbn [p_children p_lo p_hi] in *. subst cs0. cbn [leaf_ranges].
        destruct (cs ++ [PNode l0 h0 a0 []]) eqn:Ec; [destruct cs; discriminate|]. rewrite <- Ec.
        apply in_flat_map. exists (PNode l0 h0 a0 []). split; [apply in_app_iff; right; now left|now left].
      + unfold nonempty_range. cbn [fst snd]. rewrite Eh, neq_eqb; auto. intros [= C]. lia.
    - apply IH.
      + rewrite Forall_forall in S4. auto.
      + intros k Hk. apply HL. cbn [leaf_ranges]. destruct cs; [destruct Hi|]. apply in_flat_map. eauto.
  Qed.

  Definition pair_ok (raw : list text) (tys : list ttype) (w : wanted_pair) (a b : nat) : Prop :=
    match w with
    | AnyPair => True
    | TypePair x y => exists t, nth_error tys a = Some t /\ (t = x -> nth_error tys b = Some y)
    | TextPair x y => a < length raw /\ b < length raw
    end.
  Lemma shaped_depth raw tys w n : (forall a b, P a b -> pair_ok raw tys w a b) -> shaped P n ->
    forall d, exists l, depth_leaves (pair_counts raw tys w) n d = Ok l.
  Proof.
    intros HP. induction n as [lo hi ann cs IH] using pnode_ind'. intros Hs d. cbn [depth_leaves].
    inversion Hs as [? ? ? ? S1 S2 S3 S4]; subst. destruct cs as [|c0 cs0] eqn:Ecs; [eauto|]. rewrite <- Ecs in *.
    assert (G : forall xs, incl xs cs -> exists l,
       (fix go (l : list pnode) : result (list (pnode * nat)) :=
                 match l with
                 | [] => Ok []
                 | c :: l' =>
                     do inc <- (if eqb (p_ann c) AMiddle then
                                  match cs with
                                  | [lc; mc; rc] =>
                                      if eqb (p_ann lc) ALeft && eqb (p_ann rc) ARight then pair_counts raw tys w lc rc
                                      else Err AssertionError
                                  | _ => Err ValueError
                                  end
                                else Ok false);
                     do x <- depth_leaves (pair_counts raw tys w) c (if inc then S d else d);
                     do r <- go l';
                     Ok (x ++ r)
                 end) xs = Ok l).
    { induction xs as [|x xs IHx]; intros Hx; [eauto|].
      assert (Hin : In x cs) by (apply Hx; now left).
      assert (Hinc : exists inc, (if eqb (p_ann x) AMiddle then
                                  match cs with
                                  | [lc; mc; rc] =>
                                      if eqb (p_ann lc) ALeft && eqb (p_ann rc) ARight then pair_counts raw tys w lc rc
                                      else Err AssertionError
                                  | _ => Err ValueError
                                  end
                                else Ok false) = Ok inc).
      { destruct (eqb (p_ann x) AMiddle) eqn:Em; [|eauto]. apply eqb_eq in Em.
        assert (Ha : ann = APaired).
        { destruct (eq_dec ann APaired) as [|Hn]; auto. specialize (S3 Hn). rewrite Forall_forall in S3.
          destruct (S3 _ Hin) as [[C|[C|C]] _]; congruence. }
        destruct (S2 Ha) as [l [m [r [-> [A1 [A2 [A3 [A4 [A5 A6]]]]]]]]]. rewrite A1, A3, !eqb_refl. cbn [andb].
        apply HP in A6. unfold pair_counts, pair_ok, nth_or in *. destruct w as [|tx ty|tx ty]; [eauto| |].
        - destruct A6 as [t [-> A6]]. cbn [bind]. destruct (eqb t tx) eqn:Et; [|eauto]. apply eqb_eq in Et.
          rewrite (A6 Et). cbn [bind]. rewrite eqb_refl. eauto.
        - destruct A6 as [B1 B2]. destruct (nth_error raw (p_lo l)) eqn:E1; [|apply nth_error_None in E1; lia].
          destruct (nth_error raw (p_lo r)) eqn:E2; [|apply nth_error_None in E2; lia]. cbn [bind]. destruct (eqb t tx); eauto. }
      destruct Hinc as [inc ->]. cbn [bind]. rewrite Forall_forall in IH, S4.
      destruct (IH x Hin (S4 x Hin) (if inc then S d else d)) as [lx ->]. cbn [bind].
      destruct IHx as [lr ->]; [intros y Hy; apply Hx; now right|]. cbn [bind]. eauto. }
    destruct (G cs (fun x h => h)) as [l El]. exists l. rewrite <- El. subst cs. reflexivity.
  Qed.
  Lemma match_pair_loop_ok raw cursor l : forall m ci cd fin, reads raw m (map fst l) ->
    exists o, match_pair_loop raw cursor ci cd fin l = Ok o.
  Proof.
    induction l as [|[n d] l IH]; intros m ci cd fin Hr; cbn [match_pair_loop]; [eauto|].
    destruct ((cursor <? ci) && _ && (d =? 0)); [eauto|].
    cbn [map fst] in Hr. apply reads_step in Hr as [[_ [-> R]]|[t [_ [_ [-> R]]]]]; cbn [bind]; destruct fin; eauto.
  Qed.
  Theorem match_pair_total root raw tys w cursor :
    filter nonempty_range (leaf_ranges root) = map single (seq 0 (length raw)) ->
    (forall a b, P a b -> pair_ok raw tys w a b) -> shaped P root -> cursor <= length (concat raw) ->
    exists o, infer_match_pair_truncation_index root raw tys w cursor = Ok o.
  Proof.
    intros HL HP Hs Hc. unfold infer_match_pair_truncation_index. destruct (cursor =? length (concat raw)); [eauto|].
    rewrite (proj2 (Nat.ltb_ge _ _)) by lia. destruct (shaped_depth raw tys w root HP Hs 0) as [l El]. rewrite El. cbn [bind].
    eapply match_pair_loop_ok with (m := 0). split; [lia|]. rewrite Nat.sub_0_r, map_map.
    now rewrite (depth_leaves_leaves _ _ _ _ El).
  Qed.
End Uses.

(** ** The end of a docstring *)
Section Docstring.
  Lemma starts_with_iff p l : starts_with p l = true <-> exists r, l = p ++ r.
  Proof.
    revert l. induction p as [|x p IH]; intros l; cbn [starts_with]; [split; [intros _; exists l; reflexivity|auto]|].
    destruct l as [|y l].
    { split; [intros C; discriminate C|intros [r C]; discriminate C]. }
    rewrite andb_true_iff, IH, Nat.eqb_eq. split.
    - intros [-> [r ->]]. now exists r.
    - intros [r [= -> ->]]. split; auto. now exists r.
  Qed.
  Lemma find_spec p l : match find p l with
    | Some k => (exists a r, l = a ++ p ++ r /\ length a = k) /\ forall a r, l = a ++ p ++ r -> k <= length a
    | None => forall a r, l <> a ++ p ++ r
    end.
  Proof.
    induction l as [|x l IH]; cbn [find].
    - destruct (starts_with p []) eqn:E.
      + apply starts_with_iff in E as [r E]. split; [exists [], r; auto|intros; lia].
      + intros a r C. assert (H : starts_with p [] = true); [|congruence]. apply starts_with_iff.
        destruct a; [exists r; auto|discriminate].
    - destruct (starts_with p (x :: l)) eqn:E.
      + apply starts_with_iff in E as [r E]. split; [exists [], r; auto|intros; lia].
      + assert (Hn : forall r, x :: l <> p ++ r).
        { intros r C. assert (H : starts_with p (x :: l) = true); [|congruence]. apply starts_with_iff. eauto. }
        destruct (find p l) as [k|]; cbn [option_map].
        * destruct IH as [[a [r [E1 E2]]] IH]. split; [exists (x :: a), r; split; [cbn; now rewrite E1|cbn; now rewrite E2]|].
          intros [|y a'] r' C; [now apply Hn in C|]. injection C as -> C. cbn [length]. specialize (IH _ _ C). lia.
        * intros [|y a'] r' C; [now apply Hn in C|]. injection C as -> C. now apply IH in C.
  Qed.
  (** The index just after the first occurrence, at or after the cursor, of the
      three quotes that precede the cursor. *)
  Theorem pydocstring_spec code cursor : cursor <= length code ->
    match infer_truncation_pydocstring code cursor with
    | Ok o => exists a q rest, code = a ++ q ++ rest /\ cursor = length a + 3 /\ (q = [34; 34; 34] \/ q = [39; 39; 39]) /\
        match o with
        | Some k => (exists b r, rest = b ++ q ++ r /\ k = cursor + length b + 3 /\
                       forall b' r', rest = b' ++ q ++ r' -> length b <= length b') /\ cursor < k <= length code
        | None => forall b r, rest <> b ++ q ++ r
        end
    | Err e => e = AssertionError /\ ~ exists a q rest, code = a ++ q ++ rest /\ cursor = length a + 3 /\
                 (q = [34; 34; 34] \/ q = [39; 39; 39])
    end.
  Proof.
    intros Hc. unfold infer_truncation_pydocstring. set (before := firstn cursor code).
    assert (Lb : length before = cursor) by (unfold before; rewrite firstn_length; lia).
    set (q := skipn (length before - 3) before).
    assert (Ecode : code = before ++ skipn cursor code) by (unfold before; now rewrite firstn_skipn).
    destruct (eqb q [34; 34; 34] || eqb q [39; 39; 39]) eqn:Eq.
    - apply orb_true_iff in Eq. assert (Hq : q = [34; 34; 34] \/ q = [39; 39; 39]) by (destruct Eq as [E|E]; apply eqb_eq in E; auto).
      assert (Lq : length q = 3) by (destruct Hq as [-> | ->]; reflexivity).
      assert (Ebefore : before = firstn (length before - 3) before ++ q) by (unfold q; now rewrite firstn_skipn).
      assert (L3 : cursor = length (firstn (length before - 3) before) + 3).
      { rewrite <- Lb, Ebefore at 1. rewrite app_length, Lq. reflexivity. }
      pose proof (find_spec q (skipn cursor code)) as F. destruct (find q (skipn cursor code)) as [k|].
      + exists (firstn (length before - 3) before), q, (skipn cursor code). splits; auto.
        * rewrite app_assoc, <- Ebefore. exact Ecode.
        * destruct F as [[a [r [E1 E2]]] F]. exists a, r. splits; [exact E1|lia|]. intros b' r' C. subst k. eauto.
        * lia.
        * destruct F as [[a [r [E1 E2]]] F]. rewrite Ecode, app_length, E1, !app_length. lia.
      + exists (firstn (length before - 3) before), q, (skipn cursor code). splits; auto.
        rewrite app_assoc, <- Ebefore. exact Ecode.
    - split; auto. intros [a [q' [rest [E1 [E2 Hq]]]]].
      assert (Lq : length q' = 3) by (destruct Hq as [-> | ->]; reflexivity).
      assert (before = a ++ q').
      { unfold before. rewrite E1, app_assoc. replace cursor with (length (a ++ q')) by (rewrite app_length; lia).
        now rewrite firstn_app, firstn_all, Nat.sub_diag, app_nil_r. }
      assert (q = q').
      { unfold q. rewrite H. rewrite app_length, Lq. replace (length a + 3 - 3) with (length a) by lia.
        rewrite skipn_app, skipn_all, Nat.sub_diag. reflexivity. }
      subst q'. destruct Hq as [Hq|Hq]; rewrite Hq in Eq; cbn in Eq; discriminate.
  Qed.
End Docstring.
