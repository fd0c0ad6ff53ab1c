(** Finding a path with given decisions.  Used only to exhibit concrete paths
    in examples. *)

From Coq Require Import List Bool Arith.
From Verif Require Import Base Graph.
Import ListNotations.

Section Search.
  Context {St As In : Type} {sd : EqDec St} {ad : EqDec As}.
  Notation E := (edge St As In).
  Fixpoint search (fuel : nat) (es : list E) (s goal : St) (ds : list As) : option (list E) :=
    match fuel with
    | 0 => None
    | S fuel' =>
        if eqb s goal then match ds with [] => Some [] | _ => None end
        else (fix try (l : list E) : option (list E) :=
          match l with
          | [] => None
          | e :: l' =>
              match
                (if eqb (source e) s then
                  match assignment e, ds with
                  | None, _ => option_map (cons e) (search fuel' es (dest e) goal ds)
                  | Some a, b :: ds' => if eqb a b then option_map (cons e) (search fuel' es (dest e) goal ds') else None
                  | Some _, [] => None
                  end
                else None)
              with
              | Some p => Some p
              | None => try l'
              end
          end) es
    end.
  Lemma search_sound fuel es : forall s goal ds p, search fuel es s goal ds = Some p -> is_path es s p goal /\ path_assignments p = ds.
  Proof.
    induction fuel as [|fuel IH]; intros s goal ds p H; cbn [search] in H; [discriminate|].
    destruct (eqb s goal) eqn:Esg.
    - destruct ds; [|discriminate]. injection H as <-. apply eqb_eq in Esg. subst. split; constructor.
    - assert (G : forall l, incl l es ->
        (fix try (l : list E) : option (list E) :=
          match l with
          | [] => None
          | e :: l' =>
              match
                (if eqb (source e) s then
                  match assignment e, ds with
                  | None, _ => option_map (cons e) (search fuel es (dest e) goal ds)
                  | Some a, b :: ds' => if eqb a b then option_map (cons e) (search fuel es (dest e) goal ds') else None
                  | Some _, [] => None
                  end
                else None)
              with
              | Some p => Some p
              | None => try l'
              end
          end) l = Some p -> is_path es s p goal /\ path_assignments p = ds).
      2: exact (G es (incl_refl _) H).
      clear H. induction l as [|e l IHl]; intros Hi H; [discriminate|].
      destruct (eqb (source e) s) eqn:Es; [|apply IHl; auto; intros x Hx; apply Hi; now right].
      apply eqb_eq in Es. subst s. assert (He : List.In e es) by (apply Hi; now left).
      assert (Hl : incl l es) by (intros x Hx; apply Hi; now right).
      destruct (assignment e) as [a|] eqn:Ea.
      + destruct ds as [|b ds]; [auto|]. destruct (eqb a b) eqn:Eab; [|auto]. apply eqb_eq in Eab. subst b.
        destruct (search fuel es (dest e) goal ds) as [q|] eqn:Eq; cbn [option_map] in H; [|auto]. injection H as <-.
        apply IH in Eq as [Q1 Q2]. split; [constructor; auto|]. cbn. now rewrite Ea, Q2.
      + destruct (search fuel es (dest e) goal ds) as [q|] eqn:Eq; cbn [option_map] in H; [|auto]. injection H as <-.
        apply IH in Eq as [Q1 Q2]. split; [constructor; auto|]. cbn. now rewrite Ea.
  Qed.
  (** Preferring the edges that were added last. *)
  Definition attempt (d : dag St As In) (ds : list As) : option (list E) :=
    search (S (length (edges d))) (rev (edges d)) (initial_state d) (final_state d) ds.
  Lemma attempt_sound d ds p : attempt d ds = Some p -> complete_path d p /\ path_assignments p = ds.
  Proof.
    unfold attempt. intros H. apply search_sound in H as [H1 H2]. split; auto. unfold complete_path.
    refine (is_path_incl _ _ _ _ _ _ H1). intros e He. apply in_rev. exact (is_path_In _ _ _ _ _ H1 He).
  Qed.
  Definition find_path (d : dag St As In) (ds : list As) : list E := match attempt d ds with Some p => p | None => [] end.
  Definition found (d : dag St As In) (ds : list As) : bool := match attempt d ds with Some _ => true | None => false end.
  Lemma find_path_sound d ds : found d ds = true -> complete_path d (find_path d ds) /\ path_assignments (find_path d ds) = ds.
  Proof.
    unfold found, find_path. destruct (attempt d ds) as [p|] eqn:E'; [|discriminate]. intros _. now apply attempt_sound.
  Qed.
End Search.
