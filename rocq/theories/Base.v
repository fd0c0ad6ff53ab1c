(** Shared vocabulary of the model: decidable equality, exceptions as values,
    and costs.

    Costs model [Cost = float], [INFINITE_COST = np.inf] and
    [INVALID_COST = np.nan] of
    r_u_sure/decision_diagrams/gated_state_dag.py:48-55.  Simplification: finite
    floats are exact rationals ([Qc]), so float rounding is not modelled, and
    negative infinity is not a cost (no DAG builder produces it). *)

From Coq Require Import List Bool Arith Lia.
From Coq Require Import QArith Qcanon Lqa.
Import ListNotations.
Close Scope Qc_scope. Close Scope Q_scope. Close Scope Z_scope. Open Scope nat_scope.

Ltac splits := repeat match goal with |- _ /\ _ => split end.

(** ** Decidable equality (Python [==] on the immutable values involved). *)
Class EqDec (A : Type) := eq_dec : forall x y : A, {x = y} + {x <> y}.

Definition eqb {A} `{EqDec A} (x y : A) : bool :=
  if eq_dec x y then true else false.

Lemma eqb_true_iff {A} `{EqDec A} (x y : A) : eqb x y = true <-> x = y.
Proof. unfold eqb; destruct (eq_dec x y); split; congruence. Qed.
Lemma eqb_false_iff {A} `{EqDec A} (x y : A) : eqb x y = false <-> x <> y.
Proof. unfold eqb; destruct (eq_dec x y); split; congruence. Qed.
Lemma eqb_eq {A} `{EqDec A} (x y : A) : eqb x y = true -> x = y.
Proof. apply eqb_true_iff. Qed.
Lemma eqb_neq {A} `{EqDec A} (x y : A) : eqb x y = false -> x <> y.
Proof. apply eqb_false_iff. Qed.
Lemma neq_eqb {A} `{EqDec A} (x y : A) : x <> y -> eqb x y = false.
Proof. apply eqb_false_iff. Qed.
Lemma eqb_refl {A} `{EqDec A} (x : A) : eqb x x = true.
Proof. now apply eqb_true_iff. Qed.

#[export] Instance EqDec_nat : EqDec nat := Nat.eq_dec.
#[export] Instance EqDec_bool : EqDec bool := Bool.bool_dec.
#[export] Instance EqDec_prod {A B} `{EqDec A} `{EqDec B} : EqDec (A * B).
Proof.
  intros [a b] [a' b'].
  destruct (eq_dec a a') as [->|n]; [|right; congruence].
  destruct (eq_dec b b') as [->|n]; [left; reflexivity|right; congruence].
Defined.
#[export] Instance EqDec_list {A} `{EqDec A} : EqDec (list A) := list_eq_dec eq_dec.
#[export] Instance EqDec_option {A} `{EqDec A} : EqDec (option A).
Proof.
  intros [a|] [b|]; try (right; congruence); [|left; reflexivity].
  destruct (eq_dec a b) as [->|n]; [left; reflexivity|right; congruence].
Defined.

(** Python [x in xs] for a list or set represented as a list. *)
Definition mem {A} `{EqDec A} (x : A) (l : list A) : bool := existsb (eqb x) l.

Lemma mem_true_iff {A} `{EqDec A} (x : A) l : mem x l = true <-> In x l.
Proof.
  unfold mem. rewrite existsb_exists. split.
  - intros [y [Hy E]]. apply eqb_eq in E. subst y. exact Hy.
  - intros Hi. exists x. split; [assumption|apply eqb_refl].
Qed.
Lemma mem_false_iff {A} `{EqDec A} (x : A) l : mem x l = false <-> ~ In x l.
Proof.
  rewrite <- mem_true_iff. destruct (mem x l); intuition congruence.
Qed.

(** ** Dictionaries as association lists, most recent binding first. *)
Fixpoint assoc {K V} `{EqDec K} (k : K) (d : list (K * V)) : option V :=
  match d with
  | [] => None
  | (k', v) :: d' => if eqb k k' then Some v else assoc k d'
  end.

Lemma assoc_cons_same {K V} `{EqDec K} (k : K) (v : V) d :
  assoc k ((k, v) :: d) = Some v.
Proof. simpl. now rewrite eqb_refl. Qed.
Lemma assoc_cons_other {K V} `{EqDec K} (k k' : K) (v : V) d :
  k <> k' -> assoc k ((k', v) :: d) = assoc k d.
Proof. intros n. simpl. apply neq_eqb in n. now rewrite n. Qed.
Lemma assoc_In {K V} `{EqDec K} (k : K) (v : V) d :
  assoc k d = Some v -> In (k, v) d.
Proof.
  induction d as [|[k' v'] d IH]; simpl; [discriminate|].
  destruct (eqb k k') eqn:E.
  - apply eqb_eq in E. intros [= ->]. left. congruence.
  - intros; right; auto.
Qed.
Lemma assoc_None_iff {K V} `{EqDec K} (k : K) (d : list (K * V)) :
  assoc k d = None <-> ~ In k (map fst d).
Proof.
  induction d as [|[k' v'] d IH]; simpl; [tauto|].
  destruct (eqb k k') eqn:E.
  - apply eqb_eq in E. subst. split; [discriminate|]. intros C; exfalso; auto.
  - apply eqb_neq in E. rewrite IH. split; intros; intuition congruence.
Qed.

(** ** Exceptions as values. *)
Inductive exn := ValueError | KeyError | IndexError | AssertionError | TypeError
               | UnboundLocalError | StopIteration | RuntimeError | ZeroDivisionError.

#[export] Instance EqDec_exn : EqDec exn.
Proof. intros x y. decide equality. Defined.

Inductive result (A : Type) := Ok (a : A) | Err (e : exn).
Arguments Ok {A}. Arguments Err {A}.

Definition bind {A B} (r : result A) (f : A -> result B) : result B :=
  match r with Ok a => f a | Err e => Err e end.
Notation "'do' x <- r ; k" := (bind r (fun x => k))
  (at level 200, x pattern, r at level 100, k at level 200).

Definition is_ok {A} (r : result A) : bool :=
  match r with Ok _ => true | Err _ => false end.

Lemma bind_ok_inv {A B} (r : result A) (f : A -> result B) b :
  bind r f = Ok b -> exists a, r = Ok a /\ f a = Ok b.
Proof. destruct r; simpl; [eauto|discriminate]. Qed.

Fixpoint mapM {A B} (f : A -> result B) (l : list A) : result (list B) :=
  match l with
  | [] => Ok []
  | x :: l' => do y <- f x; do ys <- mapM f l'; Ok (y :: ys)
  end.

Lemma mapM_ok_iff {A B} (f : A -> result B) l ys :
  mapM f l = Ok ys <-> Forall2 (fun x y => f x = Ok y) l ys.
Proof.
  revert ys; induction l as [|x l IH]; intros ys; simpl.
  - split; [intros [= <-]; constructor|intros H; inversion H; reflexivity].
  - split.
    + intros H. apply bind_ok_inv in H as [y [Hy H]].
      apply bind_ok_inv in H as [ys' [Hys H]]. injection H as <-.
      constructor; [assumption|]. now apply IH.
    + intros H. inversion H as [|a b c d Hab Hcd]; subst. rewrite Hab. simpl.
      apply IH in Hcd. rewrite Hcd. reflexivity.
Qed.

(** ** Costs. *)
Inductive cost := Fin (q : Qc) | Inf | NaN.

#[export] Instance EqDec_Qc : EqDec Qc := Qc_eq_dec.
#[export] Instance EqDec_cost : EqDec cost.
Proof.
  intros [q| |] [q'| |]; try (right; congruence); try (left; reflexivity).
  destruct (Qc_eq_dec q q') as [->|n]; [left; reflexivity|right; congruence].
Defined.

(** Float addition ([+inf] absorbs finite values, [nan] absorbs everything). *)
Definition cadd (a b : cost) : cost :=
  match a, b with
  | NaN, _ | _, NaN => NaN
  | Inf, _ | _, Inf => Inf
  | Fin x, Fin y => Fin (x + y)%Qc
  end.

(** Float [<]; every comparison with [nan] is false. *)
Definition qc_ltb (x y : Qc) : bool := if Qclt_le_dec x y then true else false.
Definition cltb (a b : cost) : bool :=
  match a, b with
  | NaN, _ | _, NaN => false
  | Fin x, Fin y => qc_ltb x y
  | Fin _, Inf => true
  | Inf, _ => false
  end.

(** Python's and numba's two-argument [min(a, b)]: [b] if [b < a] else [a]. *)
Definition cmin (a b : cost) : cost := if cltb b a then b else a.

Definition is_finite (c : cost) : bool := cltb c Inf.

(** Proof-level order on non-NaN costs. *)
Definition cle (a b : cost) : Prop :=
  match a, b with
  | Fin x, Fin y => (x <= y)%Qc
  | Fin _, Inf => True
  | Inf, Inf => True
  | _, _ => False
  end.

(** [qc_lra]: linear arithmetic over [Qc]. *)
Lemma Qc_eq_iff (a b : Qc) : a = b <-> (this a == this b)%Q.
Proof. split; [intros ->; reflexivity|apply Qc_is_canon]. Qed.
Lemma Qcplus_this a b : (this (a + b)%Qc == this a + this b)%Q.
Proof. apply Qred_correct. Qed.
Lemma Qcmult_this a b : (this (a * b)%Qc == this a * this b)%Q.
Proof. apply Qred_correct. Qed.
Lemma Qcopp_this a : (this (- a)%Qc == - this a)%Q.
Proof. apply Qred_correct. Qed.
Lemma Qcminus_this a b : (this (a - b)%Qc == this a - this b)%Q.
Proof. unfold Qcminus. rewrite Qcplus_this, Qcopp_this. reflexivity. Qed.
Lemma Q2Qc_this q : (this (Q2Qc q) == q)%Q.
Proof. apply Qred_correct. Qed.

Ltac qc_push :=
  repeat (rewrite Qcplus_this in * || rewrite Qcminus_this in *
          || rewrite Qcopp_this in * || rewrite Qcmult_this in *
          || rewrite Q2Qc_this in *).
Ltac qc_hyps :=
  repeat match goal with
  | H : @eq Qc _ _ |- _ => apply Qc_eq_iff in H
  | H : ~ (@eq Qc _ _) |- _ => rewrite Qc_eq_iff in H
  | H : Qcle _ _ |- _ => unfold Qcle in H
  | H : Qclt _ _ |- _ => unfold Qclt in H
  | |- @eq Qc _ _ => apply Qc_eq_iff
  | |- Qcle _ _ => unfold Qcle
  | |- Qclt _ _ => unfold Qclt
  end.
Ltac qc_lra := qc_hyps; qc_push; lra.

Lemma cle_refl a : a <> NaN -> cle a a.
Proof. destruct a; simpl; intros; try congruence; auto. apply Qcle_refl. Qed.
Lemma cle_trans a b c : cle a b -> cle b c -> cle a c.
Proof. destruct a, b, c; simpl; auto; try tauto. apply Qcle_trans. Qed.
Lemma cle_antisym a b : cle a b -> cle b a -> a = b.
Proof.
  destruct a, b; simpl; try tauto. intros. f_equal. now apply Qcle_antisym.
Qed.
Lemma cle_Inf a : a <> NaN -> cle a Inf.
Proof. destruct a; simpl; congruence || auto. Qed.
Lemma cle_total a b : a <> NaN -> b <> NaN -> cle a b \/ cle b a.
Proof.
  destruct a, b; simpl; try congruence; auto. intros _ _.
  destruct (Qclt_le_dec q q0); [left; now apply Qclt_le_weak|right; assumption].
Qed.
Lemma cltb_spec a b : a <> NaN -> b <> NaN -> (cltb b a = true <-> ~ cle a b).
Proof.
  destruct a, b; simpl; try congruence; intros _ _; unfold qc_ltb.
  - destruct (Qclt_le_dec q0 q); split; intros; try congruence.
    + now apply Qclt_not_le.
    + contradiction.
  - split; [discriminate|tauto].
  - split; [tauto|reflexivity].
  - split; [discriminate|tauto].
Qed.

Lemma cmin_notnan a b : a <> NaN -> b <> NaN -> cmin a b <> NaN.
Proof. unfold cmin; destruct (cltb b a); auto. Qed.
Lemma cmin_le_l a b : a <> NaN -> b <> NaN -> cle (cmin a b) a.
Proof.
  intros Ha Hb. unfold cmin. destruct (cltb b a) eqn:E; [|now apply cle_refl].
  apply cltb_spec in E; auto. destruct (cle_total a b); tauto.
Qed.
Lemma cmin_le_r a b : a <> NaN -> b <> NaN -> cle (cmin a b) b.
Proof.
  intros Ha Hb. unfold cmin. destruct (cltb b a) eqn:E; [now apply cle_refl|].
  destruct (cle_total a b) as [H|H]; auto.
  destruct (cltb_spec a b Ha Hb) as [_ H2]. 
  destruct a, b; simpl in *; try tauto; unfold qc_ltb in *; try congruence.
  destruct (Qclt_le_dec q0 q); [congruence|assumption].
Qed.
Lemma cmin_cases a b : cmin a b = a \/ cmin a b = b.
Proof. unfold cmin; destruct (cltb b a); auto. Qed.
Lemma cmin_Inf_l b : b <> NaN -> cmin Inf b = b.
Proof. destruct b; simpl; unfold cmin; simpl; congruence || auto. Qed.
Lemma cmin_glb a b c : cle c a -> cle c b -> cle c (cmin a b).
Proof. destruct (cmin_cases a b) as [->| ->]; auto. Qed.

Lemma cadd_comm a b : cadd a b = cadd b a.
Proof. destruct a, b; simpl; try reflexivity. f_equal. apply Qcplus_comm. Qed.
Lemma cadd_assoc a b c : cadd a (cadd b c) = cadd (cadd a b) c.
Proof. destruct a, b, c; simpl; try reflexivity. f_equal. apply Qcplus_assoc. Qed.
Lemma cadd_0_l a : cadd (Fin 0%Qc) a = a.
Proof. destruct a; simpl; try reflexivity. f_equal. apply Qcplus_0_l. Qed.
Lemma cadd_0_r a : cadd a (Fin 0%Qc) = a.
Proof. rewrite cadd_comm. apply cadd_0_l. Qed.
Lemma cadd_notnan a b : a <> NaN -> b <> NaN -> cadd a b <> NaN.
Proof. destruct a, b; simpl; congruence. Qed.
Lemma cadd_le a b a' b' : cle a a' -> cle b b' -> cle (cadd a b) (cadd a' b').
Proof.
  destruct a, a', b, b'; simpl; try tauto. apply Qcplus_le_compat.
Qed.
Lemma cle_notnan_l a b : cle a b -> a <> NaN.
Proof. destruct a, b; simpl; try tauto; discriminate. Qed.
Lemma cle_notnan_r a b : cle a b -> b <> NaN.
Proof. destruct a, b; simpl; try tauto; discriminate. Qed.

Lemma is_finite_iff c : is_finite c = true <-> exists q, c = Fin q.
Proof. destruct c; simpl; split; try congruence; eauto; intros [? ?]; congruence. Qed.

(** Sum of a list of costs. *)
Definition csum (l : list cost) : cost := fold_right cadd (Fin 0%Qc) l.
Lemma csum_app l1 l2 : csum (l1 ++ l2) = cadd (csum l1) (csum l2).
Proof.
  induction l1 as [|x l1 IH]; cbn [app csum fold_right].
  - symmetry; apply cadd_0_l.
  - fold (csum (l1 ++ l2)). fold (csum l1). rewrite IH. apply cadd_assoc.
Qed.

(** ** List lemmas used throughout. *)
Lemma fold_left_app_cons {A B} (f : A -> B -> A) l1 x l2 a :
  fold_left f (l1 ++ x :: l2) a = fold_left f l2 (f (fold_left f l1 a) x).
Proof. now rewrite fold_left_app. Qed.

Lemma Forall_app_iff {A} (P : A -> Prop) l1 l2 :
  Forall P (l1 ++ l2) <-> Forall P l1 /\ Forall P l2.
Proof. apply Forall_app. Qed.

Definition updnth {A} (n : nat) (x : A) (l : list A) : list A :=
  firstn n l ++ (match skipn n l with [] => [] | _ :: r => x :: r end).
Lemma updnth_length {A} n (x : A) l : length (updnth n x l) = length l.
Proof.
  revert n; induction l as [|y l IH]; intros [|n]; cbn; auto.
  rewrite <- (IH n). reflexivity.
Qed.
Lemma updnth_cons_S {A} n (x y : A) l : updnth (S n) x (y :: l) = y :: updnth n x l.
Proof. reflexivity. Qed.
Lemma nth_error_updnth_same {A} n (x : A) l :
  n < length l -> nth_error (updnth n x l) n = Some x.
Proof.
  revert n; induction l as [|y l IH]; intros [|n] H; cbn in H; try lia; auto.
  rewrite updnth_cons_S. apply IH. lia.
Qed.
Lemma nth_error_updnth_other {A} n m (x : A) l :
  n <> m -> nth_error (updnth n x l) m = nth_error l m.
Proof.
  revert n m; induction l as [|y l IH]; intros [|n] [|m] H; cbn; try congruence; auto.
  fold (updnth n x l). apply IH. congruence.
Qed.
Lemma nth_updnth_same {A} n (x d : A) l : n < length l -> nth n (updnth n x l) d = x.
Proof. intros H. apply nth_error_nth. now apply nth_error_updnth_same. Qed.
Lemma nth_updnth_other {A} n m (x d : A) l :
  n <> m -> nth m (updnth n x l) d = nth m l d.
Proof.
  intros H. pose proof (nth_error_updnth_other n m x l H) as E.
  destruct (nth_error l m) eqn:E2.
  - erewrite nth_error_nth by exact E. erewrite nth_error_nth by exact E2. reflexivity.
  - apply nth_error_None in E. apply nth_error_None in E2.
    rewrite !nth_overflow; auto.
Qed.

Lemma filter_filter {A} (f g : A -> bool) l :
  filter f (filter g l) = filter (fun x => g x && f x) l.
Proof.
  induction l as [|a l IH]; simpl; auto.
  destruct (g a); simpl; [destruct (f a); simpl; now rewrite IH|assumption].
Qed.

Lemma NoDup_app_snoc {A} (l : list A) x : NoDup l -> ~ In x l -> NoDup (l ++ [x]).
Proof.
  intros Hn Hx. induction Hn as [|y l Hy Hn IH]; simpl.
  - constructor; [tauto|constructor].
  - constructor.
    + rewrite in_app_iff. simpl in *. intuition.
    + apply IH. simpl in *. tauto.
Qed.
