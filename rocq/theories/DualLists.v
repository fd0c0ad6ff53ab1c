(** Sums and pointwise reasoning used for the dual solver. *)

From Coq Require Import List Bool Arith Lia ZArith QArith Qcanon.
From Verif Require Import Base Graph PackedDag PackedDagProofs PackedTables ConvertApi ConvertSuccess PackedScale
  DualSolver DualSpec.
Import ListNotations.
Close Scope Qc_scope. Close Scope Q_scope. Open Scope nat_scope.

Lemma cltb_le a b : a <> NaN -> b <> NaN -> cltb a b = true -> cle a b.
Proof. intros Ha Hb E. apply cltb_spec in E; auto. destruct (cle_total a b Ha Hb); tauto. Qed.
Lemma cltb_false a b : a <> NaN -> b <> NaN -> cltb a b = false -> cle b a.
Proof.
  intros Ha Hb E. destruct a, b; cbn in *; try congruence; auto.
  unfold qc_ltb in E. destruct (Qclt_le_dec q q0); [discriminate|auto].
Qed.
Lemma cadd_inf_iff a b : a <> NaN -> b <> NaN -> (cadd a b = Inf <-> a = Inf \/ b = Inf).
Proof. destruct a, b; simpl; intuition congruence. Qed.
Lemma csum_cons a l : csum (a :: l) = cadd a (csum l).
Proof. reflexivity. Qed.
Lemma csum_notnan l : (forall c, In c l -> c <> NaN) -> csum l <> NaN.
Proof.
  induction l as [|c l IH]; intros Hl; [discriminate|]. rewrite csum_cons.
  apply cadd_notnan; [apply Hl; simpl; auto|apply IH; intros; apply Hl; simpl; auto].
Qed.
Lemma csum_inf_iff l : (forall c, In c l -> c <> NaN) -> (csum l = Inf <-> In Inf l).
Proof.
  intros Hl. split; [|now apply csum_inf].
  induction l as [|c l IH]; [discriminate|]. rewrite csum_cons.
  intros E. apply cadd_inf_iff in E as [E|E].
  - left; auto.
  - right. apply IH; auto. intros; apply Hl; simpl; auto.
  - apply Hl; simpl; auto.
  - apply csum_notnan. intros; apply Hl; simpl; auto.
Qed.

(** ** [over]. *)
Lemma over_S n f : over (S n) f = cadd (over n f) (f n).
Proof.
  unfold over. rewrite seq_S, map_app, csum_app. simpl. now rewrite cadd_0_r.
Qed.
Lemma over_ext n f g : (forall j, j < n -> f j = g j) -> over n f = over n g.
Proof.
  intros H. unfold over. f_equal. apply map_ext_in. intros j Hj. apply in_seq in Hj. apply H; lia.
Qed.
Lemma over_add n f g : over n (fun j => cadd (f j) (g j)) = cadd (over n f) (over n g).
Proof.
  induction n as [|n IH]; [symmetry; apply cadd_0_l|]. rewrite !over_S, IH. apply cadd_swap.
Qed.
Lemma over_le n f g : (forall j, j < n -> cle (f j) (g j)) -> cle (over n f) (over n g).
Proof.
  induction n as [|n IH]; intros H; [apply cle_refl; discriminate|].
  rewrite !over_S. apply cadd_le; auto.
Qed.
Lemma over_notnan n f : (forall j, j < n -> f j <> NaN) -> over n f <> NaN.
Proof.
  intros H. apply csum_notnan. intros c Hc. apply in_map_iff in Hc as [j [<- Hj]].
  apply in_seq in Hj. apply H; lia.
Qed.
Lemma over_inf_iff n f : (forall j, j < n -> f j <> NaN) ->
  (over n f = Inf <-> exists j, j < n /\ f j = Inf).
Proof.
  intros H. unfold over. rewrite csum_inf_iff.
  - rewrite in_map_iff. split.
    + intros [j [E Hj]]. apply in_seq in Hj. exists j. split; [lia|auto].
    + intros [j [Hj E]]. exists j. split; auto. apply in_seq; lia.
  - intros c Hc. apply in_map_iff in Hc as [j [<- Hj]]. apply in_seq in Hj. apply H; lia.
Qed.
Lemma over_zero n f : (forall j, j < n -> f j = Fin 0%Qc) -> over n f = Fin 0%Qc.
Proof.
  induction n as [|n IH]; intros H; [reflexivity|].
  rewrite over_S, IH, H by auto. apply cadd_0_l.
Qed.
Lemma over_exchange n m (f : nat -> nat -> cost) :
  over n (fun j => over m (fun v => f j v)) = over m (fun v => over n (fun j => f j v)).
Proof.
  induction n as [|n IH].
  - symmetry. apply over_zero. reflexivity.
  - rewrite over_S, IH, <- over_add. apply over_ext. intros v _. now rewrite over_S.
Qed.
Lemma map_nth_seq {A B} (f : A -> B) (d : A) l :
  map f l = map (fun j => f (nth j l d)) (seq 0 (length l)).
Proof.
  induction l as [|x l IH]; [reflexivity|]. cbn [length seq map nth]. f_equal.
  rewrite IH at 1. rewrite <- seq_shift, map_map. reflexivity.
Qed.
Lemma csum_over {A} (f : A -> cost) (d : A) l :
  csum (map f l) = over (length l) (fun j => f (nth j l d)).
Proof. unfold over. now rewrite (map_nth_seq f d l). Qed.
(** One term changes. *)
Lemma over_update n f g v : v < n -> (forall j, j < n -> j <> v -> f j = g j) ->
  exists r, over n f = cadd r (f v) /\ over n g = cadd r (g v).
Proof.
  induction n as [|n IH]; intros Hv H; [lia|]. rewrite !over_S.
  destruct (Nat.eq_dec v n) as [->|Hne].
  - exists (over n f). split; [auto|]. f_equal. apply over_ext. intros j Hj. symmetry. apply H; lia.
  - destruct IH as [r [E1 E2]]; [lia|intros; apply H; lia|].
    exists (cadd r (f n)). rewrite E1, E2, (H n) by lia.
    split; rewrite <- !cadd_assoc, (cadd_comm _ (g n)); auto.
Qed.

(** ** Vectors. *)
Lemma vadd_length a b : length a = length b -> length (vadd a b) = length a.
Proof. intros E. unfold vadd. rewrite map_length, combine_length. lia. Qed.
Lemma get_map_combine {A B} (f : A * B -> cost) a b i da db :
  length a = length b -> i < length a ->
  get (map f (combine a b)) i = f (nth i a da, nth i b db).
Proof.
  intros E Hi. unfold get.
  rewrite nth_indep with (d' := f (da, db)) by (rewrite map_length, combine_length; lia).
  rewrite map_nth, combine_nth by auto. reflexivity.
Qed.
Lemma get_vadd a b i : length a = length b -> i < length a ->
  get (vadd a b) i = cadd (get a i) (get b i).
Proof. intros E Hi. unfold vadd. rewrite (get_map_combine _ _ _ _ NaN NaN) by auto. reflexivity. Qed.
Lemma get_repeat c n i : i < n -> get (repeat c n) i = c.
Proof.
  intros Hi. unfold get. rewrite (nth_indep _ NaN c) by now rewrite repeat_length. apply nth_repeat.
Qed.
Lemma get_map (f : cost -> cost) l i : i < length l -> get (map f l) i = f (get l i).
Proof.
  intros Hi. unfold get. rewrite (nth_indep _ NaN (f NaN)) by now rewrite map_length. apply map_nth.
Qed.
Lemma Forall_get (P : cost -> Prop) l : (forall i, i < length l -> P (get l i)) -> Forall P l.
Proof.
  intros H. apply Forall_forall. intros c Hc. apply In_nth with (d := NaN) in Hc as [i [Hi <-]]. now apply H.
Qed.
Lemma get_ext a b : length a = length b -> (forall i, i < length a -> get a i = get b i) -> a = b.
Proof.
  intros E H. apply nth_ext with (d := NaN) (d' := NaN); auto.
Qed.
Lemma updnth_twice {A} n (x y : A) l : updnth n x (updnth n y l) = updnth n x l.
Proof.
  revert n; induction l as [|z l IH]; intros [|n]; try reflexivity.
  rewrite !updnth_cons_S. now rewrite IH.
Qed.

Lemma nth_combine2 {A B} (l : list A) (l' : list B) j x y :
  length l = length l' -> nth j (combine l l') (x, y) = (nth j l x, nth j l' y).
Proof. intros E. now apply combine_nth. Qed.

(** ** [mapM], pointwise. *)
Lemma mapM_nth_inv {A B} (f : A -> result B) l ys :
  mapM f l = Ok ys -> length ys = length l /\
  forall j dx dy, j < length l -> f (nth j l dx) = Ok (nth j ys dy).
Proof.
  intros E. apply mapM_ok_iff in E. induction E as [|x y l ys Hxy Hf IH]; simpl.
  - split; auto. intros j dx dy Hj. lia.
  - destruct IH as [H1 H2]. split; [lia|]. intros [|j] dx dy Hj; auto. apply H2; lia.
Qed.
Lemma mapM_pointwise {A B} (f : A -> result B) l dx :
  (forall j, j < length l -> exists y, f (nth j l dx) = Ok y) ->
  exists ys, mapM f l = Ok ys /\ length ys = length l /\
    forall j dx dy, j < length l -> f (nth j l dx) = Ok (nth j ys dy).
Proof.
  intros H. destruct (mapM_succeeds f l) as [ys Hys].
  - intros x Hx. apply In_nth with (d := dx) in Hx as [j [Hj <-]]. now apply H.
  - exists ys. split; auto. now apply mapM_nth_inv.
Qed.

(** ** The folds of [min_marginal_average]. *)
Lemma fold_vadd_get n vs : forall acc i, length acc = n -> (forall v, In v vs -> length v = n) -> i < n ->
  length (fold_left vadd vs acc) = n /\
  get (fold_left vadd vs acc) i = cadd (get acc i) (csum (map (fun v => get v i) vs)).
Proof.
  induction vs as [|v vs IH]; intros acc i Hl Hv Hi; cbn [fold_left map].
  - split; auto. simpl. now rewrite cadd_0_r.
  - assert (Hlv : length v = n) by (apply Hv; simpl; auto).
    destruct (IH (vadd acc v) i) as [H1 H2]; auto.
    { rewrite vadd_length; lia. } { intros; apply Hv; simpl; auto. }
    split; auto. rewrite H2, get_vadd by lia. rewrite csum_cons. symmetry. apply cadd_assoc.
Qed.
Definition marginal_part (i : list cost + cost) (a : nat) : cost :=
  match i with inl mm => get mm a | inr _ => Fin 0%Qc end.
Definition other_part (i : list cost + cost) : cost :=
  match i with inl _ => Fin 0%Qc | inr c => c end.
Definition weight_part (iw : (list cost + cost) * Qc) : Qc :=
  match fst iw with inl _ => snd iw | inr _ => 0%Qc end.
Definition qsum (l : list Qc) : Qc := fold_right Qcplus 0%Qc l.
Lemma fold_marginals_get n infos : forall acc a, length acc = n ->
  (forall mm, In (inl mm) infos -> length mm = n) -> a < n ->
  length (fold_left add_marginals infos acc) = n /\
  get (fold_left add_marginals infos acc) a =
    cadd (get acc a) (csum (map (fun i => marginal_part i a) infos)).
Proof.
  induction infos as [|i infos IH]; intros acc a Hl Hv Ha; cbn [fold_left map].
  - split; auto. simpl. now rewrite cadd_0_r.
  - destruct (IH (add_marginals acc i) a) as [H1 H2]; auto.
    { destruct i as [mm|c]; cbn [add_marginals]; auto.
      rewrite vadd_length; auto. rewrite Hl. symmetry. apply Hv. simpl; auto. }
    { intros; apply Hv; simpl; auto. }
    split; auto. rewrite H2, csum_cons. destruct i as [mm|c]; cbn [add_marginals marginal_part].
    + rewrite get_vadd; [symmetry; apply cadd_assoc| |lia].
      rewrite Hl. symmetry. apply Hv. simpl; auto.
    + now rewrite cadd_0_l.
Qed.
Lemma fold_other infos : forall acc,
  fold_left add_nonparticipating infos acc = cadd acc (csum (map other_part infos)).
Proof.
  induction infos as [|i infos IH]; intros acc; cbn [fold_left map].
  - simpl. now rewrite cadd_0_r.
  - rewrite IH, csum_cons. destruct i as [mm|c]; cbn [add_nonparticipating other_part].
    + now rewrite cadd_0_l.
    + symmetry. apply cadd_assoc.
Qed.
Lemma fold_weight iws : forall acc, fold_left add_weight iws acc = (acc + qsum (map weight_part iws))%Qc.
Proof.
  induction iws as [|[i w] iws IH]; intros acc; cbn [fold_left map].
  - simpl. now rewrite Qcplus_0_r.
  - rewrite IH. unfold qsum. cbn [fold_right]. fold (qsum (map weight_part iws)).
    unfold add_weight, weight_part at 2. cbn [fst snd].
    destruct i; [now rewrite Qcplus_assoc|now rewrite Qcplus_0_l].
Qed.

(** ** [np_min] and scaling. *)
Lemma cmin_scale q a b : (0 < q)%Qc -> cmin (cscale q a) (cscale q b) = cscale q (cmin a b).
Proof.
  intros Hq. unfold cmin. replace (cltb (cscale q b) (cscale q a)) with (cltb b a).
  - destruct (cltb b a); reflexivity.
  - destruct a as [x| |], b as [y| |]; rewrite ?(cscale_inf q Hq); try reflexivity.
    cbn [cscale cltb]. unfold qc_ltb.
    destruct (Qclt_le_dec y x) as [H|H], (Qclt_le_dec (y * q) (x * q)) as [H'|H']; auto; exfalso.
    + apply Qcle_not_lt in H'. apply H'. now apply Qcmult_lt_compat_r.
    + apply Qclt_not_le in H'. apply H'. apply Qcmult_le_compat_r; auto. now apply Qclt_le_weak.
Qed.
Lemma np_min_scale q l m : (0 < q)%Qc -> np_min l = Ok m -> np_min (map (cscale q) l) = Ok (cscale q m).
Proof.
  intros Hq. destruct l as [|x l]; [discriminate|]. cbn [np_min map]. intros [= <-]. f_equal.
  revert x. induction l as [|y l IH]; intros x; cbn [map fold_left]; auto.
  rewrite cmin_scale by auto. apply IH.
Qed.
Lemma np_min_values l : l <> [] -> (forall i, i < length l -> get l i <> NaN) ->
  exists m, np_min l = Ok m /\ m <> NaN /\ (forall i, i < length l -> cle m (get l i)) /\
    exists i, i < length l /\ get l i = m.
Proof.
  intros Hl Hn. destruct (np_min_spec (fun i c => c = get l i) l Hl) as [m [E [N [L A]]]].
  { intros i Hi. unfold least; splits; auto. intros x ->. apply cle_refl; auto. }
  exists m. splits; auto.
  - intros i Hi. apply L. exists i. auto.
  - destruct A as [[i [Hi E']]|E']; [eauto|]. subst m.
    (* the minimum is infinite: every element is *)
    exists 0. destruct l as [|x l']; [congruence|]. split; [simpl; lia|].
    assert (Hle : cle Inf (get (x :: l') 0)) by (apply L; exists 0; split; [simpl; lia|auto]).
    destruct (get (x :: l') 0); simpl in Hle; tauto.
Qed.

(** ** Distributing a value proportionally. *)
Lemma distribute n (part : nat -> bool) (w : nat -> Qc) m W :
  over n (fun j => if part j then Fin (m * (w j / W)) else Fin 0)%Qc =
  Fin (m * ((qsum (map (fun j => if part j then w j else 0) (seq 0 n))) / W))%Qc.
Proof.
  assert (Hs : forall l x, qsum (l ++ [x]) = (qsum l + x)%Qc).
  { induction l as [|y l IH]; intros x; simpl; [now rewrite Qcplus_comm|].
    rewrite IH. apply Qcplus_assoc. }
  induction n as [|n IH].
  - unfold over, qsum. cbn. f_equal. unfold Qcdiv. ring.
  - rewrite over_S, IH, seq_S, map_app. cbn [map plus]. rewrite Hs.
    destruct (part n); cbn [cadd]; f_equal; unfold Qcdiv; ring.
Qed.
