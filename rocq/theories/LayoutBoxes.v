(** The boxes of states and the lines of edges. *)

From Coq Require Import String.
From Coq Require Import List Bool Arith ZArith Lia QArith Qcanon Lqa.
From Verif Require Import Base SeqNodes Graph GatedDag PackedSeq PackedSeqProofs Numbered Decisions Html ConstraintDag EditDag SelectionDag
  Drawing DrawSpec Layouts LayoutSpec LayoutProofs LayoutFrames LayoutEdges.
Import ListNotations.
Close Scope string_scope. Close Scope Qc_scope. Close Scope Q_scope. Close Scope Z_scope. Open Scope nat_scope. Open Scope list_scope.

Definition unit_interval (q : Qc) : Prop := (0 <= q /\ q <= 1)%Qc.
Lemma scaled t y : unit_interval t -> (0 <= y)%Qc -> (0 <= t * y /\ t * y <= y)%Qc.
Proof.
  intros [T0 T1] Y. split.
  - replace 0%Qc with (0 * y)%Qc by ring. now apply Qcmult_le_compat_r.
  - replace y with (1 * y)%Qc at 2 by ring. now apply Qcmult_le_compat_r.
Qed.
Lemma flows_right dx dy n src dst : e_axis n = Horizontal -> left_of dx src dst -> (0 <= dx)%Qc ->
  (0 <= b_width src /\ 0 <= b_height src /\ 0 <= b_width dst /\ 0 <= b_height dst)%Qc ->
  unit_interval (start_alignment n) -> unit_interval (end_alignment n) ->
  unit_interval (elbow_distance n) /\ elbow_distance_adjust n = 0%Qc \/
  elbow_distance n = 0%Qc /\ (0 <= elbow_distance_adjust n /\ elbow_distance_adjust n <= dx)%Qc ->
  flows dx dy n src dst.
Proof.
  intros A L D (W1 & H1 & W2 & H2) S E B. split; [now left|]. intros p0 p1 p2 p3 dt tx dir C. unfold connects in C. rewrite A in *.
  destruct C as (C1 & C2 & C3 & C4 & C5 & C6 & C7 & C8 & _). unfold left_of in L.
  destruct (scaled _ _ S H1) as [S1 S2]. destruct (scaled _ _ E H2) as [E1 E2]. unfold in_box.
  remember (start_alignment n * b_height src)%Qc as u. remember (end_alignment n * b_height dst)%Qc as v.
  assert (G : (px p0 <= px p1 /\ px p1 <= px p3)%Qc).
  { destruct B as [[B1 B2]|[B1 B2]].
    - destruct (scaled _ (px p3 - px p0)%Qc B1) as [G1 G2]; [rewrite C1, C3; qc_lra|]. rewrite B2 in C7.
      remember (elbow_distance n * (px p3 - px p0))%Qc as w. clear - C7 G1 G2. split; qc_lra.
    - rewrite B1 in C7. replace (0 * (px p3 - px p0))%Qc with 0%Qc in C7 by ring. destruct B2. split; qc_lra. }
  splits; try congruence; try (destruct G; qc_lra).
Qed.
Lemma flows_down dx dy n src dst : e_axis n = Vertical -> b_left src = b_left dst -> b_width src = b_width dst -> above dy src dst -> (0 <= dy)%Qc ->
  (0 <= b_width src /\ 0 <= b_height src /\ 0 <= b_height dst)%Qc ->
  unit_interval (start_alignment n) -> end_alignment n = start_alignment n ->
  elbow_distance n = 0%Qc -> (0 <= elbow_distance_adjust n /\ elbow_distance_adjust n <= dy)%Qc ->
  flows dx dy n src dst.
Proof.
  intros A L W Ab D (W1 & H1 & H2) S E B1 B2. split; [right; splits; auto|]. intros p0 p1 p2 p3 dt tx dir C. unfold connects in C. rewrite A in *.
  destruct C as (C1 & C2 & C3 & C4 & C5 & C6 & C7 & C8 & _). unfold above in Ab. rewrite E, <- W, <- L in C4.
  destruct (scaled _ _ S W1) as [S1 S2]. unfold in_box. rewrite <- W, <- L.
  remember (start_alignment n * b_width src)%Qc as u. rewrite B1 in C7. replace (0 * (py p3 - py p0))%Qc with 0%Qc in C7 by ring. destruct B2.
  splits; try congruence; try qc_lra.
Qed.

(** Enough room: what the default sizes have. *)
Definition roomy (z : sizes) : Prop :=
  (0 < state_width z /\ 0 < state_height z /\ 0 < gap_horizontal z /\ 0 < state_separation z /\ state_separation z <= gap_vertical z)%Qc.
Lemma of_nat_plus a b : of_nat (a + b) = (of_nat a + of_nat b)%Qc.
Proof. unfold of_nat. apply Qc_is_canon. unfold Qcplus. cbn [this Q2Qc]. rewrite !Qred_correct. rewrite Nat2Z.inj_add, inject_Z_plus. reflexivity. Qed.
Lemma of_nat_nonneg n : (0 <= of_nat n)%Qc.
Proof.
  unfold of_nat, Qcle. cbn [this Q2Qc]. rewrite Qred_correct. rewrite ?Qred_correct. unfold Qle, inject_Z. cbn [Qnum Qden]. lia.
Qed.
Lemma of_nat_1 : of_nat 1 = 1%Qc.
Proof. apply Qc_is_canon. reflexivity. Qed.
Lemma row_alignment_unit r n : r < n -> unit_interval (row_alignment r n).
Proof.
  intros H. unfold row_alignment.
  assert (P : (0 < of_nat (n + 1))%Qc).
  { rewrite of_nat_plus, of_nat_1. pose proof (of_nat_nonneg n). qc_lra. }
  assert (Q1 : (of_nat (r + 1) <= of_nat (n + 1))%Qc).
  { replace (n + 1) with (r + 1 + (n - r)) by lia. rewrite (of_nat_plus (r + 1)). pose proof (of_nat_nonneg (n - r)). qc_lra. }
  assert (I : (of_nat (r + 1) / of_nat (n + 1) * of_nat (n + 1) = of_nat (r + 1))%Qc).
  { field. intros C. rewrite C in P. now apply Qclt_not_eq in P. }
  split.
  - apply Qcmult_lt_0_le_reg_r with (of_nat (n + 1)); auto. rewrite I. replace (0 * of_nat (n + 1))%Qc with 0%Qc by ring. apply of_nat_nonneg.
  - apply Qcmult_lt_0_le_reg_r with (of_nat (n + 1)); auto. rewrite I. replace (1 * of_nat (n + 1))%Qc with (of_nat (n + 1)) by ring. exact Q1.
Qed.
Lemma boundary l t r b : b_left (from_boundary l t r b) = l /\ b_top (from_boundary l t r b) = t /\
  b_width (from_boundary l t r b) = (r - l)%Qc /\ b_height (from_boundary l t r b) = (b - t)%Qc.
Proof. splits; reflexivity. Qed.
