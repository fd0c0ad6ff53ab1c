(** Sequences of solver operations on a system, and the rounds of a sweep. *)

From Coq Require Import List Bool Arith Lia ZArith QArith Qcanon.
From Verif Require Import Base Graph PackedDag PackedDagProofs PackedTables Convert DualSolver DualSpec DualLists
  DualPaths DualOps DualInvariant DualSweeps DualUpdates DualGreedy DualCommit DualApi.
Import ListNotations.
Close Scope Qc_scope. Close Scope Q_scope. Open Scope nat_scope.

Lemma updated_alike s s' f ex : updated s s' f ex -> alike s s'.
Proof. intros U. destruct U. unfold alike. splits; auto. Qed.
Lemma repriced_alike s s' : repriced s s' -> alike s s'.
Proof. intros [f U]. eapply updated_alike; eauto. Qed.
Lemma forbids_alike s s' F : forbids s s' F -> alike s s'.
Proof. intros P. destruct P. unfold alike. splits; auto. Qed.

(** [break_symmetry_randomly]. *)
Lemma break_symmetry_spec s noise : sys_ok s ->
  (forall v, v < num_keys s -> length (noise v) = num_values s /\ no_nans (noise v)) ->
  exists s', break_symmetry s noise = Ok s' /\ sys_ok s' /\ alike s s' /\
    (nearly_conserved s -> nearly_conserved s') /\
    forall x ps, solution s x ps ->
      solution_cost s' x ps = cadd (solution_cost s x ps) (over (num_keys s) (fun v => nth (nth v x 0) (noise v) NaN)).
Proof.
  intros O Hn. unfold break_symmetry, over.
  assert (G : forall vs s0, sys_ok s0 -> alike s s0 -> (forall v, In v vs -> v < num_keys s) ->
    exists s', foldM (fun s v => add_unary s v (noise v)) vs s0 = Ok s' /\ sys_ok s' /\ alike s0 s' /\
    (nearly_conserved s0 -> nearly_conserved s') /\
    forall x ps, solution s0 x ps ->
      solution_cost s' x ps = cadd (solution_cost s0 x ps) (csum (map (fun v => nth (nth v x 0) (noise v) NaN) vs))).
  { induction vs as [|v vs IH]; intros s0 O0 A Hvs; cbn [foldM].
    - exists s0. splits; auto; [apply alike_refl|]. intros. cbn. now rewrite cadd_0_r.
    - assert (Hv : v < num_keys s) by (apply Hvs; simpl; auto). pose proof A as [A1 [A2 _]].
      destruct (Hn v Hv) as [L N].
      destruct (add_unary_spec s0 v (noise v) O0) as [s1 [E1 [O1 [C1 NC1]]]]; auto; [lia|lia|].
      rewrite E1. cbn [bind]. pose proof (charged_shape _ _ _ _ C1) as A01.
      destruct (IH s1 O1) as [s' [E' [O' [A' [NC' Hc]]]]].
      { eapply alike_trans; [exact A|exact A01]. } { intros; apply Hvs; simpl; auto. }
      exists s'. splits; auto; [eapply alike_trans; [exact A01|exact A']|].
      intros x ps HS. rewrite Hc by (apply (alike_solution s0 s1 x ps A01); auto).
      rewrite (charged_cost s0 s1 v (noise v) x ps O0) by (auto; lia).
      rewrite <- cadd_assoc. f_equal. }
  apply G; auto; [apply alike_refl|]. intros v Hv. apply in_seq in Hv. lia.
Qed.

(** ** Sequences of operations. *)
Inductive operation {Ky Vl : Type} :=
| Average (v : nat)
| Sweep (fuel : nat) (clock : nat -> bool) (tolerance : Qc)
| BreakSymmetry (noise : nat -> list cost)
| Constrain (constraints : list (Ky * Vl)) (penalty : cost)
| Commit (dir : direction) (threshold : option cost) (strictness epsilon : Qc).
Arguments operation : clear implicits.

Section Operations.
  Context {St Ky Vl In : Type} `{EqDec St} `{EqDec Ky} `{EqDec Vl}.
  Notation system := (@system St Ky Vl In).

  Definition with_data (sy : system) (s : sysdata) : system :=
    mkSystem s (sys_keys sy) (sys_values sy) (conversion_data sy).

  (** One call that returns normally. *)
  Inductive call (sy : system) : operation Ky Vl -> system -> Prop :=
  | call_average v c s' : min_marginal_average (data sy) v = Ok (c, s') -> call sy (Average v) (with_data sy s')
  | call_sweep fuel clock tol res s' :
      solve_system_with_sweeps fuel clock tol (data sy) = Some (Ok (res, s')) ->
      call sy (Sweep fuel clock tol) (with_data sy s')
  | call_symmetry noise s' : break_symmetry (data sy) noise = Ok s' -> call sy (BreakSymmetry noise) (with_data sy s')
  | call_constrain cs penalty sy' : constrain_system sy cs penalty = Ok sy' -> call sy (Constrain cs penalty) sy'
  | call_commit dir t st ep status s' :
      partially_commit (data sy) dir t st ep = Ok (status, s') ->
      call sy (Commit dir t st ep) (with_data sy s').

  (** Sensible arguments: no not-a-number costs, noise vectors of the right
      length, a non-negative strictness. *)
  Definition sensible (sy : system) (o : operation Ky Vl) : Prop :=
    match o with
    | Average _ | Sweep _ _ _ => True
    | BreakSymmetry noise =>
        forall v, v < num_keys (data sy) -> length (noise v) = num_values (data sy) /\ no_nans (noise v)
    | Constrain _ penalty => penalty <> NaN
    | Commit _ _ strictness _ => (0 <= strictness)%Qc /\ 0 < num_keys (data sy)
    end.

  Lemma average_bound s v r : sys_ok s -> min_marginal_average s v = Ok r -> v < num_keys s.
  Proof.
    intros O E. unfold min_marginal_average in E. apply bind_ok_inv in E as [ps [E _]]. unfold participants in E.
    apply bind_ok_inv in E as [row [E _]]. destruct (nth_error (imap s) v) eqn:En; [|discriminate].
    rewrite <- (so_imap s O). apply nth_error_Some. congruence.
  Qed.
  Lemma with_data_ok sy s' : system_ok sy -> sys_ok s' -> alike (data sy) s' -> system_ok (with_data sy s').
  Proof.
    intros O O' [A1 [A2 _]]. constructor; cbn [with_data data sys_keys sys_values]; auto;
      rewrite ?A1, ?A2; apply O.
  Qed.

  Definition variant (sy sy' : system) : Prop :=
    alike (data sy) (data sy') /\ sys_keys sy' = sys_keys sy /\ sys_values sy' = sys_values sy /\
    conversion_data sy' = conversion_data sy.
  Lemma variant_refl sy : variant sy sy.
  Proof. split; [apply alike_refl|auto]. Qed.
  Lemma variant_trans a b c : variant a b -> variant b c -> variant a c.
  Proof.
    intros [A1 [A2 [A3 A4]]] [B1 [B2 [B3 B4]]]. split; [eapply alike_trans; eauto|]. splits; congruence.
  Qed.

  Lemma call_keeps sy o sy' : system_ok sy -> nearly_conserved (data sy) -> sensible sy o -> call sy o sy' ->
    system_ok sy' /\ nearly_conserved (data sy') /\ variant sy sy'.
  Proof.
    intros O NC Hs Hc. pose proof (sk_ok _ O) as OD.
    destruct Hc as [v c s' E|fuel clock tol res s' E|noise s' E|cs penalty sy' E|dir t st ep status s' E].
    - pose proof (average_bound _ _ _ OD E) as Hv.
      destruct (average_step (data sy) v OD NC Hv) as [b [s1 [E1 [O1 [NC1 [_ [_ [f U]]]]]]]].
      assert (s1 = s') by congruence. subst s1. pose proof (updated_alike _ _ _ _ U) as A.
      splits; auto; [now apply with_data_ok|]. split; [exact A|auto].
    - destruct (solve_spec (data sy) clock tol fuel _ OD NC E) as [res' [s1 [E1 [_ [A _]]]]].
      assert (s1 = s') by congruence. subst s1. destruct (dual_exists (data sy) OD) as [b D].
      destruct (averaging_facts _ _ _ _ b OD NC D A) as [O1 [NC1 [R _]]]. apply repriced_alike in R.
      splits; auto; [now apply with_data_ok|]. split; [exact R|auto].
    - destruct (break_symmetry_spec (data sy) noise OD Hs) as [s1 [E1 [O1 [A [NC1 _]]]]].
      assert (s1 = s') by congruence. subst s1.
      splits; [now apply with_data_ok|now apply NC1|]. split; [exact A|auto].
    - destruct (Forall_Exists_dec (known sy)) with (l := cs) as [Hk|Hk].
      { intros [k v]. unfold known. cbn [fst snd].
        destruct (in_dec eq_dec k (sys_keys sy)); [|right; tauto].
        destruct (in_dec eq_dec v (sys_values sy)); [left|right]; tauto. }
      + destruct (constrain_system_spec cs penalty Hs sy O Hk) as [sy1 [E1 [O1 [A [K [V [C [NC1 _]]]]]]]].
        assert (sy1 = sy') by congruence. subst sy1. splits; auto. split; auto.
      + rewrite (constrain_system_unknown cs penalty Hs sy O) in E; [discriminate|].
        intros HF. apply Exists_exists in Hk as [kv [Hi Hnk]]. rewrite Forall_forall in HF. apply Hnk, HF, Hi.
    - destruct Hs as [H2 H3].
      destruct (partially_commit_spec (data sy) dir t st ep OD NC H3 H2) as
        [status1 [s1 [bound [gap [F [E1 [_ [_ [C _]]]]]]]]].
      assert (s1 = s') by congruence. subst s1. pose proof (cm_forbids _ _ _ _ _ C) as P.
      pose proof (forbids_alike _ _ _ P) as A.
      splits; [apply with_data_ok; auto; apply (fb_ok _ _ _ P)|apply (cm_nearly _ _ _ _ _ C)|]. split; [exact A|auto].
  Qed.

  (** A history of calls. *)
  Inductive history : system -> list (operation Ky Vl) -> system -> Prop :=
  | history_nil sy : history sy [] sy
  | history_cons sy o sy1 os sy' : sensible sy o -> call sy o sy1 -> history sy1 os sy' -> history sy (o :: os) sy'.

  Theorem history_keeps sy os sy' : system_ok sy -> nearly_conserved (data sy) -> history sy os sy' ->
    system_ok sy' /\ nearly_conserved (data sy') /\ variant sy sy'.
  Proof.
    intros O NC Hh. induction Hh as [sy|sy o sy1 os sy' Hs Hc Hh IH].
    - splits; auto. apply variant_refl.
    - destruct (call_keeps sy o sy1 O NC Hs Hc) as [O1 [NC1 V1]].
      destruct (IH O1 NC1) as [O2 [NC2 V2]]. splits; auto. eapply variant_trans; eauto.
  Qed.
End Operations.

(** ** The rounds of the sweep solver, when the clock never runs out. *)
Definition round_trip (n : nat) : list nat := seq 0 (n - 1) ++ rev (seq 1 (n - 1)).
Lemma full_round n k : sweep_list (performed (fun _ => false) k [FORWARD; REVERSE]) n = round_trip n.
Proof. unfold sweep_list, performed, round_trip. cbn. now rewrite app_nil_r. Qed.

(** The objectives of consecutive rounds: in every round but the last some step
    improves the objective by more than the tolerance, in the last none does. *)
Fixpoint plateau (tol : Qc) (last : option cost) (blocks : list (list cost)) : Prop :=
  match blocks with
  | [] => False
  | [cs] => forall i, ~ improves tol last cs i
  | cs :: rest => (exists i, improves tol last cs i) /\
                  plateau tol (match rev cs with [] => last | c :: _ => Some c end) rest
  end.
Lemma rounds_plateau tol n k last vs cs : rounds (fun _ => false) tol n k last vs cs ->
  exists blocks, cs = concat blocks /\ vs = concat (repeat (round_trip n) (length blocks)) /\
    Forall (fun b => length b = length (round_trip n)) blocks /\ plateau tol last blocks.
Proof.
  induction 1 as [k last cs vs Ev El Hn|k last vs cs vs' cs' Ev El He Hr IH].
  - exists [cs]. cbn. rewrite !app_nil_r. rewrite full_round in Ev. subst vs. splits; auto.
  - destruct IH as [blocks [E1 [E2 [E3 E4]]]]. rewrite full_round in Ev. subst vs.
    exists (cs :: blocks). cbn [concat length repeat]. splits; auto.
    + now rewrite E1.
    + now rewrite E2.
    + destruct blocks as [|b bs]; [contradiction E4|]. split; auto.
Qed.

(** The first round always counts as an improvement, so there is a second one,
    whatever the clock says. *)
Lemma rounds_two clock tol n k vs cs : 2 <= n -> Forall (fun c => c <> NaN) cs ->
  rounds clock tol n k None vs cs -> 2 * (n - 1) <= length vs.
Proof.
  intros Hn Hc Hr.
  assert (Hlen : forall k, n - 1 <= length (sweep_list (performed clock k [FORWARD; REVERSE]) n)).
  { intros k'. unfold sweep_list. cbn [performed]. destruct (clock k'); cbn [flat_map sweep_variables];
      rewrite ?app_length, ?seq_length; lia. }
  inversion Hr as [k0 l0 cs0 vs0 Ev El Hno|k0 l0 vs0 cs0 vs' cs' Ev El He Hr' E1 E2]; subst.
  - exfalso. specialize (Hlen k). rewrite <- El in Hlen. destruct cs as [|c cs]; [simpl in Hlen; lia|].
    apply (Hno 0). unfold improves. cbn. inversion Hc; subst. destruct c; [reflexivity|reflexivity|congruence].
  - rewrite app_length. specialize (Hlen k) as H1.
    assert (H2 : n - 1 <= length vs').
    { inversion Hr' as [? ? ? ? Ev' _ _|? ? ? ? ? ? Ev' _ _ _]; subst; rewrite ?app_length; eauto.
      etransitivity; [apply Hlen|]. apply Nat.le_add_r. }
    lia.
Qed.
