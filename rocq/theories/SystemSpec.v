(** What a combined suggestion is worth: decisions, the costs they lead to on each
    target, and their weighted total.  Nothing here mentions DAGs, systems or the
    solver.

    [rel k ds] says that the decisions [ds] can be had at cost [k]. *)

From Coq Require Import List Bool Arith ZArith QArith Qcanon.
From Verif Require Import Base PackedSeq Decisions.
Import ListNotations.
Close Scope Qc_scope. Close Scope Q_scope. Close Scope Z_scope. Open Scope nat_scope.

(** The value given to a key; "not applicable" if it is left out. *)
Definition decided (ds : list decision) (k : dkey) : dvalue := match assoc k ds with Some v => v | None => DNA end.
(** Two lists of decisions say the same about every key. *)
Definition same_decisions (asg ds : list decision) : Prop := forall k, decided asg k = decided ds k.
(** [k] is the least cost at which decisions like [asg] can be had. *)
Definition least_cost (rel : Qc -> list decision -> Prop) (asg : list decision) (k : Qc) : Prop :=
  (exists ds, rel k ds /\ same_decisions asg ds) /\
  forall k' ds', rel k' ds' -> same_decisions asg ds' -> (k <= k')%Qc.
(** Costs weighted by their factors. *)
Definition weighted (factors costs : list Qc) : Qc :=
  fold_right (fun fk s => (snd fk * fst fk + s)%Qc) 0%Qc (combine factors costs).

(** How many of the wanted decisions [ds] does not make. *)
Definition unmet (ds wanted : list decision) : nat :=
  length (filter (fun kv => negb (eqb (decided ds (fst kv)) (snd kv))) wanted).

(** The decisions there are to take about a tree: one for every node but the
    decorations. *)
Fixpoint asked {M} (x : lnode M) : list dkey :=
  match x with
  | LDeco _ _ => []
  | LToken i _ _ => [(pre i, NodeInRegion)]
  | LGroup i cs _ => (pre i, NodeInRegion) :: flat_map asked cs
  | LStart i => [(pre i, RegionShouldStart)]
  | LEnd i => [(pre i, RegionShouldEnd)]
  | LExit i => [(pre i, ShouldEarlyExit)]
  end.
Definition questions {M} (tree : list (lnode M)) : list dkey := flat_map asked tree.

(** The mean of costs. *)
Definition average (costs : list Qc) : Qc := (fold_right Qcplus 0 costs / Q2Qc (inject_Z (Z.of_nat (length costs))))%Qc.
(** The sample variance of at least two costs. *)
Definition sample_variance (costs : list Qc) : Qc :=
  (fold_right Qcplus 0 (map (fun k => (k - average costs) * (k - average costs)) costs) / (Q2Qc (inject_Z (Z.of_nat (length costs))) - 1))%Qc.
