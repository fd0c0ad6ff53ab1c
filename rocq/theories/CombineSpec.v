(** What is expected of combined suggestions: indexing, parsing, and annotated
    text.  Nothing here mentions DAGs, systems or the solver. *)

From Coq Require Import List Bool Arith ZArith.
From Verif Require Import Base SeqNodes Transforms.
Import ListNotations.
Close Scope Z_scope. Open Scope nat_scope.

(** [index] designates [x] in [l], counting from the end if it is negative. *)
Definition designates {A} (l : list A) (index : Z) (x : A) : Prop :=
  exists j, nth_error l j = Some x /\ (index = Z.of_nat j \/ index = (Z.of_nat j - Z.of_nat (length l))%Z).
(** [parse] reads [t] as the tree [ns], which spells [t] and has no decision
    nodes. *)
Definition reads {M} (parse : text -> result (list (node M))) (t : text) (ns : list (node M)) : Prop :=
  parse t = Ok ns /\ render ns = t /\ no_decisions ns.
(** The characters of annotated parts, each with its annotation. *)
Definition annotated (parts : list (text * bool)) : list (nat * bool) :=
  flat_map (fun p => map (fun c => (c, snd p)) (fst p)) parts.
(** Neighbouring parts have different annotations. *)
Fixpoint alternating (parts : list (text * bool)) : Prop :=
  match parts with
  | p :: ((q :: _) as rest) => snd p <> snd q /\ alternating rest
  | _ => True
  end.
