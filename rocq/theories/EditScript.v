(** Edit scripts with the phases in which the edit DAG goes through them: what
    every step costs, decides and reports. *)

From Coq Require Import List Bool Arith ZArith Lia QArith Qcanon.
From Verif Require Import Base Graph SeqNodes PackedSeq Numbered Decisions EditDag.
Import ListNotations.
Close Scope Qc_scope. Close Scope Q_scope. Close Scope Z_scope. Open Scope nat_scope.

Section Script.
  Context {M : Type} (P : parameters).
  Notation L := (lnode M).

  (** What a step costs, decides and reports. *)
  Definition effect : Type := (cost * option decision) * option einfo.
  Definition silent : effect := (Fin 0, None, None).
  Definition deciding (p : node_id) (k : dcategory) (v : dvalue) : effect := (Fin 0, Some ((pre p, k), v), None).
  Definition entering (p : node_id) (c : conf) : effect := deciding p NodeInRegion (in_low c).
  Definition deleting (p : node_id) (t : text) (c : conf) : effect :=
    (Fin (delete_cost P c t), Some ((pre p, NodeInRegion), in_low c), Some (mkInfo (Some (pre p)) None Delete (Some c))).
  Definition inserting (p : node_id) (t : text) : effect :=
    (Fin (per_char (insert_per_char P) t), None, Some (mkInfo None (Some (pre p)) Insert None)).
  Definition keeping (p p' : node_id) (t : text) (c : conf) : effect :=
    (Fin (- match_utility P c t)%Qc, Some ((pre p, NodeInRegion), in_low c),
     Some (mkInfo (Some (pre p)) (Some (pre p')) Keep (Some c))).
  Definition decorating (p : node_id) (c : conf) : effect :=
    (Fin 0, None, Some (mkInfo None (Some (pre p)) TargetDecoration (Some c))).
  Definition beginning (c : conf) : effect :=
    (Fin (start_cost P c), None, Some (mkInfo None None StartEditing (Some c))).
  Definition leaving (p : node_id) (c : conf) : effect :=
    (Fin 0, Some ((pre p, ShouldEarlyExit), DTrue), Some (mkInfo (Some (pre p)) None ActEarlyExit (Some c))).

  (** Passing a node of the prototype that is neither a token nor a group. *)
  Inductive quiet : conf -> L -> effect -> conf -> Prop :=
  | q_deco c p t : quiet c (LDeco p t)
      (Fin 0, None, Some (mkInfo (Some (pre p)) None PrototypeDecoration (Some c))) c
  | q_no_start p : quiet High (LStart p) (deciding p RegionShouldStart DFalse) High
  | q_start p : quiet High (LStart p)
      (Fin (region_cost P), Some ((pre p, RegionShouldStart), DTrue),
       Some (mkInfo (Some (pre p)) None StartLowConfidence None)) Low
  | q_start_in p : quiet Low (LStart p) (deciding p RegionShouldStart DNA) Low
  | q_no_end p : quiet Low (LEnd p) (deciding p RegionShouldEnd DFalse) Low
  | q_end p : quiet Low (LEnd p) (deciding p RegionShouldEnd DTrue) High
  | q_end_out p : quiet High (LEnd p) (deciding p RegionShouldEnd DNA) High
  | q_no_exit c p : quiet c (LExit p) (deciding p ShouldEarlyExit DFalse) c.
  (** Deleting a list of nodes; [None] if a decision to exit early cuts it short. *)
  Inductive dels : conf -> list L -> list effect -> option conf -> Prop :=
  | d_nil c : dels c [] [] (Some c)
  | d_quiet c x e c' l tr r : quiet c x e c' -> dels c' l tr r -> dels c (x :: l) (e :: tr) r
  | d_exit c p l : dels c (LExit p :: l) [leaving p c] None
  | d_token c p t m l tr r : dels c l tr r -> dels c (LToken p t m :: l) (deleting p t c :: tr) r
  | d_group c p cs m l tr c' tr' r : dels c cs tr (Some c') -> dels c' l tr' r ->
      dels c (LGroup p cs m :: l) (entering p c :: tr ++ silent :: tr') r
  | d_group_exit c p cs m l tr : dels c cs tr None -> dels c (LGroup p cs m :: l) (entering p c :: tr) None.
  (** Inserting a list of nodes. *)
  Inductive inserts : conf -> list L -> list effect -> Prop :=
  | i_nil c : inserts c [] []
  | i_deco c p t l tr : inserts c l tr -> inserts c (LDeco p t :: l) (decorating p c :: tr)
  | i_token c p t m l tr : inserts c l tr -> inserts c (LToken p t m :: l) (inserting p t :: tr)
  | i_group c p ds m l tr tr' : inserts c ds tr -> inserts c l tr' ->
      inserts c (LGroup p ds m :: l) (silent :: tr ++ silent :: tr').

  (** Editing one list into another, phase by phase. *)
  Inductive sc : align -> conf -> list L -> list L -> list effect -> option conf -> Prop :=
  | sc_end c : sc MATCH c [] [] [] (Some c)
  | sc_quiet a c x e c' ps ts tr r : a = PROCESS \/ a = DELETE -> quiet c x e c' -> sc a c' ps ts tr r ->
      sc a c (x :: ps) ts (e :: tr) r
  | sc_exit a c p ps ts : a = PROCESS \/ a = DELETE -> sc a c (LExit p :: ps) ts [leaving p c] None
  | sc_begin c ps ts tr r : sc DELETE c ps ts tr r -> sc PROCESS c ps ts (beginning c :: tr) r
  | sc_ready c ps ts tr r : sc MATCH c ps ts tr r -> sc PROCESS c ps ts (silent :: tr) r
  | sc_delete c p t m ps ts tr r : sc DELETE c ps ts tr r ->
      sc DELETE c (LToken p t m :: ps) ts (deleting p t c :: tr) r
  | sc_delete_group c p cs m ps ts tr c' tr' r : dels c cs tr (Some c') -> sc DELETE c' ps ts tr' r ->
      sc DELETE c (LGroup p cs m :: ps) ts (entering p c :: tr ++ silent :: tr') r
  | sc_delete_exit c p cs m ps ts tr : dels c cs tr None ->
      sc DELETE c (LGroup p cs m :: ps) ts (entering p c :: tr) None
  | sc_deleted c ps ts tr r : sc INSERT c ps ts tr r -> sc DELETE c ps ts (silent :: tr) r
  | sc_skip a c ps p t ts tr r : a = INSERT \/ a = MATCH -> sc a c ps ts tr r ->
      sc a c ps (LDeco p t :: ts) (decorating p c :: tr) r
  | sc_insert c ps p t m ts tr r : sc INSERT c ps ts tr r ->
      sc INSERT c ps (LToken p t m :: ts) (inserting p t :: tr) r
  | sc_insert_group c ps p ds m ts tr tr' r : inserts c ds tr -> sc INSERT c ps ts tr' r ->
      sc INSERT c ps (LGroup p ds m :: ts) (silent :: tr ++ silent :: tr') r
  | sc_inserted c ps ts tr r : sc MATCH c ps ts tr r -> sc INSERT c ps ts (silent :: tr) r
  | sc_keep c p p' t m ps ts tr r : sc PROCESS c ps ts tr r ->
      sc MATCH c (LToken p t m :: ps) (LToken p' t m :: ts) (keeping p p' t c :: tr) r
  | sc_match c p cs p' ds m ps ts tr c' tr' r : sc PROCESS c cs ds tr (Some c') -> sc PROCESS c' ps ts tr' r ->
      sc MATCH c (LGroup p cs m :: ps) (LGroup p' ds m :: ts) (entering p c :: tr ++ silent :: tr') r
  | sc_match_exit c p cs p' ds m ps ts tr : sc PROCESS c cs ds tr None ->
      sc MATCH c (LGroup p cs m :: ps) (LGroup p' ds m :: ts) (entering p c :: tr) None.

  (** What an edge costs, decides and reports. *)
  Definition effect_of (e : eedge) : effect := (ecost e, assignment e, info e).
  Definition effects (p : list eedge) : list effect := map effect_of p.
End Script.
