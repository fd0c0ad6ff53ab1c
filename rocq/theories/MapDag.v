(** Packing does not depend on how states are named, on the edges' metadata, or
    on costs other than which are infinite: renaming the states of a DAG
    injectively, mapping its metadata and its costs, and then packing gives the
    packed DAG of the original with its costs mapped. *)

From Coq Require Import List Bool Arith Lia ZArith QArith Qcanon.
From Verif Require Import Base Graph PackedDag Convert.
Import ListNotations.
Close Scope Qc_scope. Close Scope Q_scope. Open Scope nat_scope.

Definition rmap {A B} (f : A -> B) (r : result A) : result B := match r with Ok a => Ok (f a) | Err e => Err e end.
Definition map_edge {St St' As In In'} (fs : St -> St') (fc : cost -> cost) (fi : In -> In') (e : edge St As In)
  : edge St' As In' := mkEdge (fs (source e)) (fs (dest e)) (fc (ecost e)) (assignment e) (fi (info e)).
Definition map_dag {St St' As In In'} (fs : St -> St') (fc : cost -> cost) (fi : In -> In') (d : dag St As In)
  : dag St' As In' := mkDag (fs (initial_state d)) (map (map_edge fs fc fi) (edges d)) (fs (final_state d)).
Definition map_costs (fc : cost -> cost) (d : pdag) : pdag :=
  mkPdag (n_states d) (n_keys d) (n_values d) (map (map_edge (fun s => s) fc (fun i => i)) (pedges d)) (egb d) (svb d).
Definition map_tag {St St' : Type} (fs : St -> St') (s : St * Z) : St' * Z := (fs (fst s), snd s).
Definition map_conversion {St St' Ky Vl In In'} (fs : St -> St') (fc : cost -> cost) (fi : In -> In')
    (c : @conversion St Ky Vl In) : @conversion St' Ky Vl In' :=
  mkConversion (variable_keys c) (variable_values c) (map fs (original_states c))
    (map (map_edge fs fc fi) (original_edges c)) (map (map_tag fs) (tagged_states c))
    (map (map_edge (map_tag fs) fc (fun i => i)) (tagged_edges c)) (outgoing_indices c).

(** ** Lists. *)
Lemma mapM_map {A A' B B'} (f : A -> result B) (f' : A' -> result B') (g : A -> A') (h : B -> B') l :
  (forall x, In x l -> f' (g x) = rmap h (f x)) -> mapM f' (map g l) = rmap (map h) (mapM f l).
Proof.
  induction l as [|x l IH]; intros E; auto. cbn [map mapM]. rewrite E by (simpl; auto).
  rewrite IH by (intros; apply E; simpl; auto). destruct (f x) as [b|]; auto. cbn. destruct (mapM f l); auto.
Qed.
Lemma foldM_map {A A' B B'} (f : A -> B -> result A) (f' : A' -> B' -> result A') (g : B -> B') (h : A -> A') l :
  (forall a b, f' (h a) (g b) = rmap h (f a b)) -> forall a, foldM f' (map g l) (h a) = rmap h (foldM f l a).
Proof.
  intros E. induction l as [|x l IH]; intros a; auto. cbn [map foldM]. rewrite E. destruct (f a x); cbn; auto.
Qed.

Section Inj.
  Context {A B : Type} {da : EqDec A} {db : EqDec B} (f : A -> B) (inj : forall x y, f x = f y -> x = y).
  Lemma eqb_map x y : eqb (f x) (f y) = eqb x y.
  Proof.
    destruct (eqb x y) eqn:E.
    - apply eqb_eq in E. subst. apply eqb_refl.
    - apply eqb_neq in E. apply neq_eqb. intros C. now apply E, inj.
  Qed.
  Lemma mem_map x l : mem (f x) (map f l) = mem x l.
  Proof. induction l as [|y l IH]; auto. cbn. unfold mem in *. cbn. now rewrite eqb_map, IH. Qed.
  Lemma add_new_map l x : add_new (map f l) (f x) = map f (add_new l x).
  Proof. unfold add_new. rewrite mem_map. destruct (mem x l); auto. now rewrite map_app. Qed.
  Lemma fold_add_new_map l : forall acc, fold_left add_new (map f l) (map f acc) = map f (fold_left add_new l acc).
  Proof. induction l as [|x l IH]; intros acc; auto. cbn [map fold_left]. now rewrite add_new_map, IH. Qed.
  Lemma assoc_map {C} k (d : list (A * C)) : assoc (f k) (map (fun p => (f (fst p), snd p)) d) = assoc k d.
  Proof. induction d as [|[a c] d IH]; auto. cbn [map fst snd assoc]. rewrite eqb_map, IH. reflexivity. Qed.
  Lemma enumerate_map l : enumerate (map f l) = map (fun p => (fst p, f (snd p))) (enumerate l).
  Proof.
    unfold enumerate. rewrite map_length. generalize (seq 0 (length l)). induction l as [|x l IH]; intros [|n s]; auto.
    cbn [map combine fst snd]. now rewrite IH.
  Qed.
  Lemma index_of_map l x : index_of (map f l) (f x) = index_of l x.
  Proof.
    unfold index_of. rewrite enumerate_map, map_map. cbn [fst snd].
    rewrite <- (assoc_map x (rev _)), map_rev, map_map. reflexivity.
  Qed.
End Inj.
Lemma enumerate_map' {A B} (f : A -> B) l : enumerate (map f l) = map (fun p => (fst p, f (snd p))) (enumerate l).
Proof.
  unfold enumerate. rewrite map_length. generalize (seq 0 (length l)). induction l as [|x l IH]; intros [|n s]; auto.
  cbn [map combine fst snd]. now rewrite IH.
Qed.
Lemma map_edge_assignments {St St' As In In'} (fs : St -> St') fc (fi : In -> In') (es : list (edge St As In)) :
  path_assignments (map (map_edge fs fc fi) es) = path_assignments es.
Proof. induction es as [|e es IH]; auto. cbn [map path_assignments]. cbn [map_edge assignment]. now rewrite IH. Qed.
Lemma filter_map {A B} (f : B -> bool) (g : A -> B) l : filter f (map g l) = map g (filter (fun x => f (g x)) l).
Proof. induction l as [|x l IH]; auto. cbn [map filter]. rewrite IH. now destruct (f (g x)). Qed.

(** ** Packing. *)
Section Map.
  Context {St St' Ky Vl In In' : Type} `{EqDec St} `{EqDec St'} `{EqDec Ky} `{EqDec Vl}.
  Context (kle : Ky -> Ky -> bool) (vle : Vl -> Vl -> bool).
  Context (fs : St -> St') (inj : forall x y, fs x = fs y -> x = y) (fi : In -> In') (fc : cost -> cost).
  Context (fc_inf : forall c, fc c = Inf <-> c = Inf) (fc_zero : fc (Fin 0%Qc) = Fin 0%Qc).
  Notation me := (map_edge (As := Ky * Vl) fs fc fi).
  Notation mt := (map_edge (As := Ky * Vl) (map_tag fs) fc (fun i : option nat => i)).
  Definition map_dict (d : list (St * Z)) : list (St' * Z) := map (fun p => (fs (fst p), snd p)) d.

  Lemma map_tag_inj x y : map_tag fs x = map_tag fs y -> x = y.
  Proof. destruct x, y. unfold map_tag. cbn. intros E. injection E as E1 E2. apply inj in E1. congruence. Qed.
  Lemma source_states_map (es : list (edge St (Ky * Vl) In)) : source_states (map me es) = map fs (source_states es).
  Proof.
    unfold source_states. rewrite map_map. cbn [map_edge source].
    rewrite <- (map_map (fun e => source e) fs). change (@nil St') with (map fs []). now apply fold_add_new_map.
  Qed.
  Lemma edges_from_map (es : list (edge St (Ky * Vl) In)) s :
    edges_from (map me es) (fs s) = map (fun p => (fst p, me (snd p))) (edges_from es s).
  Proof.
    unfold edges_from. rewrite enumerate_map', filter_map. f_equal. apply filter_ext. intros [i e]. cbn [fst snd map_edge source].
    now apply eqb_map.
  Qed.
  Lemma assoc_dict s d : assoc (fs s) (map_dict d) = assoc s d.
  Proof. unfold map_dict. now apply assoc_map. Qed.
  Lemma upd_with_map g d s u : upd_with g (map_dict d) (fs s) u = map_dict (upd_with g d s u).
  Proof. unfold upd_with. rewrite assoc_dict. reflexivity. Qed.
  Lemma possible_map keys d e : possible_step keys (map_dict d) (me e) = rmap map_dict (possible_step keys d e).
  Proof.
    unfold possible_step. cbn [map_edge assignment source dest]. rewrite assoc_dict.
    destruct (match assignment e with Some (k, _) => key_index keys k | None => _ end) as [u|]; auto.
    cbn [bind rmap]. now rewrite upd_with_map.
  Qed.
  Lemma guaranteed_map keys ps d e :
    guaranteed_step keys (map_dict ps) (map_dict d) (me e) = rmap map_dict (guaranteed_step keys ps d e).
  Proof.
    unfold guaranteed_step. cbn [map_edge assignment source dest]. rewrite assoc_dict.
    destruct (match assignment e with Some (k, _) => key_index keys k | None => _ end) as [u|]; auto.
    cbn [bind rmap]. now rewrite upd_with_map.
  Qed.
  Lemma after_map keys ps d e :
    after_step keys (map_dict ps) (map_dict d) (me e) = rmap map_dict (after_step keys ps d e).
  Proof.
    unfold after_step. cbn [map_edge assignment source dest]. rewrite assoc_dict. destruct (assignment e) as [[k v]|]; auto.
    destruct (key_index keys k) as [u|]; auto. cbn [bind]. destruct (or_err KeyError (assoc (source e) ps)) as [t|]; auto.
    cbn [bind]. destruct (u <=? t)%Z; auto. cbn [rmap]. now rewrite upd_with_map.
  Qed.
  Notation mg := (fun p : nat * edge (St * Z) (Ky * Vl) (option nat) => (fst p, mt (snd p))).
  Lemma chain_map (keys : list Ky) missing s tag :
    chain_edge keys missing (fs s) tag = rmap mg (chain_edge keys missing s tag).
  Proof.
    unfold chain_edge. destruct (or_err IndexError (nth_error keys (Z.to_nat (tag + 1)))) as [k|]; auto.
    cbn [bind rmap fst snd]. unfold map_edge, map_tag. cbn [source dest ecost assignment info fst snd]. rewrite fc_zero. reflexivity.
  Qed.
  Lemma copy_map keys sources default s ie :
    copy_edge keys (map fs sources) default (fs s) (fst ie, me (snd ie)) = rmap (map mg) (copy_edge keys sources default s ie).
  Proof.
    unfold copy_edge. cbn [fst snd map_edge dest ecost assignment]. rewrite (mem_map fs inj).
    destruct (mem (dest (snd ie)) sources); cbn [negb]; auto.
    replace (eqb (fc (ecost (snd ie))) Inf) with (eqb (ecost (snd ie)) Inf).
    2:{ destruct (eqb (ecost (snd ie)) Inf) eqn:E1; symmetry.
        - apply eqb_eq in E1. rewrite (proj2 (fc_inf _) E1). apply eqb_refl.
        - apply eqb_neq in E1. apply neq_eqb. intros C. apply E1. now apply fc_inf. }
    destruct (eqb (ecost (snd ie)) Inf); auto. destruct (assignment (snd ie)) as [[k v]|]; auto.
    destruct (key_index keys k) as [i|]; auto.
  Qed.
  Lemma emit_map keys missing es sources ps gs as_ s :
    emit_state keys missing (map me es) (map fs sources) (map_dict ps) (map_dict gs) (map_dict as_) (fs s) =
    rmap (map mg) (emit_state keys missing es sources ps gs as_ s).
  Proof.
    unfold emit_state. rewrite !assoc_dict. destruct (or_err KeyError (assoc s gs)) as [sm|]; auto.
    destruct (or_err KeyError (assoc s ps)) as [df|]; auto. cbn [bind].
    set (largest := match assoc s as_ with Some a => (a - 1)%Z | None => df end).
    replace (mapM (chain_edge keys missing (fs s)) (zrange sm largest))
      with (rmap (map mg) (mapM (chain_edge keys missing s) (zrange sm largest))).
    2:{ symmetry. rewrite <- (map_id (zrange sm largest)) at 1. apply mapM_map. intros. apply chain_map. }
    rewrite edges_from_map.
    rewrite (mapM_map (copy_edge keys sources df s) (copy_edge keys (map fs sources) df (fs s)) _ (map mg))
      by (intros; apply copy_map).
    destruct (mapM (chain_edge keys missing s) (zrange sm largest)) as [ch|]; auto. cbn [rmap bind].
    destruct (mapM (copy_edge keys sources df s) (edges_from es s)) as [cp|]; auto. cbn [rmap bind].
    rewrite map_app, concat_map. reflexivity.
  Qed.
  Lemma svb_map ts : forall n a, fold_left svb_step (combine (seq n (length ts)) (map (map_tag fs) ts)) a =
    fold_left svb_step (combine (seq n (length ts)) ts) a.
  Proof. induction ts as [|t ts IH]; intros n a; auto. cbn [length seq map combine fold_left]. rewrite IH. reflexivity. Qed.
  Lemma compute_svb_map K ts : compute_svb K (map (map_tag fs) ts) = compute_svb K ts.
  Proof. unfold compute_svb, enumerate. rewrite map_length, svb_map. reflexivity. Qed.
  Lemma pack_edge_map (keys : list Ky) (vals : list Vl) table e :
    pack_edge keys vals (map (map_tag fs) table) (mt e) =
    rmap (map_edge (fun s => s) fc (fun i => i)) (pack_edge keys vals table e).
  Proof.
    unfold pack_edge. cbn [map_edge assignment source dest ecost].
    rewrite !(index_of_map (map_tag fs) map_tag_inj).
    destruct (match assignment e with Some (k, v) => _ | None => _ end) as [a|]; auto. cbn [bind].
    destruct (or_err KeyError (index_of table (source e))) as [i|]; auto. cbn [bind].
    destruct (or_err KeyError (index_of table (dest e))) as [j|]; auto.
  Qed.

  Theorem convert_map (d : dag St (Ky * Vl) In) missing ordering :
    convert_dag_to_packed kle vle (map_dag fs fc fi d) missing ordering =
    rmap (fun r => (map_costs fc (fst r), map_conversion fs fc fi (snd r))) (convert_dag_to_packed kle vle d missing ordering).
  Proof.
    unfold convert_dag_to_packed. cbn [map_dag edges initial_state final_state].
    rewrite source_states_map, nth_error_map.
    destruct (nth_error (source_states (edges d)) 0) as [first|]; auto. cbn [option_map or_err bind].
    rewrite (eqb_map fs inj). destruct (eqb first (initial_state d)); cbn [negb]; auto.
    rewrite (mem_map fs inj). destruct (mem (final_state d) (source_states (edges d))); auto.
    unfold keys_seen, values_seen, edge_keys, edge_vals. rewrite map_edge_assignments.
    change (fold_left add_new (map fst (path_assignments (edges d))) []) with (keys_seen (edges d)).
    change (fold_left add_new (map snd (path_assignments (edges d))) [missing]) with (values_seen missing (edges d)).
    set (keys := sort kle (keys_seen (edges d))).
    set (vals := match ordering with None => _ | Some l => l end).
    change [(fs (initial_state d), (-1)%Z)] with (map_dict [(initial_state d, (-1)%Z)]).
    rewrite (foldM_map (possible_step keys) (possible_step keys) me map_dict) by apply possible_map.
    destruct (foldM (possible_step keys) (edges d) [(initial_state d, (-1)%Z)]) as [ps|]; auto. cbn [rmap bind].
    rewrite (foldM_map (guaranteed_step keys ps) (guaranteed_step keys (map_dict ps)) me map_dict) by apply guaranteed_map.
    destruct (foldM (guaranteed_step keys ps) (edges d) [(initial_state d, (-1)%Z)]) as [gs|]; auto. cbn [rmap bind].
    replace (foldM (after_step keys (map_dict ps)) (map me (edges d)) [])
      with (rmap map_dict (foldM (after_step keys ps) (edges d) []))
      by (symmetry; exact (foldM_map (after_step keys ps) (after_step keys (map_dict ps)) me map_dict _ (after_map keys ps) [])).
    destruct (foldM (after_step keys ps) (edges d) []) as [as_|]; auto. cbn [rmap bind].
    set (sources := source_states (edges d) ++ [final_state d]).
    replace (map fs (source_states (edges d)) ++ [fs (final_state d)]) with (map fs sources)
      by (unfold sources; now rewrite map_app).
    rewrite (mapM_map (emit_state keys missing (edges d) sources ps gs as_)
      (emit_state keys missing (map me (edges d)) (map fs sources) (map_dict ps) (map_dict gs) (map_dict as_)) fs (map mg))
      by (intros; apply emit_map).
    destruct (mapM (emit_state keys missing (edges d) sources ps gs as_) sources) as [em|]; auto. cbn [rmap bind].
    rewrite <- concat_map.
    set (groups := map (fun g => map snd (filter (fun ge => fst ge =? g) (concat em))) (seq 0 (2 * length keys + 1))).
    replace (map (fun g => map snd (filter (fun ge => fst ge =? g) (map mg (concat em)))) (seq 0 (2 * length keys + 1)))
      with (map (map mt) groups).
    2:{ unfold groups. rewrite map_map. apply map_ext. intros g. rewrite filter_map, !map_map. cbn [fst snd]. reflexivity. }
    rewrite <- concat_map.
    set (tedges := concat groups).
    replace (map source (map mt tedges)) with (map (map_tag fs) (map source tedges)) by (now rewrite !map_map).
    replace (fold_left add_new (map (map_tag fs) (map source tedges)) [])
      with (map (map_tag fs) (fold_left add_new (map source tedges) []))
      by (symmetry; exact (fold_add_new_map (map_tag fs) map_tag_inj (map source tedges) [])).
    set (table := fold_left add_new (map source tedges) []).
    rewrite nth_error_map. destruct (nth_error table 0) as [t0|]; auto. cbn [option_map or_err bind].
    change (fs (initial_state d), (-1)%Z) with (map_tag fs (initial_state d, (-1)%Z)).
    rewrite (eqb_map (map_tag fs) map_tag_inj). destruct (eqb t0 (initial_state d, (-1)%Z)); cbn [negb]; auto.
    change (fs (final_state d), (Z.of_nat (length keys) - 1)%Z)
      with (map_tag fs (final_state d, (Z.of_nat (length keys) - 1)%Z)).
    rewrite (mem_map (map_tag fs) map_tag_inj).
    set (final := (final_state d, (Z.of_nat (length keys) - 1)%Z)).
    destruct (mem final table); auto.
    set (tstates := table ++ [final]).
    replace (map (map_tag fs) table ++ [map_tag fs final]) with (map (map_tag fs) tstates)
      by (unfold tstates; now rewrite map_app).
    pose proof (mapM_map (pack_edge keys vals tstates) (pack_edge keys vals (map (map_tag fs) tstates)) mt
      (map_edge (fun s => s) fc (fun i => i)) tedges (fun e _ => pack_edge_map keys vals tstates e)) as PM.
    match goal with |- context [mapM ?f ?l] => replace (mapM f l)
      with (rmap (map (map_edge (fun s => s) fc (fun i => i))) (mapM (pack_edge keys vals tstates) tedges)) by (symmetry; exact PM) end.
    destruct (mapM (pack_edge keys vals tstates) tedges) as [pes|]; auto. cbn [rmap bind].
    unfold map_costs, map_conversion.
    cbn [fst snd n_states n_keys n_values pedges egb svb variable_keys variable_values original_states original_edges
      tagged_states tagged_edges outgoing_indices].
    rewrite map_length, compute_svb_map. do 2 f_equal.
    - f_equal. f_equal. rewrite map_map. apply map_ext. intros l. now rewrite map_length.
    - f_equal. rewrite map_map. apply map_ext. intros s. rewrite enumerate_map', filter_map, map_map. cbn [fst snd].
      f_equal. apply filter_ext. intros [i e]. cbn [fst snd map_edge source].
      now apply (eqb_map (map_tag fs) map_tag_inj).
  Qed.
End Map.

(** ** Paths. *)
Section Paths.
  Context {St St' As In In' : Type}.
  Context (fs : St -> St') (inj : forall x y, fs x = fs y -> x = y) (fi : In -> In') (fc : cost -> cost).
  Notation me := (map_edge (As := As) fs fc fi).
  Notation md := (map_dag (As := As) fs fc fi).

  Lemma map_path es s p t : is_path es s p t -> is_path (map me es) (fs s) (map me p) (fs t).
  Proof.
    induction 1 as [s|e p t He Hp IH]; [constructor|]. cbn [map]. change (fs (source e)) with (source (me e)).
    constructor; auto. now apply in_map.
  Qed.
  Lemma unmap_path es p' : forall s t, is_path (map me es) (fs s) p' (fs t) -> exists p, p' = map me p /\ is_path es s p t.
  Proof.
    induction p' as [|e' p' IH]; intros s t Hp.
    - apply is_path_nil_inv in Hp. apply inj in Hp. subst. exists []. split; auto. constructor.
    - apply is_path_cons_inv in Hp as [Es [Hin Hp]]. apply in_map_iff in Hin as [e [<- He]]. cbn [map_edge source dest] in *.
      apply inj in Es. subst s. destruct (IH _ _ Hp) as [p [-> Hp']]. exists (e :: p). split; auto. now constructor.
  Qed.
  Lemma complete_map d p : complete_path d p -> complete_path (md d) (map me p).
  Proof. unfold complete_path. cbn [map_dag edges initial_state final_state]. apply map_path. Qed.
  Lemma complete_unmap d p' : complete_path (md d) p' -> exists p, p' = map me p /\ complete_path d p.
  Proof. unfold complete_path. cbn [map_dag edges initial_state final_state]. apply unmap_path. Qed.
  Lemma map_ordered es : ordered es -> ordered (map me es).
  Proof.
    induction es as [|e es IH]; cbn [map ordered]; auto. intros [H1 H2]. split; auto. intros e' He'.
    apply in_map_iff in He' as [e0 [<- He0]]. cbn [map_edge source dest]. intros C. apply inj in C. now apply (H1 e0).
  Qed.
  Lemma map_topological d : topological (edges d) -> topological (edges (md d)).
  Proof.
    intros [H1 H2]. cbn [map_dag edges]. split; [now apply map_ordered|]. intros e' He'.
    apply in_map_iff in He' as [e0 [<- He0]]. cbn [map_edge source dest]. intros C. apply inj in C. now apply (H2 e0).
  Qed.
  Lemma map_path_cost (p : list (edge St As In)) : fc (Fin 0%Qc) = Fin 0%Qc -> (forall a b, fc (cadd a b) = cadd (fc a) (fc b)) ->
    path_cost (map me p) = fc (path_cost p).
  Proof.
    intros H0 Ha. unfold path_cost. induction p as [|e p IH]; [symmetry; exact H0|]. cbn [map csum fold_right].
    unfold csum in *. rewrite IH, Ha. reflexivity.
  Qed.
End Paths.

(** ** Reading paths back.  Only the edges of the result depend on how the conversion
    data are mapped. *)
Section Back.
  Context {St St' Ky Vl In In' : Type} `{EqDec Ky} `{EqDec Vl}.
  Context (fs : St -> St') (fi : In -> In') (fc : cost -> cost).
  Lemma or_err_map {A B} (f : A -> B) e l k : or_err e (nth_error (map f l) k) = rmap f (or_err e (nth_error l k)).
  Proof. rewrite nth_error_map. now destruct (nth_error l k). Qed.
  Lemma read_path_map (c : @conversion St Ky Vl In) ks :
    read_path (map_conversion fs fc fi c) ks = rmap (fun r => (map (map_edge fs fc fi) (fst r), snd r)) (read_path c ks).
  Proof.
    unfold read_path. cbn [map_conversion tagged_edges original_edges].
    replace (mapM (fun k => or_err IndexError (nth_error (map (map_edge (map_tag fs) fc (fun i => i)) (tagged_edges c)) k)) ks)
      with (rmap (map (map_edge (map_tag fs) fc (fun i => i))) (mapM (fun k => or_err IndexError (nth_error (tagged_edges c) k)) ks)).
    2:{ rewrite <- (map_id ks) at 2. symmetry. apply mapM_map. intros k _. apply or_err_map. }
    destruct (mapM (fun k => or_err IndexError (nth_error (tagged_edges c) k)) ks) as [tes|]; [|reflexivity]. cbn [rmap bind].
    replace (flat_map (fun te => match info te with Some i => [i] | None => [] end) (map (map_edge (map_tag fs) fc (fun i => i)) tes))
      with (flat_map (fun te : edge (St * Z) (Ky * Vl) (option nat) => match info te with Some i => [i] | None => [] end) tes)
      by (clear; induction tes as [|x l IH]; auto; cbn [map flat_map]; now rewrite IH).
    set (is_ := flat_map _ tes).
    replace (mapM (fun i => or_err IndexError (nth_error (map (map_edge fs fc fi) (original_edges c)) i)) is_)
      with (rmap (map (map_edge fs fc fi)) (mapM (fun i => or_err IndexError (nth_error (original_edges c) i)) is_)).
    2:{ rewrite <- (map_id is_) at 2. symmetry. apply mapM_map. intros k _. apply or_err_map. }
    destruct (mapM (fun i => or_err IndexError (nth_error (original_edges c) i)) is_); [|reflexivity]. cbn. now rewrite map_edge_assignments.
  Qed.
  Theorem best_path_map d (c : @conversion St Ky Vl In) cs :
    constrained_best_path d (map_conversion fs fc fi c) cs =
    rmap (fun r => (map (map_edge fs fc fi) (fst r), snd r)) (constrained_best_path d c cs).
  Proof.
    unfold constrained_best_path. cbn [map_conversion variable_keys variable_values].
    destruct (mapM _ cs) as [ijs|]; [|reflexivity]. cbn [bind]. unfold extract_minimal_cost_path_and_assignments.
    cbn [map_conversion outgoing_indices]. destruct (extract_indices _ _) as [r|]; [|reflexivity]. cbn [bind].
    rewrite read_path_map. destruct (read_path c (fst r)); reflexivity.
  Qed.
End Back.
