(** What a drawing shows: the specification vocabulary for rendered DAGs.  The first part reads
    SVG markup back; the second says what each drawing call should show; the third where
    things lie.  Nothing here mentions a function of the renderer. *)

From Coq Require Import String.
From Coq Require Import List Bool Arith Lia QArith Qcanon.
From Verif Require Import Base SeqNodes Graph Html Drawing.
Import ListNotations.
Close Scope string_scope. Close Scope Qc_scope. Close Scope Q_scope. Open Scope nat_scope. Open Scope list_scope.

(** ** Reading SVG. *)
(** An element: its name and its attributes. *)
Definition element : Type := text * list (text * text).
Definition blank (c : nat) : bool := (c =? 32) || (c =? 10).
Inductive amode := Between | Name (n : text) | After (n : text) | Value (n v : text) | Bare (n v : text).
(** The attributes in the text of a tag, after the name: [name="value"] or [name=value], separated
    by blanks; a last slash is ignored. *)
Fixpoint attributes (m : amode) (s : text) : option (list (text * text)) :=
  match s with
  | [] => match m with Between => Some [] | Bare n v => Some [(n, v)] | _ => None end
  | c :: s' =>
      match m with
      | Between =>
          if blank c then attributes Between s'
          else if c =? 47 then match s' with [] => Some [] | _ => None end
          else attributes (Name [c]) s'
      | Name n => if c =? 61 then attributes (After n) s' else attributes (Name (n ++ [c])) s'
      | After n => if c =? 34 then attributes (Value n []) s' else attributes (Bare n [c]) s'
      | Value n v => if c =? 34 then option_map (cons (n, v)) (attributes Between s') else attributes (Value n (v ++ [c])) s'
      | Bare n v => if blank c then option_map (cons (n, v)) (attributes Between s') else attributes (Bare n (v ++ [c])) s'
      end
  end.
(** The name of an element and the rest of the tag. *)
Fixpoint tag_name (s : text) : text * text :=
  match s with
  | [] => ([], [])
  | c :: s' => if blank c || (c =? 47) then ([], s) else let '(n, r) := tag_name s' in (c :: n, r)
  end.
Inductive markup := Opens (e : element) | Closes (n : text) | Whole (e : element).
Definition read_tag_text (t : text) : option markup :=
  match t with
  | 47 :: n => Some (Closes n)
  | _ => let '(n, r) := tag_name t in
         match attributes Between r with
         | Some a => Some (if List.last t 0 =? 47 then Whole (n, a) else Opens (n, a))
         | None => None
         end
  end.

(** What one sees: a character of a text or of a hover title, or a whole element, with the elements
    around it, innermost first. *)
Inductive mark := Shown (c : nat) (around : list element) | Shape (e : element) (around : list element).
(** The elements whose characters are shown. *)
Definition speaks (stack : list element) : bool :=
  match stack with (n, _) :: _ => eqb n (chars "text") || eqb n (chars "title") | [] => false end.
(** [None] unless every closing tag closes the last open element and all are closed in the end. *)
Fixpoint scan (stack : list element) (l : list item) : option (list mark) :=
  match l with
  | [] => match stack with [] => Some [] | _ => None end
  | Char c :: l' => if speaks stack then option_map (cons (Shown c stack)) (scan stack l') else scan stack l'
  | Tag t :: l' =>
      match read_tag_text t with
      | Some (Opens e) => scan (e :: stack) l'
      | Some (Closes n) => match stack with (n', _) :: stack' => if eqb n n' then scan stack' l' else None | [] => None end
      | Some (Whole e) => option_map (cons (Shape e stack)) (scan stack l')
      | None => None
      end
  end.
Definition drawing (s : text) : option (list mark) :=
  match read InText s with Some l => scan [] l | None => None end.

(** ** What a call shows. *)
Definition el (name : string) (a : list (text * text)) : element := (chars name, a).
Definition shown (around : list element) (t : text) : list mark := map (fun c => Shown c around) t.
(** The lines of a text. *)
Inductive lines_of : text -> list text -> Prop :=
| lines_last t : ~ List.In 10 t -> lines_of t [t]
| lines_more t rest ls : ~ List.In 10 t -> lines_of rest ls -> lines_of (t ++ 10 :: rest) (t :: ls).
Definition inside (stack : list element) (m : mark) : mark :=
  match m with Shown c s => Shown c (s ++ stack) | Shape e s => Shape e (s ++ stack) end.

Section Calls.
  Variable num : Qc -> text.
  Variable hovering : bool.
  Definition title (hover : option text) (around : list element) : list mark :=
    match hover with Some t => if hovering then shown (el "title" [] :: around) t else [] | None => [] end.
  Definition the_rect (b : box) (class : text) : element :=
    el "rect" [(chars "x", num (b_left b)); (chars "y", num (b_top b)); (chars "width", num (b_width b));
               (chars "height", num (b_height b)); (chars "class", class)].
  (** The lines of a label, from the [i]th on: the [i]th at height [y i]. *)
  Fixpoint text_lines (size x : Qc) (y : nat -> Qc) (more : list (text * text)) (around : list element) (i : nat) (ls : list text) : list mark :=
    match ls with
    | [] => []
    | l :: ls' =>
        shown (el "text" ([(chars "font-size", num size); (chars "x", num x); (chars "y", num (y i))] ++ more) :: around) l ++
        text_lines size x y more around (S i) ls'
    end.
  (** Words separated by blanks. *)
  Fixpoint words (l : list text) (last : text) : text := match l with [] => last | w :: l' => w ++ [32] ++ words l' last end.
  Definition classes (tags : list text) (kind : string) : text :=
    match tags with [] => 32 :: chars kind | _ => words tags (chars kind) end.
  Definition path_data (points : list point) : text :=
    match points with
    | [] => []
    | p :: ps => chars "M " ++ num (px p) ++ [32] ++ num (py p) ++
                 flat_map (fun q => chars " L " ++ num (px q) ++ [32] ++ num (py q)) ps
    end.
  (** Where the lines of a label at a point go: sideways and downwards, in text heights. *)
  Definition anchor_of (d : direction) : string :=
    match d with
    | ToLeft | UpLeft | DownLeft => "end"
    | ToRight | UpRight | DownRight => "start"
    | _ => "middle"
    end.
  Definition aside (d : direction) (padding : Qc) : Qc :=
    match d with
    | ToLeft | UpLeft | DownLeft => (- padding)%Qc
    | ToRight | UpRight | DownRight => padding
    | _ => 0%Qc
    end.
  Definition below (d : direction) (n : nat) (padding : Qc) (i : nat) : Qc :=
    match d with
    | Up | UpLeft | UpRight => (of_nat n + half - padding + of_nat i)%Qc
    | Down | DownLeft | DownRight => (half + padding + of_nat i)%Qc
    | ToLeft | ToRight => (half * of_nat (n - 1) + of_nat i)%Qc
    | Around => (of_nat i + half - of_nat (Nat.div2 (S n)))%Qc
    end.
  (** [shows around c ms]: inside the elements [around], call [c] shows [ms]. *)
  Inductive shows (around : list element) : command -> list mark -> Prop :=
  | shows_label b t hover size tags ls (g := el "g" [] :: around) : lines_of t ls ->
      shows around (Label b t hover size tags)
        (title hover g ++ [Shape (the_rect b (classes tags "label_in_box")) g] ++
         text_lines size (b_left b + half * b_width b)%Qc
           (fun i => (b_top b + half * b_height b + size * (of_nat i - half * of_nat (List.length ls - 1)))%Qc)
           [(chars "class", chars "label_in_box")] g 0 ls)
  | shows_label_at p t size d hover padding tags ls (g := el "g" [] :: around) : lines_of t ls ->
      shows around (LabelAt p t size d hover padding tags)
        (title hover g ++
         text_lines size (px p + aside d padding * size)%Qc
           (fun i => (py p + below d (List.length ls) padding i * size)%Qc)
           [(chars "style", chars "dominant-baseline: middle; text-anchor: " ++ chars (anchor_of d) ++ [59]);
            (chars "class", classes tags "label_at_point")] g 0 ls)
  | shows_container b tags :
      shows around (Container b tags) [Shape (the_rect b (classes tags "container")) (el "g" [] :: around)]
  | shows_line points hover tags (g := el "g" [] :: around) :
      shows around (Line points hover tags)
        (title hover g ++
         [Shape (el "path" [(chars "d", path_data points); (chars "class", classes tags "line");
                            (chars "marker-start", chars "url(#arrowstart)"); (chars "marker-end", chars "url(#arrowend)")]) g])
  | shows_dot p hover tags (g := el "g" [] :: around) :
      shows around (Dot p hover tags)
        (title hover g ++
         [Shape (el "circle" [(chars "cx", num (px p)); (chars "cy", num (py p)); (chars "class", classes tags "dot")]) g])
  | shows_group hover tags body ms (g := el "g" [(chars "class", join [32] tags)] :: around) :
      shows_all g body ms -> shows around (Group hover tags body) (title hover g ++ ms)
  | shows_css t : shows around (Css t) []
  | shows_custom t ms : drawing t = Some ms -> shows around (Custom t) (map (inside around) ms)
  with shows_all (around : list element) : list command -> list mark -> Prop :=
  | shows_none : shows_all around [] []
  | shows_more c l ms ms' : shows around c ms -> shows_all around l ms' -> shows_all around (c :: l) (ms ++ ms').
End Calls.

(** Texts that mean themselves inside a tag, and inside a style element. *)
Definition plain (t : text) : Prop := Forall (fun c => c <> 34 /\ c <> 60 /\ c <> 62) t.
Definition plain_css (t : text) : Prop := Forall (fun c => c <> 38 /\ c <> 60 /\ c <> 62) t.
(** The calls whose tags are plain. *)
Inductive plain_call : command -> Prop :=
| plain_label b t h s tags : Forall plain tags -> plain_call (Label b t h s tags)
| plain_label_at p t s d h x tags : Forall plain tags -> plain_call (LabelAt p t s d h x tags)
| plain_container b tags : Forall plain tags -> plain_call (Container b tags)
| plain_line ps h tags : ps <> [] -> Forall plain tags -> plain_call (Line ps h tags)
| plain_dot p h tags : Forall plain tags -> plain_call (Dot p h tags)
| plain_group h tags body : Forall plain tags -> Forall plain_call body -> plain_call (Group h tags body)
| plain_style t : plain_css t -> plain_call (Css t)
| plain_custom t ms : drawing t = Some ms -> plain_call (Custom t).

(** ** Where things lie. *)
Definition in_box (b : box) (p : point) : Prop :=
  (b_left b <= px p)%Qc /\ (px p <= b_left b + b_width b)%Qc /\ (b_top b <= py p)%Qc /\ (py p <= b_top b + b_height b)%Qc.
(** The points a call is about: those of its box, the ends of its line segments, its anchor. *)
Inductive covers : command -> point -> Prop :=
| covers_label b t h s tags p : in_box b p -> covers (Label b t h s tags) p
| covers_label_at p t s d h x tags : covers (LabelAt p t s d h x tags) p
| covers_container b tags p : in_box b p -> covers (Container b tags) p
| covers_line ps h tags p : List.In p ps -> covers (Line ps h tags) p
| covers_dot p h tags : covers (Dot p h tags) p
| covers_group h tags body c p : List.In c body -> covers c p -> covers (Group h tags body) p.
(** No box has a negative size. *)
Inductive upright : command -> Prop :=
| up_label b t h s tags : (0 <= b_width b)%Qc -> (0 <= b_height b)%Qc -> upright (Label b t h s tags)
| up_label_at p t s d h x tags : upright (LabelAt p t s d h x tags)
| up_container b tags : (0 <= b_width b)%Qc -> (0 <= b_height b)%Qc -> upright (Container b tags)
| up_line ps h tags : upright (Line ps h tags)
| up_dot p h tags : upright (Dot p h tags)
| up_group h tags body : Forall upright body -> upright (Group h tags body)
| up_css t : upright (Css t)
| up_custom t : upright (Custom t).

(** [x] is between [a] and [b]. *)
Definition between (a x b : Qc) : Prop := ((a <= x /\ x <= b) \/ (b <= x /\ x <= a))%Qc.

(** ** The calls that draw a DAG. *)
Section Dag.
  Context {St As In : Type}.
  (** A state on a path of finite cost from the initial to the final state; likewise an edge. *)
  Definition state_in_use (d : dag St As In) (s : St) : Prop :=
    exists p1 p2, is_path (edges d) (initial_state d) p1 s /\ is_path (edges d) s p2 (final_state d) /\
      Forall finite_edge (p1 ++ p2).
  Definition edge_in_use (d : dag St As In) (e : edge St As In) : Prop :=
    exists p1 p2, complete_path d (p1 ++ e :: p2) /\ Forall finite_edge (p1 ++ e :: p2).
  (** The call for a state. *)
  Definition state_call (d : dag St As In) (a : annotator St As In) (s : St) (c : command) : Prop :=
    exists n reach, annotate_state a s = Ok n /\
      c = Label (s_bounds n) (s_text n) (s_hover n) (s_size n) (s_tags n ++ [chars "state-annotation"; reach]) /\
      (state_in_use d s /\ reach = chars "reachable-state" \/ ~ state_in_use d s /\ reach = chars "unreachable-state").
  (** Two edges alike up to their metadata. *)
  Definition alike (e e' : edge St As In) : Prop :=
    source e = source e' /\ dest e = dest e' /\ ecost e = ecost e' /\ assignment e = assignment e'.
  (** How an edge is lit: highlighted if it is like an emphasised one, dimmed if there are emphasised
      edges and none is like it. *)
  Definition lit (emphasized : option (list (edge St As In))) (e : edge St As In) (tags : list text) : Prop :=
    match emphasized with
    | Some (x :: l) =>
        (exists e', List.In e' (x :: l) /\ alike e e') /\ tags = [chars "highlight"] \/
        (forall e', List.In e' (x :: l) -> ~ alike e e') /\ tags = [chars "lowlight"]
    | _ => tags = []
    end.
  (** The line of an edge: out of the right side of its source (or the lower one) and into the left side
      of its destination (or the upper one), in three segments along the axes.  The dot is on the middle
      segment, or on its start if that is shorter than the text; the text is next to the dot. *)
  Definition connects (n : edge_annotation) (src dst : box) (p0 p1 p2 p3 dot text : point) (dir : direction) : Prop :=
    match e_axis n with
    | Horizontal =>
        (px p0 = b_left src + b_width src /\ py p0 = b_top src + start_alignment n * b_height src /\
         px p3 = b_left dst /\ py p3 = b_top dst + end_alignment n * b_height dst /\
         py p1 = py p0 /\ py p2 = py p3 /\
         px p1 = px p0 + elbow_distance n * (px p3 - px p0) + elbow_distance_adjust n /\ px p2 = px p1 /\ px dot = px p1 /\
         (((e_size n < py p3 - py p0 \/ e_size n < py p0 - py p3) /\
           py dot = py p0 + text_alignment n * (py p3 - py p0) /\ dir = ToRight) \/
          (py p3 - py p0 <= e_size n /\ py p0 - py p3 <= e_size n /\ py dot = py p0 /\ dir = Around)) /\
         px text = px dot /\ py text = py dot + text_alignment_adjust n)%Qc
    | Vertical =>
        (py p0 = b_top src + b_height src /\ px p0 = b_left src + start_alignment n * b_width src /\
         py p3 = b_top dst /\ px p3 = b_left dst + end_alignment n * b_width dst /\
         px p1 = px p0 /\ px p2 = px p3 /\
         py p1 = py p0 + elbow_distance n * (py p3 - py p0) + elbow_distance_adjust n /\ py p2 = py p1 /\ py dot = py p1 /\
         px dot = px p0 + text_alignment n * (px p3 - px p0) /\ dir = DownRight /\
         py text = py dot /\ px text = px dot + text_alignment_adjust n)%Qc
    end.
  (** The call for an edge. *)
  Definition edge_call (d : dag St As In) (a : annotator St As In) (emphasized : option (list (edge St As In)))
      (e : edge St As In) (c : command) : Prop :=
    exists n ns nd p0 p1 p2 p3 dot text dir lights reach,
      annotate_edge a e = Ok n /\ annotate_state a (source e) = Ok ns /\ annotate_state a (dest e) = Ok nd /\
      c = Group (e_hover n) (e_tags n ++ [chars "edge-annotation"] ++ lights ++ [reach; chars "hover_to_top"])
            [Line [p0; p1; p2; p3] None []; Dot dot None []; LabelAt text (e_text n) (e_size n) dir None half []] /\
      connects n (s_bounds ns) (s_bounds nd) p0 p1 p2 p3 dot text dir /\ lit emphasized e lights /\
      (state_in_use d (source e) /\ state_in_use d (dest e) /\ reach = chars "reachable-edge" \/
       ~ (state_in_use d (source e) /\ state_in_use d (dest e)) /\ reach = chars "unreachable-edge").
  Definition extra_call (x : extra_annotation) (c : command) : Prop :=
    match x with
    | RegionAnnotation b tags => c = Container b (tags ++ [chars "text-annotation"])
    | TextAnnotation b t size hover tags => c = Label b t hover size (tags ++ [chars "text-annotation"])
    end.
End Dag.
