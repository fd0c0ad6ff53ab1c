(** Model of the regular expressions of the codec presets and of [re.finditer]
    on them: stack_parser.py:72-87, 121-124 and 147-212.

    The first part models the fragment of Python's [re] module the presets use:
    a backtracking matcher in continuation-passing style that tries alternatives
    in order, greedy repetition longest first and lazy repetition shortest first,
    and remembers capture groups.  [re.DOTALL] is on (line 121).  A repetition
    whose body matched nothing is not continued (no repeated expression of the
    presets matches the empty text). *)

From Coq Require Import List Bool Arith Lia.
From Verif Require Import Base SeqNodes Subtokenizer StackParser PseudoParse.
Import ListNotations.

(** ** Regular expressions *)
Inductive re :=
| Cls (p : nat -> bool)            (** one character of a class *)
| Eps
| Cat (a b : re)
| Alt (a b : re)                   (** [a|b] *)
| Star (greedy : bool) (a : re)    (** [a*] and [a*?] *)
| Cap (n : nat) (a : re)           (** capture group number [n] *)
| Back (n : nat)                   (** back reference to group [n] *)
| NotBehind (c : nat)              (** [(?<!c)] *)
| AtEnd.                           (** [$] without [re.MULTILINE] *)

(** [behind] is the text before the position, last character first. *)
Record spot := mkSpot { behind : text; ahead : text; caps : list (nat * text) }.
Definition advance (n : nat) (s : spot) : spot :=
  mkSpot (rev (firstn n (ahead s)) ++ behind s) (skipn n (ahead s)) (caps s).
Definition capture (n : nat) (from s : spot) : spot :=
  mkSpot (behind s) (ahead s) ((n, firstn (length (ahead from) - length (ahead s)) (ahead from)) :: caps s).

(** Repetition of [body], at most [n] times; [k] is what follows. *)
Fixpoint loop (body : spot -> (spot -> option spot) -> option spot) (greedy : bool) (k : spot -> option spot)
    (n : nat) (s : spot) {struct n} : option spot :=
  match n with
  | 0 => None
  | S n' =>
      let again := body s (fun s' => if length (ahead s') <? length (ahead s) then loop body greedy k n' s' else None) in
      if greedy then match again with Some x => Some x | None => k s end
      else match k s with Some x => Some x | None => again end
  end.
Fixpoint m (r : re) (s : spot) (k : spot -> option spot) {struct r} : option spot :=
  match r with
  | Cls p => match ahead s with c :: _ => if p c then k (advance 1 s) else None | [] => None end
  | Eps => k s
  | Cat a b => m a s (fun s' => m b s' k)
  | Alt a b => match m a s k with Some x => Some x | None => m b s k end
  | Star greedy a => loop (m a) greedy k (S (length (ahead s))) s
  | Cap n a => m a s (fun s' => k (capture n s s'))
  | Back n =>
      match assoc n (caps s) with
      | Some t => if starts_with t (ahead s) then k (advance (length t) s) else None
      | None => None
      end
  | NotBehind c => match behind s with d :: _ => if d =? c then None else k s | [] => k s end
  | AtEnd => match ahead s with [] => k s | [d] => if d =? 10 then k s else None | _ => None end
  end.

(** Groups are numbered by their opening brackets. *)
Fixpoint number (r : re) (n : nat) : re * nat :=
  match r with
  | Cat a b => let (a', n1) := number a n in let (b', n2) := number b n1 in (Cat a' b', n2)
  | Alt a b => let (a', n1) := number a n in let (b', n2) := number b n1 in (Alt a' b', n2)
  | Star g a => let (a', n1) := number a n in (Star g a', n1)
  | Cap _ a => let (a', n1) := number a (S n) in (Cap n a', n1)
  | _ => (r, n)
  end.

(** stack_parser.py:79-80: the alternation of the named groups, in order. *)
Fixpoint number_spec (spec : list (ttype * re)) (n : nat) : list (ttype * re) :=
  match spec with
  | [] => []
  | (ty, r) :: spec' => let (r', n') := number (Cap 0 r) n in (ty, r') :: number_spec spec' n'
  end.
(** One match at a position: the first alternative that matches.  The last group
    to be closed is the named group around the alternative, so that
    [match.lastgroup] (line 122) is the alternative's name. *)
Fixpoint match_at (spec : list (ttype * re)) (s : spot) : option (ttype * spot) :=
  match spec with
  | [] => None
  | (ty, r) :: spec' => match m r s Some with Some s' => Some (ty, s') | None => match_at spec' s end
  end.

(** [re.finditer]: leftmost matches, skipping characters where nothing matches.
    (Matches of the empty text, which do not occur, are treated like no match.) *)
Fixpoint find_all (spec : list (ttype * re)) (fuel : nat) (before rest : text) : list (text * ttype) :=
  match fuel with
  | 0 => []
  | S fuel' =>
      match rest with
      | [] => []
      | c :: rest' =>
          match match_at spec (mkSpot before rest []) with
          | Some (ty, s') =>
              if length (ahead s') <? length rest
              then (firstn (length rest - length (ahead s')) rest, ty) :: find_all spec fuel' (behind s') (ahead s')
              else find_all spec fuel' (c :: before) rest'
          | None => find_all spec fuel' (c :: before) rest'
          end
      end
  end.
Definition finditer (spec : list (ttype * re)) (code : text) : list (text * ttype) :=
  find_all (number_spec spec 1) (length code) [] code.

(** ** The presets *)
Definition chr (c : nat) : re := Cls (Nat.eqb c).
Definition one_of (l : list nat) : re := Cls (fun c => existsb (Nat.eqb c) l).
Definition none_of (l : list nat) : re := Cls (fun c => negb (existsb (Nat.eqb c) l)).
Definition dot : re := Cls (fun _ => true).
Fixpoint word (l : text) : re :=
  match l with [] => Eps | [c] => chr c | c :: l' => Cat (chr c) (word l') end.
Fixpoint alts (l : list re) : re := match l with [] => Eps | [r] => r | r :: l' => Alt r (alts l') end.
Definition plus (a : re) : re := Cat a (Star true a).
Definition opt (a : re) : re := Alt a Eps.

(** [A-Za-z0-9_] *)
Definition ident (c : nat) : bool :=
  ((65 <=? c) && (c <=? 90)) || ((97 <=? c) && (c <=? 122)) || ((48 <=? c) && (c <=? 57)) || (c =? 95).

Section Presets.
  (** [\d]: the decimal digits of Unicode. *)
  Variable digit : nat -> bool.

  (** stack_parser.py:160-170. *)
  Definition basic : list (ttype * re) :=
    [(TNumber, Cat (plus (Cls digit)) (opt (Cap 0 (Cat (chr 46) (Star true (Cls digit))))));  (** \d+(\.\d* )? *)
     (TId, plus (Cls ident));
     (TOp, one_of [43; 45; 42; 47]);                       (** [+\-*/] *)
     (TPunc, one_of [44; 46; 59; 58; 61; 62; 60]);         (** [,.;:=><] *)
     (TBrace, one_of [40; 41; 91; 93; 123; 125]);          (** [()\[\]{}] *)
     (TNewline, chr 10);
     (TTab, chr 9);
     (TWhiteSpace, plus (chr 32));
     (TOther, dot)].
  (** stack_parser.py:171-174.  Quotes are 34 and 39, the backslash is 92. *)
  Definition python_string : re :=
    Cat (Cap 0 (alts [word [34; 34; 34]; word [39; 39; 39]; chr 34; chr 39]))
      (Cat (Star false (Cap 0 (Alt (Cat (NotBehind 92) (Cat (chr 92) (Back 2))) dot))) (Back 2)).
  Definition python_strings_and_comments : list (ttype * re) :=
    [(TString, python_string); (TCommentHash, Cat (Cap 0 (chr 35)) (Star true (none_of [10])))].
  (** stack_parser.py:175-179. *)
  Definition c_quoted (q : nat) : re :=
    Cat (chr q) (Cat (Star true (Alt (Cat (chr 92) dot) (none_of [92; q]))) (chr q)).
  Definition c_comments : list (ttype * re) :=
    [(TCommentSlashSlash, Cat (Cap 0 (word [47; 47])) (Star true (none_of [10])));
     (TCommentSlashStar,
      alts [Cat (word [47; 47]) (Cat (Star false dot) AtEnd);
            Cat (word [47; 42]) (Cat (Star false dot) (word [42; 47]));
            c_quoted 39; c_quoted 34])].
  (** stack_parser.py:180-182. *)
  Definition c_strings : list (ttype * re) :=
    [(TString, Cat (Cap 0 (chr 34))
                 (Cat (Star false (Cap 0 (Alt (Cat (NotBehind 92) (Cat (chr 92) (Back 2))) dot))) (Back 2)))].
  (** stack_parser.py:183-187; the class excludes ( newline | / * and ). *)
  Definition c_directives : list text :=
    [[35; 105; 110; 99; 108; 117; 100; 101];  (** #include *)
     [35; 100; 101; 102; 105; 110; 101];      (** #define *)
     [35; 117; 110; 100; 101; 102];           (** #undef *)
     [35; 105; 102; 100; 101; 102];           (** #ifdef *)
     [35; 105; 102; 110; 100; 101; 102];      (** #ifndef *)
     [35; 108; 105; 110; 101];                (** #line *)
     [35; 105; 102];                          (** #if *)
     [35; 101; 110; 100; 105; 102];           (** #endif *)
     [35; 101; 114; 114; 111; 114]].          (** #error *)
  Definition c_macros : list (ttype * re) :=
    [(TCPreprocessor,
      Cat (Cap 0 (alts (map word c_directives)))
        (Star true (Cap 0 (Alt (Cat (chr 92) (chr 10)) (none_of [40; 10; 124; 47; 42; 41])))))].

  (** stack_parser.py:188-201, the names of the presets. *)
  Inductive preset := Python_preprocessor | Cpp | Java | Javascript | Simple.
  Definition specification (l : preset) : list (ttype * re) :=
    match l with
    | Python_preprocessor => python_strings_and_comments ++ basic
    | Cpp => c_macros ++ c_comments ++ c_strings ++ basic
    | Java | Javascript => c_comments ++ c_strings ++ basic
    | Simple => basic
    end.
  (** What [encode] goes through (stack_parser.py:121). *)
  Definition preset_lex (l : preset) (code : text) : list (text * ttype) := finditer (specification l) code.
End Presets.
