(** The syntax of patterns as a grammar: which texts are patterns and which
    trees they stand for.  Independent of the parser; C31-C35 are about it.
    Source: the tables of /repo/README.md (sections "Supported syntax" and
    "Escape sequences"), completed by what the rules of
    /repo/include/mregex/grammar do where the tables are silent. *)
From Verif Require Export Parser Normal.

Notation text := (list ascii).

(** ** Characters *)

Definition among (c : ascii) (l : text) : bool := existsb (Ascii.eqb c) l.

(** Characters that stand for themselves. *)
Definition ordinary (c : ascii) : bool := negb (among c (str "\[(){|*+?.^$")).

Definition not_digit (t : text) : Prop :=
  match t with [] => True | c :: _ => is_digit c = false end.

(** The value of a hexadecimal digit, by a table. *)
Definition nibbles : list (ascii * N) :=
  [("0", 0); ("1", 1); ("2", 2); ("3", 3); ("4", 4); ("5", 5); ("6", 6); ("7", 7); ("8", 8); ("9", 9);
   ("a", 10); ("b", 11); ("c", 12); ("d", 13); ("e", 14); ("f", 15);
   ("A", 10); ("B", 11); ("C", 12); ("D", 13); ("E", 14); ("F", 15)]%char%N.

Definition controls : list (ascii * ascii) :=
  [("0", "000"); ("n", "010"); ("r", "013"); ("t", "009"); ("f", "012"); ("v", "011");
   ("a", "007"); ("e", "027")]%char.

Definition class_escapes : list (ascii * node) :=
  [("d", n_digit); ("D", Neg n_digit); ("w", n_word); ("W", Neg n_word);
   ("s", n_whitespace); ("S", Neg n_whitespace); ("R", n_linebreak); ("N", Neg n_linebreak)]%char.

(** Escapes for one character: hexadecimal, named, or the character itself when
    it is not one of [special]. *)
Inductive char_escape (named : list (ascii * ascii)) (special : text) : text -> ascii -> Prop :=
| ce_hex h1 h2 a b : In (h1, a) nibbles -> In (h2, b) nibbles ->
    char_escape named special ["\"; "x"; h1; h2]%char (ascii_of_N (16 * a + b))
| ce_named c v : In (c, v) named -> char_escape named special ["\"%char; c] v
| ce_self c : among c special = false -> char_escape named special ["\"%char; c] c.

(** Outside of sets, and in sets. *)
Definition escape : text -> ascii -> Prop :=
  char_escape controls (str "kx0123456789nrtfvaedDwWsSRNbBAZ").
Definition set_escape : text -> ascii -> Prop :=
  char_escape (("b", "008")%char :: controls) (str "x0nrtfvaedDwWsSRNb").

Inductive class_escape : text -> node -> Prop :=
| class_escape_in c n : In (c, n) class_escapes -> class_escape ["\"%char; c] n.

Definition anchors : list (text * node) :=
  [(str "^", BeginLine); (str "$", EndLine); (str "\A", BeginInput); (str "\Z", EndInput);
   (str "\b", WordB); (str "\B", Neg WordB)].

(** ** Sets *)

(** The elements that a node adds to a set. *)
Definition elements (n : node) : list node := match n with CSet l => l | _ => [n] end.

Definition is_lit (n : node) : bool := match n with Lit _ => true | _ => false end.

(** A character behind a dash. *)
Inductive range_end : text -> ascii -> Prop :=
| range_plain c : among c (str "\]") = false -> range_end [c] c
| range_escape t c : set_escape t c -> range_end t c.

(** The text between the brackets, left to right; the elements collected so far
    and in the end are in reverse order.  [fresh]: at the beginning or behind a
    range, where a dash is an ordinary character.  A dash behind a character
    makes a range, a dash behind a class is ordinary.  The class [\R] counts as
    the character [\n] here (finding F8). *)
Inductive set_body : bool -> list node -> text -> list node -> Prop :=
| set_end fresh l : set_body fresh l [] l
| set_char fresh l c t l' : among c (str "\]-") = false ->
    set_body false (Lit c :: l) t l' -> set_body fresh l (c :: t) l'
| set_dash l t l' : set_body false (Lit "-" :: l) t l' -> set_body true l ("-"%char :: t) l'
| set_escaped fresh l e c t l' : set_escape e c ->
    set_body false (Lit c :: l) t l' -> set_body fresh l (e ++ t) l'
| set_class fresh l e n t l' : class_escape e n ->
    set_body false (elements n ++ l) t l' -> set_body fresh l (e ++ t) l'
| set_range a l e b t l' : range_end e b ->
    set_body true (Range a b :: l) t l' -> set_body false (Lit a :: l) ("-"%char :: e ++ t) l'
| set_class_dash x l e b t l' : is_lit x = false -> range_end e b ->
    set_body true (Lit b :: Lit "-" :: x :: l) t l' -> set_body false (x :: l) ("-"%char :: e ++ t) l'
| set_last_dash l : set_body false l (str "-") (Lit "-" :: l).

(** ** Quantifiers and groups *)

(** The number a list of decimal digits stands for. *)
Definition decimal (ds : text) : N := fold_left (fun a c => 10 * a + (code c - 48))%N ds 0%N.

Definition numeral_text (ds : text) : Prop := ds <> [] /\ forallb is_digit ds = true.

(** Bounds, with arbitrary numerals.  Numbers are [std::size_t] (finding F9). *)
Inductive bounds : text -> N -> quantifier -> Prop :=
| bounds_star : bounds (str "*") 0 Inf
| bounds_plus : bounds (str "+") 1 Inf
| bounds_opt : bounds (str "?") 0 (Fin 1)
| bounds_exact ds : numeral_text ds ->
    bounds (str "{" ++ ds ++ str "}") (size_t (decimal ds)) (Fin (size_t (decimal ds)))
| bounds_least ds : numeral_text ds ->
    bounds (str "{" ++ ds ++ str ",}") (size_t (decimal ds)) Inf
| bounds_range ds es : numeral_text ds -> numeral_text es ->
    bounds (str "{" ++ ds ++ str "," ++ es ++ str "}") (size_t (decimal ds)) (Fin (size_t (decimal es))).

Definition mode_text (md : match_mode) : text :=
  match md with Greedy => [] | Lazy => str "?" | Possessive => str "+" end.

(** What stands behind "(", and what the group means.  Groups are numbered
    later; the number here is arbitrary. *)
Inductive opening : text -> (node -> node) -> Prop :=
| open_capture : opening [] (Cap 0 None)
| open_name nm : valid_name nm = true -> opening (str "?<" ++ nm ++ str ">") (Cap 0 (Some nm))
| open_plain : opening (str "?:") (fun n => n)
| open_atomic : opening (str "?>") atomic
| open_ahead : opening (str "?=") (Look Ahead)
| open_not_ahead : opening (str "?!") (fun n => Neg (Look Ahead n))
| open_behind : opening (str "?<=") (Look Behind)
| open_not_behind : opening (str "?<!") (fun n => Neg (Look Behind n)).

(** Concatenation and alternation; nested concatenations, and alternations on
    the left, are flattened (ast/build.hpp:115-153). *)
Definition parts (n : node) : list node := match n with Seq l => l | _ => [n] end.
Definition branches (n : node) : list node := match n with Alt l => l | _ => [n] end.
Definition cat (n m : node) : node := Seq (parts n ++ parts m).
Definition or (n m : node) : node := Alt (branches n ++ [m]).

(** ** Patterns *)

(** What may follow: anything that the grammar offers, anything but a digit
    (behind a numbered backreference), or only the end of the group. *)
Inductive after := Anything | NoDigit | GroupEnd.

Definition ends_alt (rest : text) : Prop :=
  match rest with [] => True | c :: _ => c = ")"%char end.

Definition allows (f : after) (rest : text) : Prop :=
  match f with Anything => True | NoDigit => not_digit rest | GroupEnd => ends_alt rest end.

(** [piece]: what can take a quantifier.  [suffix f n t f' n']: the text [t]
    behind a piece [n].  [more_items], [more_branches]: what follows the first
    item of a concatenation, the first branch of an alternation.
    [q_brace]: a "{" that is not followed by a digit stands for itself, and
    everything up to the end of the group is taken together with the piece in
    front of it (finding F7). *)
Inductive piece : after -> text -> node -> Prop :=
| u_char c : ordinary c = true -> piece Anything [c] (Lit c)
| u_dot : piece Anything (str ".") Wild
| u_escape t c : escape t c -> piece Anything t (Lit c)
| u_class t n : class_escape t n -> piece Anything t n
| u_set t l : hd_error t <> Some "^"%char -> set_body true [] t l ->
    piece Anything (str "[" ++ t ++ str "]") (CSet l)
| u_not_set t l : set_body true [] t l -> piece Anything (str "[^" ++ t ++ str "]") (Neg (CSet l))
| u_group o F t n : opening o F -> body t n -> piece Anything (str "(" ++ o ++ t ++ str ")") (F n)
| u_backref d ds : is_digit d = true -> d <> "0"%char -> forallb is_digit ds = true ->
    piece NoDigit (str "\" ++ d :: ds) (Backref (size_t (decimal (d :: ds))))
| u_named nm : valid_name nm = true -> piece Anything (str "\k<" ++ nm ++ str ">") (NBackref nm)
with item : after -> text -> node -> Prop :=
| i_anchor t n : In (t, n) anchors -> item Anything t n
| i_unit f t n t' f' n' : piece f t n -> suffix f n t' f' n' -> item f' (t ++ t') n'
with suffix : after -> node -> text -> after -> node -> Prop :=
| q_none f n : suffix f n [] f n
| q_rep f n q lo hi md : bounds q lo hi -> suffix f n (q ++ mode_text md) Anything (Rep md lo hi n)
| q_brace f n t1 f1 n1 t2 f2 n2 t3 f3 n3 :
    suffix Anything (Lit "{") t1 f1 n1 -> more_items f1 (cat n n1) t2 f2 n2 ->
    more_branches f2 n2 t3 f3 n3 -> not_digit (t1 ++ t2 ++ t3) ->
    suffix f n (str "{" ++ t1 ++ t2 ++ t3) GroupEnd n3
with more_items : after -> node -> text -> after -> node -> Prop :=
| m_none f n : more_items f n [] f n
| m_item f n t1 f1 n1 t2 f2 n2 : item f1 t1 n1 -> allows f t1 ->
    more_items f1 (cat n n1) t2 f2 n2 -> more_items f n (t1 ++ t2) f2 n2
with more_branches : after -> node -> text -> after -> node -> Prop :=
| o_none f n : more_branches f n [] f n
| o_branch f n t1 f1 n1 t2 f2 n2 : branch f1 t1 n1 -> f <> GroupEnd ->
    more_branches f1 (or n n1) t2 f2 n2 -> more_branches f n (str "|" ++ t1 ++ t2) f2 n2
with branch : after -> text -> node -> Prop :=
| b_items f0 t0 n0 t1 f n : item f0 t0 n0 -> more_items f0 n0 t1 f n -> branch f (t0 ++ t1) n
with body : text -> node -> Prop :=
| y_empty : body [] Empty
| y_branches f1 t1 n1 t2 f n : branch f1 t1 n1 -> more_branches f1 n1 t2 f n -> body (t1 ++ t2) n.

Scheme piece_mind := Minimality for piece Sort Prop
  with item_mind := Minimality for item Sort Prop
  with suffix_mind := Minimality for suffix Sort Prop
  with more_items_mind := Minimality for more_items Sort Prop
  with more_branches_mind := Minimality for more_branches Sort Prop
  with branch_mind := Minimality for branch Sort Prop
  with body_mind := Minimality for body Sort Prop.
Combined Scheme pattern_mind from piece_mind, item_mind, suffix_mind, more_items_mind,
  more_branches_mind, branch_mind, body_mind.
