(** Texts written about the options: the default options file, LaTeX names, the HTML table and the
    document it belongs to.
    src/Interfaces/BonRegisteredOptions.cpp: makeLatex 29-43, makeSpaceLess 45-59, makeString 81-107,
    makeNumber 109-131, OptionType2Char 142-150, defaultAsString 152-163, writeHtmlOptionsTable 249-302,
    writeLatexHtmlDoc 305-334, writeBonminOpt 337-365.
    Simplifications: a text is a list of characters; the printing of doubles (six significant digits) is an
    argument; the HTML is a list of tags and texts; of writeLatexHtmlDoc only the table and the anchors.
    The choice and order of the options (chooseOptions) is in Io_Model.v. *)
From Coq Require Import List ZArith QArith Bool Ascii String DecimalString.
From Verif Require Import Base.
Import ListNotations.
Local Open Scope list_scope.

Definition text := list ascii.
(** Literals. *)
Definition lit (s : string) : text := list_ascii_of_string s.
(** std::endl. *)
Definition nl : ascii := ascii_of_nat 10.
Definition tab : ascii := ascii_of_nat 9.
Definition spc : ascii := " "%char.

(** Equality of std::string. *)
Fixpoint teqb (a b : text) : bool :=
  match a, b with
  | [], [] => true
  | x :: a, y :: b => Ascii.eqb x y && teqb a b
  | _, _ => false
  end.

(** ** Options *)

(** Type and default value of an option (Ipopt::RegisteredOption). *)
Inductive dflt := DNum (q : Q) | DInt (z : Z) | DStr (s : text) | DUnknown.
(** Name, category, short description. *)
Record opt := Opt { o_name : text; o_cat : text; o_desc : text; o_def : dflt }.

(** [int_max]: INT_MAX; [dbl_max]: DBL_MAX = (2 - 2^-52) * 2^1023. *)
Definition int_max : Z := 2147483647.
Definition dbl_max : Q := inject_Z (2 ^ 1024 - 2 ^ 971).

(** operator<< for int. *)
Definition pr_int (z : Z) : text := lit (NilZero.string_of_int (Z.to_int z)).

Section Print.
(** operator<< for double. *)
Variable pr : Q -> text.

(** 81-93. *)
Definition makeString_int (v : Z) : text :=
  if (int_max <=? v)%Z then lit "INT_MAX"
  else if (v <=? - int_max)%Z then lit "-INT_MAX"
  else pr_int v.
(** 95-107. *)
Definition makeString_num (v : Q) : text :=
  if Qle_bool dbl_max v then lit "DBL_MAX"
  else if Qle_bool v (- dbl_max) then lit "-DBL_MAX"
  else pr v.
(** 109-131. *)
Definition makeNumber (s : text) : text :=
  if teqb s (lit "DBL_MAX") then pr dbl_max
  else if teqb s (lit "-DBL_MAX") then pr (- dbl_max)
  else if teqb s (lit "INT_MAX") then pr_int int_max
  else if teqb s (lit "-INT_MAX") then pr_int (- int_max)
  else s.
(** 152-163. *)
Definition defaultAsString (o : opt) : text :=
  match o_def o with
  | DNum q => makeString_num q
  | DInt z => makeString_int z
  | DStr s => s
  | DUnknown => lit "Unknown type of option"
  end.

(** os.width(w) with std::ios::left: blanks behind. *)
Definition padded (w : nat) (s : text) : text := s ++ repeat spc (w - List.length s).

(** 355-362: one line. *)
Definition opt_line (o : opt) : text :=
  lit "bonmin." ++ padded 37 (o_name o) ++ [spc] ++ padded 10 (makeNumber (defaultAsString o)) ++ [tab; "#"%char] ++ o_desc o ++ [nl].

(** 348-364; [cat]: registeringCategory. *)
Fixpoint opt_lines (cat : text) (os : list opt) : text :=
  match os with
  | [] => []
  | o :: os =>
      (if teqb (o_cat o) cat then [] else [nl] ++ lit "# registering category: " ++ o_cat o ++ [nl; nl]) ++
      opt_line o ++ opt_lines (o_cat o) os
  end.
(** 337-365, for the options chosen. *)
Definition writeBonminOpt (os : list opt) : text := opt_lines [] os.
End Print.

(** ** LaTeX *)

(** 29-43. *)
Fixpoint makeLatex (s : text) : text :=
  match s with
  | [] => []
  | c :: s => (if Ascii.eqb c "_" || Ascii.eqb c "-" then ["\"%char; c] else [c]) ++ makeLatex s
  end.

(** 45-59. *)
Fixpoint makeSpaceLess (s : text) : text :=
  match s with
  | [] => []
  | c :: s => if Ascii.eqb c " " || Ascii.eqb c tab || Ascii.eqb c "_" then makeSpaceLess s else c :: makeSpaceLess s
  end.

(** ** HTML *)

(** Elements. *)
Inductive el := Table | Tr | Td | Th | A.
(** [Op e h]: opening tag, h its href (empty if none); [Cl e]: closing tag; [Tx]: text. *)
Inductive tag := Op (e : el) (h : text) | Cl (e : el) | Tx (t : text).

(** OptionType2Char, 142-150. *)
Definition type_char (d : dflt) : ascii :=
  match d with DNum _ => "F" | DInt _ => "I" | DStr _ => "S" | DUnknown => "U" end%char.

(** One cell. *)
Definition cell (t : text) : list tag := [Op Td []; Tx t; Cl Td].

Section Html.
(** isValidForBBB, BOA, BQG, Hybrid. *)
Variables vBBB vBOA vBQG vHyb : text -> bool.
(** '+' or '-'. *)
Definition mark (b : bool) : text := if b then ["+"%char] else ["-"%char].

(** 266-275: up to the heading. *)
Definition html_head : list tag :=
  [Op Table []; Op Tr []] ++ cell (lit "Option ") ++ cell (lit " type ") ++ cell (lit " B-BB") ++ cell (lit " B-OA") ++
  cell (lit " B-QG") ++ cell (lit " B-Hyb") ++ [Cl Tr].
(** 280-287: the heading of a category. *)
Definition html_cat (c : text) : list tag :=
  [Op Tr []; Op Th []; Op A (lit "#sec:" ++ makeSpaceLess c); Tx c; Cl A; Cl Th; Cl Tr].
(** 289-297. *)
Definition html_row (o : opt) : list tag :=
  [Op Tr []] ++ cell (o_name o) ++ cell [type_char (o_def o)] ++ cell (mark (vBBB (o_name o))) ++
  cell (mark (vBOA (o_name o))) ++ cell (mark (vBQG (o_name o))) ++ cell (mark (vHyb (o_name o))) ++ [Cl Tr].
(** 276-298. *)
Fixpoint html_rows (cat : text) (os : list opt) : list tag :=
  match os with
  | [] => []
  | o :: os => (if teqb (o_cat o) cat then [] else html_cat (o_cat o)) ++ html_row o ++ html_rows (o_cat o) os
  end.
(** 299-301: the end. *)
Definition html_tail : list tag := [Cl Tr; Cl Table].
(** writeHtmlOptionsTable for a list, 263-302. *)
Definition html_list (os : list opt) : list tag := html_head ++ html_rows [] os ++ html_tail.
(** writeHtmlOptionsTable for a kind of category, 250-259. *)
Definition html_which (os : list opt) : list tag := [Op Table []] ++ html_list os.

(** writeLatexHtmlDoc, 321-334: the \label and \htmlanchor of the sections. *)
Fixpoint anchors (cat : text) (os : list opt) : list text :=
  match os with
  | [] => []
  | o :: os => (if teqb (o_cat o) cat then [] else [lit "sec:" ++ makeSpaceLess (o_cat o)]) ++ anchors (o_cat o) os
  end.
(** writeLatexHtmlDoc, 306-335: the table and the anchors. *)
Definition latexHtmlDoc (os : list opt) : list tag * list text := (html_list os, anchors [] os).
End Html.
