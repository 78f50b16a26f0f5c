(** What a reader of these texts sees, independently of how they are written. *)
From Coq Require Import List ZArith QArith Bool Ascii String DecimalString.
From Verif Require Import Otx_Model.
Import ListNotations.
Local Open Scope list_scope.

(** ** The options file, as documented: a word (name), a word (value), a # where a word could start begins a
    comment up to the end of the line. *)
Definition blank (c : ascii) : bool := Ascii.eqb c " " || Ascii.eqb c (ascii_of_nat 9) || Ascii.eqb c (ascii_of_nat 10).

(** Where the reader is: between words, in a comment, in a word (its letters so far, last first). *)
Inductive mode := Between | Comment | Word (w : text).
Fixpoint words (m : mode) (s : text) : list text :=
  match s with
  | [] => match m with Word w => [rev w] | _ => [] end
  | c :: s =>
      match m with
      | Comment => words (if Ascii.eqb c (ascii_of_nat 10) then Between else Comment) s
      | Between => if blank c then words Between s else if Ascii.eqb c "#" then words Comment s else words (Word [c]) s
      | Word w => if blank c then rev w :: words Between s else words (Word (c :: w)) s
      end
  end.
(** Names and values; None: a name without value. *)
Fixpoint pairs (l : list text) : option (list (text * text)) :=
  match l with
  | [] => Some []
  | n :: v :: l => match pairs l with Some r => Some ((n, v) :: r) | None => None end
  | [_] => None
  end.
Definition read_options (s : text) : option (list (text * text)) := pairs (words Between s).

(** What can be a value: a word not looking like a comment. *)
Definition a_word (s : text) : Prop := s <> [] /\ forallb (fun c => negb (blank c)) s = true /\ hd " "%char s <> "#"%char.
(** One line. *)
Definition one_line (s : text) : Prop := ~ In (ascii_of_nat 10) s.

(** Reading an int. *)
Definition int_of (s : text) : option Z :=
  match NilZero.int_of_string (string_of_list_ascii s) with Some d => Some (Z.of_int d) | None => None end.

(** ** LaTeX: the characters seen. \_ is an underscore; \- is a place where the word may be cut, and is not seen;
    other commands are not needed here. *)
Fixpoint seen_tex (s : text) : text :=
  match s with
  | "\"%char :: c :: s => if Ascii.eqb c "-" then seen_tex s else c :: seen_tex s
  | c :: s => c :: seen_tex s
  | [] => []
  end.
(** No character special to TeX but those treated. *)
Definition tex_plain (s : text) : Prop := forall c, In c s -> ~ In c (list_ascii_of_string "\#$%&{}~^").

(** ** HTML: every closing tag closes the last element opened, and nothing is left open. *)
Fixpoint run_html (st : list el) (l : list tag) : option (list el) :=
  match l with
  | [] => Some st
  | Op e _ :: l => run_html (e :: st) l
  | Tx _ :: l => run_html st l
  | Cl e :: l =>
      match st with
      | f :: st => match e, f with
                   | Table, Table | Tr, Tr | Td, Td | Th, Th | A, A => run_html st l
                   | _, _ => None
                   end
      | [] => None
      end
  end.
Definition well_formed (l : list tag) : Prop := run_html [] l = Some [].
(** Links of a page. *)
Definition links (l : list tag) : list text := flat_map (fun t => match t with Op A h => [h] | _ => [] end) l.
(** The texts of the cells of each row. *)
Fixpoint rows_of (cur : list text) (l : list tag) : list (list text) :=
  match l with
  | [] => []
  | Op Tr _ :: l => rows_of [] l
  | Cl Tr :: l => rev cur :: rows_of [] l
  | Op Td _ :: Tx t :: l => rows_of (t :: cur) l
  | _ :: l => rows_of cur l
  end.

(** ** C332, C333 *)
Definition C333_full : Prop := forall (pr : Q -> text) (n c d : text) (z : Z),
  (-2147483648 <= z <= 2147483647)%Z -> a_word n -> one_line c -> one_line d ->
  exists v, read_options (writeBonminOpt pr [Opt n c d (DInt z)]) = Some [(lit "bonmin." ++ n, v)] /\ int_of v = Some z.
(** ** C334 *)
Definition C334_full : Prop := forall s, tex_plain s -> seen_tex (makeLatex s) = s.
(** ** C335: the links of the table are the anchors of the sections, and no two sections have the same anchor when
    every category has its options together. *)
Definition together (cats : list text) : Prop := forall i j k c,
  (i < j < k)%nat -> nth_error cats i = Some c -> nth_error cats k = Some c -> nth_error cats j = Some c.
Definition C335_full : Prop := forall b1 b2 b3 b4 os,
  let '(page, anch) := latexHtmlDoc b1 b2 b3 b4 os in
  links page = map (fun a => "#"%char :: a) anch /\ (together (map o_cat os) -> NoDup anch).
(** What a category is known by in an anchor: its characters that are not blanks, tabs or underscores. *)
Definition bare (s : text) : text :=
  filter (fun c => negb (existsb (Ascii.eqb c) [" "%char; ascii_of_nat 9; "_"%char])) s.
(** ** C336 *)
Definition C336_full : Prop := forall b1 b2 b3 b4 os,
  well_formed (html_list b1 b2 b3 b4 os) /\ well_formed (html_which b1 b2 b3 b4 os).
(** ** The values of the options file *)
(** Characters of printed numbers. *)
Definition prints_numbers (pr : Q -> text) : Prop := forall q,
  pr q <> [] /\ forall c, In c (pr q) -> In c (list_ascii_of_string "0123456789+-.e").
(** The words that stand for the largest numbers. *)
Definition standing_for (s : text) : Prop :=
  In s (map list_ascii_of_string ["DBL_MAX"; "-DBL_MAX"; "INT_MAX"; "-INT_MAX"]%string).
(** An option that can be written in the file. *)
Definition writable (o : opt) : Prop :=
  a_word (o_name o) /\ one_line (o_cat o) /\ one_line (o_desc o) /\
  match o_def o with
  | DStr s => a_word s /\ ~ standing_for s
  | DNum q => - inject_Z (2 ^ 1024 - 2 ^ 971) <= q <= inject_Z (2 ^ 1024 - 2 ^ 971)
  | DInt z => (-2147483648 < z <= 2147483647)%Z
  | DUnknown => False
  end.
(** The value read is the default: the text for a string, the number for an int, the digits printed for a double. *)
Definition is_default (pr : Q -> text) (o : opt) (v : text) : Prop :=
  match o_def o with
  | DStr s => v = s
  | DNum q => exists q', q' == q /\ v = pr q'
  | DInt z => int_of v = Some z
  | DUnknown => False
  end.
