(** Problems given as AMPL files: what AmplTMINLP makes of the counts and suffixes of the AMPL solver library, what it reports back,
    and the readers of solution and name files.
    src/Interfaces/Ampl/BonAmplTMINLP.cpp, sos_kludge.cpp, BonSolReader.cpp, src/Interfaces/BonColReader.cpp, BonColReader.hpp,
    BonTMINLP.cpp 88-136, BonTMINLP.hpp 171-207.
    Simplifications.  Doubles are exact rationals, ints are unbounded.  The AMPL library (ASL) and Ipopt's AmplTNLP are not in the
    repository: the counts, suffix arrays, SOS arrays and gradients they deliver are arguments; leaving by exit(ERROR_IN_AMPL_SUFFIXES)
    or by a throw is [Thrown].  Files are the lists of their words, as operator>> sees them. *)
From Coq Require Import Ascii String.
From Verif Require Import Base Arr.
#[local] Open Scope list_scope.
#[local] Open Scope Q_scope.

(** ** Variables *)
(** get_discrete_info: nlvb, nlvbi, nlvc, nlvci, nlvo, nlvoi, nbv, niv of ASL. *)
Record counts := mkCounts { nlvb : Z; nlvbi : Z; nlvc : Z; nlvci : Z; nlvo : Z; nlvoi : Z; nbv : Z; niv : Z }.
Inductive vtype := Continuous | Binary | Integer.
(** for (i = s ; i < e ; i++) a[i] = v. *)
Definition fill {A} (s e : Z) (v : A) (a : arr A) : outcome (arr A) :=
  if (e <=? s)%Z then Ok a else if (s <? 0)%Z then OutOfBounds else ablit (Z.to_nat s) (repeat v (Z.to_nat (e - s))) a.
(** get_variables_types, 484-564; [a]: the caller's array. *)
Definition variables_types (c : counts) (n : Z) (a : arr vtype) : outcome (arr vtype) :=
  let e1 := (nlvb c - nlvbi c)%Z in do a <- fill 0 e1 Continuous a;
  let e2 := (e1 + nlvbi c)%Z in do a <- fill e1 e2 Integer a;
  let e3 := Z.max e2 (e2 + nlvc c - nlvci c - nlvb c) in do a <- fill e2 e3 Continuous a;
  let e4 := (e3 + nlvci c)%Z in do a <- fill e3 e4 Integer a;
  let e5 := Z.max e4 (e4 + nlvo c - Z.max (nlvb c) (nlvc c) - nlvoi c) in do a <- fill e4 e5 Continuous a;
  let e6 := (e5 + nlvoi c)%Z in do a <- fill e5 e6 Integer a;
  let e7 := (n - nbv c - niv c)%Z in do a <- fill e6 e7 Continuous a;
  let e8 := (e7 + nbv c)%Z in do a <- fill e7 e8 Binary a;
  let e9 := (e8 + niv c)%Z in fill e8 e9 Integer a.
(** get_variables_linearity, 566-602; true: linear. *)
Definition variables_linearity (c : counts) (n : Z) (a : arr bool) : outcome (arr bool) :=
  let e := Z.max (nlvc c) (nlvo c) in do a <- fill 0 e false a; fill e n true a.
(** hasLinearObjective_, 196-199. *)
Definition linear_objective (c : counts) : bool := ((nlvb c =? 0) && (nlvo c =? 0))%Z%bool.
(** for (i = s ; i < e ; i++) obj[i] = 0. *)
Fixpoint zeros (k i : nat) (obj : list Q) : outcome (list Q) :=
  match k with O => Ok obj | S k => do obj <- lset i 0 obj; zeros k (S i) obj end.
Definition zero (s e : Z) (obj : list Q) : outcome (list Q) :=
  if (e <=? s)%Z then Ok obj else if (s <? 0)%Z then OutOfBounds else zeros (Z.to_nat (e - s)) (Z.to_nat s) obj.
(** getLinearPartOfObjective, 784-823; [grad]: what eval_grad_f writes. *)
Definition linear_part (c : counts) (grad : list Q) : outcome (list Q) :=
  do o <- zero 0 (nlvb c) grad;
  let s := (nlvb c + nlvc c)%Z in zero s (s + nlvo c) o.

(** ** Suffixes of variables: read_priorities, 211-252 *)
Section Dir.
(** A double in memory, seen as two ints. *)
Variable words : Q -> Z * Z.
Definition as_ints (l : list Q) : list Z := flat_map (fun q => [fst (words q); snd (words q)]) l.
Definition copy_of {A} (n : nat) (l : list A) : outcome (list A) := if Nat.leb n (length l) then Ok (firstn n l) else OutOfBounds.
Definition copy_opt {A} (n : nat) (l : option (list A)) : outcome (option (list A)) :=
  match l with None => Ok None | Some l => do r <- copy_of n l; Ok (Some r) end.
Record vsuff := mkVsuff { x_pri : option (list Z); x_dir : option (list Q); x_up : option (list Q); x_dw : option (list Q) }.
Record branching := mkBranching { r_pri : option (list Z); r_dir : option (list Z); r_up : option (list Q); r_dw : option (list Q) }.
(** "direction" is declared a number suffix (139) and fetched with GetIntegerSuffixValues (221), which hands out the member [i] of
    the union of ASL's SufDesc. *)
Definition read_priorities (n : nat) (x : vsuff) : outcome branching :=
  do p <- copy_opt n (x_pri x);
  do d <- copy_opt n (option_map as_ints (x_dir x));
  let up := match x_up x with None => x_dw x | u => u end in
  let dw := match x_dw x with None => x_up x | d => d end in
  do u <- copy_opt n up; do w <- copy_opt n dw;
  Ok (mkBranching (option_map (map (fun z => - z + 9999)%Z) p) d u w).
End Dir.

(** ** Special ordered sets: sos_kludge.cpp 27-45 and read_sos, 254-297 *)
Definition tiny : Q := 1 # 10000000000.
(** The while loop: [n] turns from position [j]. *)
Fixpoint kludge_in (n j : nat) (t : Q) (ref : list Q) : outcome (list Q) :=
  match n with
  | O => Ok ref
  | S n => do t1 <- rd j ref;
           let t := t + tiny in
           if Qle_bool t1 t then do ref <- lset j (t + tiny) ref; kludge_in n (S j) (t + tiny) ref else kludge_in n (S j) t1 ref
  end.
(** [ends]: sosbeg[1], sosbeg[2], ... *)
Fixpoint kludge (ends : list nat) (j : nat) (ref : list Q) : outcome (list Q) :=
  match ends with
  | [] => Ok ref
  | k :: ends => do t <- rd j ref; do ref <- kludge_in (k - S j) (S j) t ref; kludge ends (Nat.max (S j) k) ref
  end.
(** Types are characters: '0' is 48. *)
Fixpoint sos_types (l : list Z) : outcome (list Z) :=
  match l with
  | [] => Ok []
  | c :: l => let i := (c - 48)%Z in if ((i =? 1) || (i =? 2))%Z%bool then do r <- sos_types l; Ok (i :: r) else Thrown
  end.
(** What suf_sos delivers, and how many constraints are left. *)
Record sufsos := mkSos { z_num : nat; z_types : list Z; z_starts : list nat; z_weights : list Q; z_m : nat }.
Definition read_sos (m : nat) (z : sufsos) : outcome (list Z * list Q) :=
  if negb (Nat.eqb m (z_m z)) then Thrown
  else if Nat.eqb (z_num z) 0 then Ok ([], [])
  else do w <- kludge (firstn (z_num z) (tl (z_starts z))) 0 (z_weights z); do t <- sos_types (firstn (z_num z) (z_types z)); Ok (t, w).

(** ** Objectives: read_obj_suffixes, 299-331.  Result: the objective made active, if any, and upperBoundingObj_. *)
Fixpoint last_mark (i : nat) (l : list Z) (r : option nat) : option nat :=
  match l with [] => r | z :: l => last_mark (S i) l (if (z =? 1)%Z then Some i else r) end.
Definition read_obj (nobj : nat) (ub : option (list Z)) : outcome (option nat * option nat) :=
  if Nat.ltb nobj 2 then Ok (None, None)
  else match ub with
       | None => Ok (Some 0%nat, None)
       | Some l => do z <- rd 0 l; do l <- copy_of nobj l; Ok (Some (if (z =? 1)%Z then 1 else 0)%nat, last_mark 0 l None)
       end.

(** ** Maps from identifiers to variables: id_map[id[i]] = i, the last assignment counts. *)
Fixpoint id_map (i : nat) (ids : list Z) (k : Z) (r : option nat) : option nat :=
  match ids with [] => r | z :: ids => id_map (S i) ids k (if (z =? k)%Z then Some i else r) end.
(** ** read_convexities, 354-425.  [grads]: the variables of each constraint (Cgrad).  A result (c, y, x) per marked constraint. *)
Fixpoint concaves (ids : list Z) (i : nat) (pv : list Z) (grads : list (list nat)) : outcome (list (nat * nat * nat)) :=
  match pv with
  | [] => Ok []
  | z :: pv =>
      if (z =? 0)%Z then concaves ids (S i) pv grads
      else let y := match id_map 0 ids z None with Some y => y | None => 0%nat end in     (* operator[] inserts 0 *)
           do g <- rd i grads;
           match g with
           | [a; b] =>
               if Nat.eqb a y then do r <- concaves ids (S i) pv grads; Ok ((i, y, b) :: r)
               else if Nat.eqb b y then do r <- concaves ids (S i) pv grads; Ok ((i, y, a) :: r) else Thrown
           | _ => Thrown
           end
  end.
Definition read_convexities (ids pv : option (list Z)) (grads : list (list nat)) : outcome (list (nat * nat * nat)) :=
  match pv with
  | None => Ok []
  | Some pv => match ids with None => Thrown | Some ids => concaves ids 0 pv grads end
  end.
(** ** read_onoff, 428-475: c_extra_id_; None is -1. *)
Fixpoint onoff_map (i : nat) (ids : list Z) (k : Z) (r : option nat) : option nat :=
  match ids with [] => r | z :: ids => onoff_map (S i) ids k (if ((0 <? z) && (z =? k))%Z%bool then Some i else r) end.
Fixpoint onoffs (v : list Z) (c : list Z) : outcome (list (option nat)) :=
  match c with
  | [] => Ok []
  | z :: c => if (0 <? z)%Z then match onoff_map 0 v z None with Some j => do r <- onoffs v c; Ok (Some j :: r) | None => Thrown end
              else do r <- onoffs v c; Ok (None :: r)
  end.
Definition read_onoff (c v : option (list Z)) : outcome (option (list (option nat))) :=
  match c, v with
  | None, None => Ok None
  | Some c, Some v => do r <- onoffs v c; Ok (Some r)
  | _, _ => Thrown
  end.

(** ** finalize_solution, 706-757 *)
Inductive status := Success | Infeasible | Unbounded | Limit | User | Error.
Definition solve_code (s : status) (has : bool) : Z :=
  match s with
  | Success => 3 | Infeasible => 220 | Unbounded => 300
  | Limit => if has then 421 else 410
  | User => if has then 422 else 411
  | Error => 500
  end%Z.
#[local] Open Scope string_scope.
(** Words of a file. *)
Inductive tok := W (s : string) | N (q : Q).
(** The message, word by word; [app] is one word. *)
Definition message (app : string) (s : status) : list tok :=
  match s with
  | Success => [W (app ++ ":"); W "Optimal"]
  | Infeasible => [W (app ++ ":"); W "Infeasible"; W "problem"]
  | Unbounded => [W app; W "Continuous"; W "relaxation"; W "is"; W "unbounded."]
  | Limit => [W (app ++ ":"); W "Optimization"; W "interrupted"; W "on"; W "limit."]
  | User => [W (app ++ ":"); W "Optimization"; W "interrupted"; W "by"; W "user."]
  | Error => [W (app ++ ":"); W "Error"; W "encountered"; W "in"; W "optimization."]
  end.
Definition num (n : nat) : tok := N (inject_Z (Z.of_nat n)).
(** write_sol of ASL for text files: message, three options, sizes, no dual values, the primal values, objno and the code. *)
Definition sol_file (msg : list tok) (m n : nat) (x : option (list Q)) (code : Z) : list tok :=
  (msg ++ [W "Options"; N 3; N 1; N 1; N 0; num m; num 0; num n; num (match x with Some l => length l | None => 0 end)]
   ++ map N (match x with Some l => l | None => [] end) ++ [W "objno"; N 0; N (inject_Z code)])%list.
(** The own file: index and value on each line, then -1. *)
Fixpoint own_file (i : nat) (x : list Q) : list tok := match x with [] => [N (-1)] | v :: x => num i :: N v :: own_file (S i) x end.
(** [amplfile]: writeAmplSolFile_, the number of the value of file_solution: 0 for yes, 1 for no (120; BonOsiTMINLPInterface.cpp 84-88). *)
Definition finalize (app : string) (amplfile : bool) (s : status) (m n : nat) (x : option (list Q)) : outcome (list tok * Z) :=
  let code := solve_code s (match x with Some _ => true | None => false end) in
  if amplfile then do v <- copy_opt n x; Ok (sol_file (message app s) m n v code, code)
  else match x with
       | Some l => do l <- copy_of n l; Ok (own_file 0 l, code)
       | None => if Nat.eqb n 0 then Ok (own_file 0 [], code) else NullDeref
       end.

(** ** SolReader::readFile, BonSolReader.cpp 29-64 *)
(** A stream: what is left and whether a read has failed. *)
Definition stream := (list tok * bool)%type.
(** A word: fails only at the end. *)
Definition get_word (s : stream) : option tok * stream :=
  match s with (_, true) => (None, s) | ([], _) => (None, ([], true)) | (t :: l, _) => (Some t, (l, false)) end.
(** A number: a word that is none makes the read fail and gives 0; after a failure the variable stays. *)
Definition get_num (old : Q) (s : stream) : Q * stream :=
  match s with
  | (_, true) => (old, s)
  | ([], _) => (0, ([], true))
  | (N q :: l, _) => (q, (l, false))
  | (W w :: l, _) => (0, (W w :: l, true))
  end.
Fixpoint skip (n : nat) (s : stream) : stream := match n with O => s | S n => skip n (snd (get_word s)) end.
Fixpoint get_nums (old : list Q) (s : stream) : list Q :=
  match old with [] => [] | v :: old => let '(q, s) := get_num v s in q :: get_nums old s end.
Definition is_word (w : string) (t : option tok) : bool := match t with Some (W v) => String.eqb v w | _ => false end.
(** resize of a vector. *)
Definition resize (n : nat) (x : list Q) : list Q := (firstn n x ++ repeat 0%Q (n - length x))%list.
Definition read_sol (file : list tok) (x : list Q) : outcome (list Q) :=
  let '(t, s) := get_word (file, false) in
  do _ <- chk (is_word "bonmin:" t);
  let s := snd (get_word s) in
  let '(t, s) := get_word s in
  if is_word "Options" t then
    let s := skip 6 s in
    let '(_, s) := get_num 0 s in let '(k, s) := get_num 0 s in
    let n := Z.to_nat (Qfloor k) in
    let x := if Nat.eqb n (length x) then x else resize n x in
    Ok (get_nums x s)
  else Ok (get_nums x s).

(** ** File names: BonSolReader.cpp 31-36, BonColReader.cpp 31-36 *)
Definition has_ext (f : list ascii) : bool :=
  (Nat.ltb 4 (length f) && match rev f with l :: n :: d :: _ => (Ascii.eqb l "l" && Ascii.eqb n "n" && Ascii.eqb d ".")%char | _ => false end)%bool.
Definition file_name (f suffix : list ascii) : list ascii := ((if has_ext f then firstn (length f - 3) f else f) ++ suffix)%list.

(** ** NamesReader: BonColReader.cpp 29-66 *)
Section Names.
(** Longest string whose characters are kept in the string object itself. *)
Variable sso : nat.
(** Where the characters of a string are: in the object, which is in a block of the vector, or in a block of its own, which goes along
    when the object is moved. *)
Inductive addr := Inside (gen i : nat) | Apart (i : nat).
(** names_ with its capacity and the number of its current block; indices_ with the addresses of its keys. *)
Record reader := mkReader { k_names : list string; k_cap : nat; k_gen : nat; k_map : list (addr * nat) }.
Definition r0 : reader := mkReader [] 0 0 [].
Definition where_ (gen i : nat) (s : string) : addr := if Nat.leb (String.length s) sso then Inside gen i else Apart i.
(** The characters at an address. *)
Definition chars (r : reader) (a : addr) : outcome string :=
  match a with
  | Inside g i => if Nat.eqb g (k_gen r) then rd i (k_names r) else Dangling
  | Apart i => rd i (k_names r)
  end.
(** push_back: a full vector moves to a block of twice the size. *)
Definition push (s : string) (r : reader) : reader :=
  if Nat.eqb (length (k_names r)) (k_cap r) then mkReader (k_names r ++ [s]) (Nat.max 1 (2 * k_cap r)) (S (k_gen r)) (k_map r)
  else mkReader (k_names r ++ [s]) (k_cap r) (k_gen r) (k_map r).
(** Search in the map.  Simplification: the characters of all keys are looked at, not only of those on the way down the tree. *)
Fixpoint search (r : reader) (m : list (addr * nat)) (s : string) : outcome (option nat) :=
  match m with
  | [] => Ok None
  | (a, i) :: m => do c <- chars r a; do t <- search r m s; Ok (if String.eqb c s then Some i else t)
  end.
(** indices_[names_[i].c_str()] = i: the value of an equal key is replaced. *)
Fixpoint store (r : reader) (m : list (addr * nat)) (s : string) (a : addr) (i : nat) : outcome (list (addr * nat)) :=
  match m with
  | [] => Ok [(a, i)]
  | (b, j) :: m => do c <- chars r b; if String.eqb c s then do _ <- search r m s; Ok ((b, i) :: m) else do m <- store r m s a i; Ok ((b, j) :: m)
  end.
Definition add_name (s : string) (r : reader) : outcome reader :=
  let i := length (k_names r) in let r := push s r in
  do m <- store r (k_map r) s (where_ (k_gen r) i s) i; Ok (mkReader (k_names r) (k_cap r) (k_gen r) m).
Fixpoint add_names (l : list string) (r : reader) : outcome reader :=
  match l with [] => Ok r | s :: l => do r <- add_name s r; add_names l r end.
(** index: 54-56 of the header; operator[] gives 0 for a name that is not there. *)
Definition index (r : reader) (s : string) : outcome nat := do o <- search r (k_map r) s; Ok (match o with Some i => i | None => 0%nat end).
(** The loop of asserts, 56-58. *)
Fixpoint check_names (r : reader) (i : nat) (l : list string) : outcome unit :=
  match l with [] => Ok tt | s :: l => do k <- index r s; do _ <- chk (Nat.eqb k i); check_names r (S i) l end.
Definition read_names (file : list string) : outcome reader :=
  do r <- add_names file r0; do _ <- check_names r 0 (k_names r); Ok r.
(** copyNames, 61-65: the reader afterwards and the caller's vector. *)
Definition copy_names (r : reader) (names : list string) : reader * list string := (mkReader names (k_cap r) (k_gen r) (k_map r), names).
End Names.

(** ** PerturbInfo: BonTMINLP.cpp 88-96.  The pointer: null, an array, or one that was deleted. *)
Inductive ptr := Null | Live (l : list Q) | Freed.
Definition set_perturb (n : nat) (a : option (list Q)) (p : ptr) : outcome ptr :=
  match p with
  | Freed => Dangling                                                  (* deleted again *)
  | _ => match a with
         | Some l => do l <- copy_of n l; Ok (Live l)
         | None => Ok (match p with Null => Null | _ => Freed end)
         end
  end.
Definition get_perturb (p : ptr) : outcome (option (list Q)) := match p with Null => Ok None | Live l => Ok (Some l) | Freed => Dangling end.

(** ** hasGeneralInteger, BonTMINLP.cpp 111-133 *)
Fixpoint general_integer (t : list vtype) (lo up : list Q) : outcome bool :=
  match t, lo, up with
  | [], _, _ => Ok false
  | t :: ts, l :: lo, u :: up =>
      if (match t with Integer => true | _ => false end && (Qltb l (- (99 # 100)) || Qltb (99 # 100) l || Qltb u (1 # 100) || Qltb (199 # 100) u))%bool then Ok true
      else general_integer ts lo up
  | _, _, _ => OutOfBounds
  end.
