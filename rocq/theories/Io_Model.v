(** Model of the data descriptions a problem hands to the solver, of the diagnostic files, of the
    option tables and of the C interface:
    BonTMINLP.{hpp,cpp}, BonBoundsReader.cpp, BonStartPointReader.cpp, BonTNLPSolver.cpp
    (writeDiffFiles), BonTMINLP2TNLP.cpp (outputDiffs), BonRegisteredOptions.{hpp,cpp},
    BonStdCInterface.cpp, BonStdInterfaceTMINLP.{hpp,cpp}. *)
From Verif Require Import Base Arr.
#[local] Open Scope Q_scope.

(** * SOS description: BonTMINLP.hpp 86-122 *)
(** A pointer is None when NULL; a cell of an array is None until it is written. *)
Record sos := { s_num : nat; s_types : option (arr Z); s_prior : option (arr Z);
                s_nnz : nat; s_starts : option (arr Z); s_ind : option (arr Z); s_wgt : option (arr Q) }.
(** source.a[i] = a[i] for i < k (BonTMINLP.cpp 47-55): the left-hand side is the array of the
    object being copied, the right-hand side the array just allocated.  Moving an indeterminate
    cell is already undefined in C++; it is modelled as a move of the indeterminate content, any
    later use of which is the outcome Uninit. *)
Fixpoint move_cells {A} (k : nat) (src dst : arr A) : outcome (arr A) :=   (* src[i] <- dst[i], returns src *)
  match k with
  | O => Ok src
  | S k' => do src' <- move_cells k' src dst;
            if (Nat.ltb k' (length src') && Nat.ltb k' (length dst))%bool
            then Ok (firstn k' src' ++ nth k' dst None :: skipn (S k') src') else OutOfBounds
  end.
Definition nonnull {A} (p : option A) : outcome A := match p with Some a => Ok a | None => AssertFail end.
Definition isnull {A} (p : option A) : bool := match p with None => true | Some _ => false end.
(** SosInfo(const SosInfo&), BonTMINLP.cpp 28-67: returns the new object and the state in which the
    source is left. *)
Definition sos_copy (src : sos) : outcome (sos * sos) :=
  if Nat.ltb 0 (s_num src) then
    do t <- nonnull (s_types src); do p <- nonnull (s_prior src); do st <- nonnull (s_starts src);
    do ix <- nonnull (s_ind src); do w <- nonnull (s_wgt src);
    let n := s_num src in let z := s_nnz src in
    let t' := @fresh Z n in let p' := @fresh Z n in let st' := @fresh Z (S n) in
    let ix' := @fresh Z z in let w' := @fresh Q z in
    do t1 <- move_cells n t t'; do p1 <- move_cells n p p'; do st1 <- move_cells n st st';
    do ix1 <- move_cells z ix ix'; do w1 <- move_cells z w w';
    Ok ({| s_num := n; s_types := Some t'; s_prior := Some p'; s_nnz := z; s_starts := Some st'; s_ind := Some ix'; s_wgt := Some w' |},
        {| s_num := n; s_types := Some t1; s_prior := Some p1; s_nnz := z; s_starts := Some st1; s_ind := Some ix1; s_wgt := Some w1 |})
  else if (isnull (s_types src) && isnull (s_prior src) && isnull (s_starts src) && isnull (s_ind src) && isnull (s_wgt src))%bool
  then Ok ({| s_num := s_num src; s_types := None; s_prior := None; s_nnz := s_nnz src; s_starts := None; s_ind := None; s_wgt := None |}, src)
  else AssertFail.

(** * Branching information: BonTMINLP.hpp 124-169 *)
Record binfo := { b_size : nat; b_prior : option (list Z); b_dir : option (list Z); b_up : option (list Q); b_down : option (list Q) }.
(** CoinCopyOfArray: NULL for NULL, otherwise the first [n] elements. *)
Definition copy_array {A} (p : option (list A)) (n : nat) : outcome (option (list A)) :=
  match p with None => Ok None
  | Some l => if Nat.leb n (length l) then Ok (Some (firstn n l)) else OutOfBounds end.
(** BranchingInfo(const BranchingInfo&), BonTMINLP.hpp 144-152: first gutsOfDestructor, which tests
    and deletes the four pointers of the object under construction.  [left] says, for each, whether
    the memory happens to hold something else than NULL. *)
Definition binfo_copy (left : bool * bool * bool * bool) (o : binfo) : outcome binfo :=
  let '(a, b, c, d) := left in
  if (a || b || c || d)%bool then Dangling else
  do p <- copy_array (b_prior o) (b_size o); do di <- copy_array (b_dir o) (b_size o);
  do u <- copy_array (b_up o) (b_size o); do dn <- copy_array (b_down o) (b_size o);
  Ok {| b_size := b_size o; b_prior := p; b_dir := di; b_up := u; b_down := dn |}.

(** * Perturbation radii: BonTMINLP.hpp 171-204, BonTMINLP.cpp 89-97 *)
(** The pointer: NULL, to a live array, or to a released one. *)
Inductive pptr := PNull | PLive (l : list Q) | PFreed.
Definition del (p : pptr) : outcome unit := match p with PFreed => Dangling | _ => Ok tt end.    (* delete [] *)
Definition setPerturbation (numvars : nat) (a : option (list Q)) (p : pptr) : outcome pptr :=
  do u <- del p;
  match a with
  | Some l => if Nat.leb numvars (length l) then Ok (PLive (firstn numvars l)) else OutOfBounds
  | None => Ok (match p with PNull => PNull | _ => PFreed end)        (* the member still points to the released array *)
  end.
Fixpoint setPerturbations (numvars : nat) (h : list (option (list Q))) (p : pptr) : outcome pptr :=
  match h with [] => Ok p | a :: h' => do p' <- setPerturbation numvars a p; setPerturbations numvars h' p' end.
(** GetPerturbationArray and a use of what it returns. *)
Definition getPerturbation (p : pptr) : outcome (option (list Q)) :=
  match p with PNull => Ok None | PLive l => Ok (Some l) | PFreed => Dangling end.

(** * TMINLP::hasGeneralInteger, BonTMINLP.cpp 112-132 *)
Inductive vtype := CONT | BIN | INT.
Fixpoint hasGeneralInteger (vs : list (vtype * ext * ext)) : bool :=
  match vs with
  | [] => false
  | (t, l, u) :: vs' =>
      match t with
      | INT =>
          if (match l with MInf => true | PInf => true | Fin a => Qltb a (- (99 # 100)) || Qltb (99 # 100) a end ||
              match u with MInf => true | PInf => true | Fin b => Qltb b (1 # 100) || Qltb (199 # 100) b end)%bool
          then true else hasGeneralInteger vs'
      | _ => hasGeneralInteger vs'
      end
  end.

(** * Diagnostic files *)
(** A text file as its tokens; tokens are separated by blanks and TNL is an end of line.  A numeric
    token stands for the number its text is read back as. *)
Inductive side := LO | UP.
Inductive tok := TSide (s : side) | TOther | TInt (z : Z) | TReal (q : Q) | TNL.
(** std::ifstream. *)
Record stream := { rest : list tok; eofb : bool; failb : bool }.
Definition sopen (f : list tok) : stream := {| rest := f; eofb := false; failb := false |}.
Fixpoint skip_nl (l : list tok) : list tok := match l with TNL :: l' => skip_nl l' | _ => l end.
(** The common part of operator>>: nothing happens except failbit when the stream is not good; at
    the end of the file eofbit and failbit; reading the very last token also sets eofbit. *)
Definition next_tok (s : stream) : option tok * stream :=
  if (eofb s || failb s)%bool then (None, {| rest := rest s; eofb := eofb s; failb := true |})
  else match skip_nl (rest s) with
       | [] => (None, {| rest := []; eofb := true; failb := true |})
       | t :: r => (Some t, {| rest := r; eofb := match r with [] => true | _ => false end; failb := false |})
       end.
(** >> into a string: unchanged when nothing could be read.  Only "LO" and "UP" are told apart. *)
Definition read_str (s : stream) (old : option side) : option side * stream :=
  let (t, s') := next_tok s in
  (match t with None => old | Some (TSide d) => Some d | Some _ => None end, s').
(** >> into an int or a double: unchanged (here: [old]) when nothing could be read, 0 and failbit
    when the text is not a number.  (A real number where an int is expected is treated as not a
    number; the writer never does that.) *)
Definition read_int (s : stream) (old : option Z) : option Z * stream :=
  let (t, s') := next_tok s in
  match t with
  | None => (old, s')
  | Some (TInt z) => (Some z, s')
  | Some _ => (Some 0%Z, {| rest := rest s'; eofb := eofb s'; failb := true |})
  end.
Definition read_real (s : stream) (old : option Q) : option Q * stream :=
  let (t, s') := next_tok s in
  match t with
  | None => (old, s')
  | Some (TReal q) => (Some q, s')
  | Some (TInt z) => (Some (inject_Z z), s')
  | Some _ => (Some 0, {| rest := rest s'; eofb := eofb s'; failb := true |})
  end.
Fixpoint after_nl (l : list tok) : option (list tok) :=
  match l with [] => None | TNL :: l' => Some l' | _ :: l' => after_nl l' end.
(** ignore(10000,'\n'); lines are shorter than 10000 characters. *)
Definition ignore_line (s : stream) : stream :=
  if (eofb s || failb s)%bool then {| rest := rest s; eofb := eofb s; failb := true |}
  else match after_nl (rest s) with
       | Some r => {| rest := r; eofb := false; failb := false |}
       | None => {| rest := []; eofb := true; failb := false |}
       end.

(** CoinRelFltEq with its default tolerance. *)
Definition releq (a b : Q) : bool :=
  Qle_bool (Qabs (a - b)) ((1 # 10000000000) * (1 + qmax (Qabs a) (Qabs b))).
(** writeDiffFiles (BonTNLPSolver.cpp 200-223) and outputDiffs (BonTMINLP2TNLP.cpp 576-596), bounds
    file.  [prt c] is the value the printed text of [c] reads back as (six significant digits). *)
Fixpoint write_bounds (prt : Q -> Q) (i : Z) (vs : list (Q * Q * (Q * Q))) : list tok :=
  match vs with
  | [] => []
  | ((cl, cu), (ol, ou)) :: vs' =>
      (if releq cl ol then [] else [TSide LO; TInt i; TReal (prt cl); TNL]) ++
      (if releq cu ou then [] else [TSide UP; TInt i; TReal (prt cu); TNL]) ++
      write_bounds prt (i + 1) vs'
  end.

(** BoundsReader::read, BonBoundsReader.cpp 61-79: counting pass. [inw] is the string [in]
    (None: neither LO nor UP, in particular empty). A bare throw ends the program. *)
Fixpoint pass1 (fuel : nat) (s : stream) (inw : option side) (nl nu : nat) : outcome (nat * nat) :=
  if eofb s then Ok (nl, nu) else
  match fuel with
  | O => Diverges
  | S f =>
      let (w, s1) := read_str s inw in
      match w with
      | Some LO => pass1 f (ignore_line s1) w (S nl) nu
      | Some UP => pass1 f (ignore_line s1) w nl (S nu)
      | None => Thrown
      end
  end.
(** 80-109: second pass.  [index] and [bound] are locals of the loop body without initial value:
    with [reuse = false] they are indeterminate in each iteration, with [reuse = true] they occupy
    the same storage in each iteration (what compilers usually do, not guaranteed). *)
Fixpoint pass2 (reuse : bool) (cl cu : nat) (fuel : nat) (s : stream) (inw : option side) (ix : option Z) (bd : option Q)
  (lows ups : list (Z * Q)) : outcome (list (Z * Q) * list (Z * Q)) :=
  if eofb s then Ok (lows, ups) else
  match fuel with
  | O => Diverges
  | S f =>
      let (w, s1) := read_str s inw in
      let (ix', s2) := read_int s1 (if reuse then ix else None) in
      let (bd', s3) := read_real s2 (if reuse then bd else None) in
      match w with
      | None => Thrown
      | Some d =>
          match ix', bd' with
          | Some i, Some b =>
              match d with
              | LO => if Nat.ltb (length lows) cl then pass2 reuse cl cu f (ignore_line s3) w ix' bd' (lows ++ [(i, b)]) ups else OutOfBounds
              | UP => if Nat.ltb (length ups) cu then pass2 reuse cl cu f (ignore_line s3) w ix' bd' lows (ups ++ [(i, b)]) else OutOfBounds
              end
          | _, _ => Uninit
          end
      end
  end.
Definition last_word (f : list tok) : option side :=        (* the string [in] after the first pass *)
  fold_left (fun acc t => match t with TSide d => Some d | _ => acc end) f None.
Definition read_bounds (reuse : bool) (f : list tok) : outcome (list (Z * Q) * list (Z * Q)) :=
  do ' (nl, nu) <- pass1 (S (length f)) (sopen f) None 0 0;
  pass2 reuse nl nu (S (length f)) (sopen f) (last_word f) None None [] [].
(** SetVariableLowerBound / SetVariableUpperBound, BonTMINLP2TNLP.cpp 268-278. *)
Definition set_bound (l : list Q) (e : Z * Q) : outcome (list Q) :=
  if (Z.leb 0 (fst e) && Z.ltb (fst e) (Z.of_nat (length l)))%bool
  then lset (Z.to_nat (fst e)) (snd e) l else AssertFail.
Fixpoint set_bounds (es : list (Z * Q)) (l : list Q) : outcome (list Q) :=
  match es with [] => Ok l | e :: es' => do l' <- set_bound l e; set_bounds es' l' end.
(** readAndApply, BonBoundsReader.cpp 111-120. *)
Definition readAndApply (reuse : bool) (f : list tok) (lo up : list Q) : outcome (list Q * list Q) :=
  do ' (ls, us) <- read_bounds reuse f;
  do lo' <- set_bounds ls lo; do up' <- set_bounds us up; Ok (lo', up').

(** Starting point file: BonTNLPSolver.cpp 225-246, BonTMINLP2TNLP.cpp 598-613 (17 digits: numbers
    are read back exactly).  [primals] is the x_init pointer: writeDiffFiles writes nothing when it
    is NULL (None here), outputDiffs dereferences it. *)
Definition write_start (n m : nat) (primals : list Q) (duals : option (list Q)) : list tok :=
  [TInt (Z.of_nat n); TInt (Z.of_nat (2 * n + m)); TNL] ++
  flat_map (fun q => [TReal q; TNL]) (firstn n primals) ++
  match duals with Some d => flat_map (fun q => [TReal q; TNL]) (firstn (2 * n + m) d) | None => [] end.
Fixpoint read_reals (k : nat) (s : stream) : arr Q * stream :=
  match k with
  | O => ([], s)
  | S k' => let (q, s1) := read_real s None in let (r, s2) := read_reals k' s1 in (q :: r, s2)
  end.
Fixpoint agets {A} (k : nat) (a : arr A) : outcome (list A) :=      (* copy the first k cells *)
  match k with
  | O => Ok []
  | S k' => match a with [] => OutOfBounds | None :: _ => Uninit | Some v :: a' => do r <- agets k' a'; Ok (v :: r) end
  end.
(** StartPointReader::readAndApply (BonStartPointReader.cpp 14-55), from a new reader, on a problem
    with [n] variables and [m] rows: setColSolution and setRowPrice copy n and 2n+m numbers. *)
Definition readStart (n m : nat) (f : option (list tok)) : outcome (bool * option (list Q) * option (list Q)) :=
  match f with
  | None => Ok (false, None, None)           (* file not opened; readFile's result is not used *)
  | Some f =>
      let (np, s1) := read_int (sopen f) None in
      let (nd, s2) := read_int s1 None in
      match np, nd with
      | Some np, Some nd =>
          if (Z.leb 0 np && Z.leb 0 nd)%bool then
            let (pr, s3) := read_reals (Z.to_nat np) s2 in
            let (du, s4) := read_reals (Z.to_nat nd) s3 in
            do x <- agets n pr; do d <- agets (2 * n + m) du; Ok (true, Some x, Some d)
          else Thrown                        (* new double[negative]: bad_array_new_length *)
      | _, _ => Uninit
      end
  end.

(** * Option tables: BonRegisteredOptions.hpp 32-43, 66-196 *)
Inductive alg := Hybrid | QG | OAdec | BBB | Ecp | IFP | CbcPar.
Definition abit (a : alg) : Z := match a with Hybrid => 0 | QG => 1 | OAdec => 2 | BBB => 3 | Ecp => 4 | IFP => 5 | CbcPar => 6 end.
(** bonOptInfos_: std::map from option names to codes. [known] says which options are registered. *)
Definition infos := list (nat * Z).
Fixpoint find (o : nat) (m : infos) : option Z :=
  match m with [] => None | (k, c) :: m' => if Nat.eqb k o then Some c else find o m' end.
Fixpoint put (o : nat) (c : Z) (m : infos) : infos :=
  match m with [] => [(o, c)] | (k, d) :: m' => if Nat.eqb k o then (k, c) :: m' else (k, d) :: put o c m' end.
(** map[o] creates the entry with code 0. *)
Definition code_of (o : nat) (m : infos) : Z := match find o m with Some c => c | None => 0%Z end.
Inductive oop := SetInfo (o : nat) (code : Z) | Declare_ (o : nat) (a : alg).
Definition ostep (known : nat -> bool) (p : oop) (m : infos) : outcome infos :=
  match p with
  | SetInfo o c => if known o then Ok (put o c m) else Thrown
  | Declare_ o a => if known o then Ok (put o (Z.lor (code_of o m) (Z.shiftl 1 (abit a))) m) else Thrown
  end.
Fixpoint oruns (known : nat -> bool) (h : list oop) (m : infos) : outcome infos :=
  match h with [] => Ok m | p :: h' => do m' <- ostep known p m; oruns known h' m' end.
Definition isValid (known : nat -> bool) (o : nat) (a : alg) (m : infos) : outcome bool :=
  if known o then
    Ok (match find o m with Some c => negb (Z.eqb (Z.land c (Z.shiftl 1 (abit a))) 0) | None => true end)
  else Thrown.

(** chooseOptions, BonRegisteredOptions.cpp 232-246, and the headers printed by the table writers
    (201-227, 275-300, 320-332): [opts] lists (category, name), names in increasing order;
    [catinfo] is categoriesInfo; [sort] is std::list::sort. *)
Definition opt := (nat * nat)%type.             (* category and name, as positions in alphabetical order *)
Definition optcmp (a b : opt) : bool :=
  if Nat.eqb (fst a) (fst b) then Nat.ltb (snd a) (snd b) else Nat.ltb (fst a) (fst b).
Definition chooseOptions (sort : (opt -> opt -> bool) -> list opt -> list opt) (catinfo : nat -> nat) (which : nat) (opts : list opt) : list opt :=
  sort optcmp (filter (fun o => Nat.eqb (catinfo (fst o)) which) opts).
(** The rows of a table: a header each time the category differs from the previous one ([cur]). *)
Inductive row := Header (c : nat) | Line (o : opt).
Fixpoint table (cur : nat) (os : list opt) : list row :=
  match os with
  | [] => []
  | o :: os' => if Nat.eqb (fst o) cur then Line o :: table cur os' else Header (fst o) :: Line o :: table (fst o) os'
  end.

(** * C interface: BonStdCInterface.cpp *)
(** Arguments of CreateBonminProblem (89-108); pointers are None when NULL. *)
Record creq := { q_n : Z; q_xl : option (list Q); q_xu : option (list Q); q_m : Z; q_gl : option (list Q); q_gu : option (list Q);
  q_jac : Z; q_hess : Z; q_style : Z; q_f : bool; q_g : bool; q_grad : bool; q_jacf : bool; q_h : bool;
  q_vt : option (list Z); q_vl : option (list Z); q_cl : option (list Z); q_sos : option sos; q_br : option binfo }.
(** BonminProblemInfo, 60-86.  branch_info and sos_info are not here: no statement writes them. *)
Record cprob := { p_n : nat; p_xl : list Q; p_xu : list Q; p_m : nat; p_gl : option (list Q); p_gu : option (list Q);
  p_jac : Z; p_hess : Z; p_style : Z; p_f : bool; p_g : bool; p_grad : bool; p_jacf : bool; p_h : bool;
  p_vt : list Z; p_vl : list Z; p_cl : list Z; p_os : Q; p_xs : option (list Q); p_gs : option (list Q) }.
Definition take {A} (n : nat) (l : list A) : outcome (list A) := if Nat.leb n (length l) then Ok (firstn n l) else OutOfBounds.
Definition deref {A} (p : option A) : outcome A := match p with Some a => Ok a | None => NullDeref end.
(** 110-177 *)
Definition createProblem (q : creq) : outcome (option cprob) :=
  if (Z.ltb (q_n q) 1 || Z.ltb (q_m q) 0 || isnull (q_xl q) || isnull (q_xu q) ||
      (Z.ltb 0 (q_m q) && (isnull (q_gl q) || isnull (q_gu q))) ||
      (Z.eqb (q_m q) 0 && negb (Z.eqb (q_jac q) 0)) || (Z.ltb 0 (q_m q) && Z.ltb (q_jac q) 1) || Z.ltb (q_hess q) 0 ||
      negb (q_f q) || negb (q_grad q) || (Z.ltb 0 (q_m q) && (negb (q_g q) || negb (q_jacf q))) ||
      isnull (q_vt q) || isnull (q_vl q) || (Z.ltb 0 (q_m q) && isnull (q_cl q)))%bool
  then Ok None else
  let n := Z.to_nat (q_n q) in let m := Z.to_nat (q_m q) in
  do xl0 <- deref (q_xl q); do xl <- take n xl0; do xu0 <- deref (q_xu q); do xu <- take n xu0;
  do gl <- (if Nat.ltb 0 m then do l <- deref (q_gl q); do r <- take m l; Ok (Some r) else Ok None);
  do gu <- (if Nat.ltb 0 m then do l <- deref (q_gu q); do r <- take m l; Ok (Some r) else Ok None);
  do vt0 <- deref (q_vt q); do vt <- take n vt0; do vl0 <- deref (q_vl q); do vl <- take n vl0;
  do cl <- (if Nat.ltb 0 m then do l <- deref (q_cl q); take m l else Ok []);
  Ok (Some {| p_n := n; p_xl := xl; p_xu := xu; p_m := m; p_gl := gl; p_gu := gu; p_jac := q_jac q; p_hess := q_hess q;
     p_style := q_style q; p_f := q_f q; p_g := q_g q; p_grad := q_grad q; p_jacf := q_jacf q; p_h := q_h q;
     p_vt := vt; p_vl := vl; p_cl := cl; p_os := 1; p_xs := None; p_gs := None |}).
(** SetBonminProblemScaling, 257-296. *)
Definition setScaling (os : Q) (xs gs : option (list Q)) (p : cprob) : outcome cprob :=
  do xs' <- (match xs with Some l => do r <- take (p_n p) l; Ok (Some r) | None => Ok None end);
  do gs' <- (match gs with Some l => do r <- take (p_m p) l; Ok (Some r) | None => Ok None end);
  Ok {| p_n := p_n p; p_xl := p_xl p; p_xu := p_xu p; p_m := p_m p; p_gl := p_gl p; p_gu := p_gu p; p_jac := p_jac p; p_hess := p_hess p;
     p_style := p_style p; p_f := p_f p; p_g := p_g p; p_grad := p_grad p; p_jacf := p_jacf p; p_h := p_h p;
     p_vt := p_vt p; p_vl := p_vl p; p_cl := p_cl p; p_os := os; p_xs := xs'; p_gs := gs' |}.
(** What the solver sees of the problem through StdInterfaceTMINLP (BonStdInterfaceTMINLP.cpp
    107-243, .hpp 94-98): sizes, style, bounds, types, starting points, scaling, SOS, branching. *)
Record tview := { t_n : nat; t_m : nat; t_jac : Z; t_hess : Z; t_fortran : bool; t_xl : list Q; t_xu : list Q; t_gl : list Q; t_gu : list Q;
  t_vt : list Z; t_vl : list Z; t_cl : list Z; t_x0 : list Q; t_lam0 : option (list Q); t_zl0 : option (list Q); t_zu0 : option (list Q);
  t_os : Q; t_xs : option (list Q); t_gs : option (list Q); t_sos : option sos; t_br : option binfo }.
(** The caller's arrays given to BonminSolve. *)
Record cout := { o_x : option (list Q); o_g : option (list Q); o_obj : option Q; o_mg : option (list Q); o_ml : option (list Q); o_mu : option (list Q) }.
Definition opt_take (n : nat) (p : option (list Q)) : outcome (option (list Q)) :=
  match p with None => Ok None | Some l => do r <- take n l; Ok (Some r) end.
(** What the branch-and-bound found: the solution handed to finalize_solution. *)
Record found := { f_x : list Q; f_g : list Q; f_obj : Q }.
(** StdInterfaceTMINLP::finalize_solution (.hpp 90) has an empty body. *)
Definition finalize (r : found) (o : cout) : cout := o.
(** BonminSolve, 298-454.  [left]: whether the memory of sos_info and branch_info happens to hold
    something else than NULL (the fields are read without ever having been written); getSosInfo()
    and getBranchingInfo() are NULL.  [solver] stands for initialize and the branch-and-bound; None
    is an exception, caught with a message.  The result is the returned code, the view the solver
    had and the caller's arrays afterwards. *)
Definition bonminSolve (left : bool * bool) (p : cprob) (o : cout) (solver : tview -> option found) : outcome (Z * option tview * cout) :=
  match o_x o with
  | None => Ok (0%Z, None, o)
  | Some x =>
      do x0 <- take (p_n p) x; do lam <- opt_take (p_m p) (o_mg o); do zl <- opt_take (p_n p) (o_ml o); do zu <- opt_take (p_n p) (o_mu o);
      do gl <- (if Nat.ltb 0 (p_m p) then deref (p_gl p) else Ok []); do gu <- (if Nat.ltb 0 (p_m p) then deref (p_gu p) else Ok []);
      if (fst left || snd left)%bool then NullDeref else
      let v := {| t_n := p_n p; t_m := p_m p; t_jac := p_jac p; t_hess := p_hess p; t_fortran := negb (Z.eqb (p_style p) 0);
        t_xl := p_xl p; t_xu := p_xu p; t_gl := gl; t_gu := gu; t_vt := p_vt p; t_vl := p_vl p; t_cl := p_cl p;
        t_x0 := x0; t_lam0 := lam; t_zl0 := zl; t_zu0 := zu; t_os := p_os p; t_xs := p_xs p; t_gs := p_gs p; t_sos := None; t_br := None |} in
      match solver v with
      | Some r => Ok (0%Z, Some v, finalize r o)
      | None => Ok (0%Z, Some v, o)
      end
  end.

(** ** Evaluation calls: BonStdInterfaceTMINLP.cpp 245-345 *)
Inductive ekind := KF | KGrad | KG | KJac | KH.
(** How the index and value arrays are passed to the Jacobian and Hessian: structure, values, or
    another combination. *)
Inductive emode := Struct | Values | Mixed.
Record ecall := { e_kind : ekind; e_mode : emode; e_x : option (list Q); e_new : bool }.
(** apply_new_x, 331-346 *)
Definition apply_new_x (n : nat) (c : ecall) (buf : option (list Q)) : outcome (option (list Q)) :=
  if e_new c then match e_x c with None => NullDeref | Some x => do r <- take n x; Ok (Some r) end else Ok buf.
(** One evaluation: what the user's function receives as point (None: it is not called; Some NULL
    possible), and the new buffer.  [has_h]: the Hessian function was given. *)
Definition eval_call (n : nat) (has_h : bool) (c : ecall) (buf : option (list Q)) : outcome (option (option (list Q)) * option (list Q)) :=
  match e_kind c with
  | KF | KGrad | KG => do b <- apply_new_x n c buf; Ok (Some b, b)
  | KJac => match e_mode c with Mixed => Ok (None, buf) | _ => do b <- apply_new_x n c buf; Ok (Some b, b) end
  | KH => match e_mode c with Mixed => Ok (None, buf)
          | _ => do b <- apply_new_x n c buf; if has_h then Ok (Some b, b) else NullDeref end
  end.
Fixpoint eval_calls (n : nat) (has_h : bool) (cs : list ecall) (buf : option (list Q)) : outcome (list (option (option (list Q)))) :=
  match cs with
  | [] => Ok []
  | c :: cs' => do ' (s, b) <- eval_call n has_h c buf; do r <- eval_calls n has_h cs' b; Ok (s :: r)
  end.

(** ** Storage: which of the arrays of a problem are allocated *)
Inductive blk := BxL | BxU | BgL | BgU | Bvt | Bvl | Bcl | Bxs | Bgs | Binfo.
Definition blk_eqb (a b : blk) : bool :=
  match a, b with
  | BxL, BxL | BxU, BxU | BgL, BgL | BgU, BgU | Bvt, Bvt | Bvl, Bvl | Bcl, Bcl | Bxs, Bxs | Bgs, Bgs | Binfo, Binfo => true
  | _, _ => false
  end.
Fixpoint release (b : blk) (h : list blk) : outcome (list blk) :=
  match h with [] => Dangling | c :: h' => if blk_eqb c b then Ok h' else do r <- release b h'; Ok (c :: r) end.
(** The heap and the two scaling pointers. *)
Record cmem := { h_live : list blk; h_xs : bool; h_gs : bool }.
(** CreateBonminProblem 117-177: constraint_linearity_types is allocated even when m = 0 (146). *)
Definition mem_create (m : nat) : cmem :=
  {| h_live := Binfo :: BxL :: BxU :: (if Nat.ltb 0 m then [BgL; BgU] else []) ++ [Bvt; Bvl; Bcl]; h_xs := false; h_gs := false |}.
(** SetBonminProblemScaling 257-296; [x], [g]: non-NULL arguments. *)
Definition mem_scaling (xg : bool * bool) (c : cmem) : outcome cmem :=
  let (x, g) := xg in
  do c1 <- (if x then Ok (if h_xs c then c else {| h_live := Bxs :: h_live c; h_xs := true; h_gs := h_gs c |})
            else if h_xs c then do l <- release Bxs (h_live c); Ok {| h_live := l; h_xs := false; h_gs := h_gs c |} else Ok c);
  if g then Ok (if h_gs c1 then c1 else {| h_live := Bgs :: h_live c1; h_xs := h_xs c1; h_gs := true |})
  else if h_gs c1 then do l <- release Bgs (h_live c1); Ok {| h_live := l; h_xs := h_xs c1; h_gs := false |} else Ok c1.
Fixpoint mem_scalings (h : list (bool * bool)) (c : cmem) : outcome cmem :=
  match h with [] => Ok c | a :: h' => do c' <- mem_scaling a c; mem_scalings h' c' end.
Fixpoint releases (bs : list blk) (h : list blk) : outcome (list blk) :=
  match bs with [] => Ok h | b :: bs' => do h' <- release b h; releases bs' h' end.
(** FreeBonminProblem 181-210. *)
Definition mem_free (m : nat) (c : cmem) : outcome (list blk) :=
  releases ([BxL; BxU; Bvt; Bvl] ++ (if Nat.ltb 0 m then [Bcl; BgL; BgU] else []) ++
            (if h_xs c then [Bxs] else []) ++ (if h_gs c then [Bgs] else []) ++ [Binfo]) (h_live c).
