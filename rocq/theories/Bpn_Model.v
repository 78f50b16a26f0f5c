(** The parallel program: what an LP process is told at its start, the objects it builds, what it does when
    a node begins, and how cuts are generated, sent and turned into rows.
    experimental/Bcp/BM_tm.cpp 28-133, BM_pack.cpp 15-162 and 191-204, BM_lp.cpp 88-131 and 241-308, BB_cut.cpp 10-50.
    Simplifications: files are lists of bytes; the cut generators are arguments (the cuts they add); of a
    generator's cuts only whether it is a row cut or a column cut and, for a row cut, its row; the list of objects
    after OsiSolverInterface::addObjects is the list given to it; of a SOS object only its number. *)
From Coq Require Import List Bool Arith ZArith QArith Ascii.
From Verif Require Import Base Arr.
Import ListNotations.
Open Scope nat_scope.

(** ** Module data *)

(** BM_tm::readIpopt for one file (BM_tm.cpp 31-42 and 45-55): [None] is a file that does not exist.  The buffer has one
    byte more than is asked of fread, which is asked for one byte more than the file has. *)
Definition read_file (f : option (list ascii)) : outcome (list ascii) :=
  match f with
  | None => Thrown
  | Some bytes =>
      let len := S (List.length bytes) in
      let got := firstn len bytes in
      if Nat.leb (List.length got) (S len) then Ok got else OutOfBounds
  end.
(** BM_tm::readIpopt 28-57; [ipopt]: [None] when the parameter IpoptParamfile is empty. *)
Definition read_ipopt (ipopt : option (option (list ascii))) (nl : option (list ascii)) : outcome (list ascii * list ascii) :=
  do i <- match ipopt with None => Ok [] | Some f => read_file f end;
  do n <- read_file nl;
  Ok (i, n).

(** std::string(s.c_str()): up to the first zero byte. *)
Fixpoint c_str (s : list ascii) : list ascii :=
  match s with
  | [] => []
  | c :: s => if Ascii.eqb c zero then [] else c :: c_str s
  end.
(** BM_tm::pack_module_data for an LP process (BM_pack.cpp 20-24) and BM_lp::unpack_module_data up to the call of initialize
    (39-53): the contents of the two files that the set-up reads from.  The buffer keeps length and bytes of a string. *)
Definition pack_module (d : list ascii * list ascii) : list (list ascii) := [snd d; fst d].
Definition unpack_module (buf : list (list ascii)) : outcome (list ascii * list ascii) :=
  match buf with
  | nl :: ipopt :: _ => Ok (c_str ipopt, c_str nl)
  | _ => Thrown
  end.

(** ** Objects *)
Inductive bobj := BInt (col : nat) (lo up : Q) | BSos (num : nat).

(** BM_lp::unpack_module_data, BM_pack.cpp 110-134: integer variables first, then the SOS constraints unless
    BM_DISREGARD_SOS is defined ([dis]), which it is in BM.hpp 22 ([shipped]). *)
Fixpoint build_ints (i : nat) (isint : list bool) (lo up : list Q) : outcome (list bobj) :=
  match isint, lo, up with
  | [], _, _ => Ok []
  | b :: isint, l :: lo, u :: up =>
      do r <- build_ints (S i) isint lo up;
      Ok (if b then BInt i l u :: r else r)
  | _, _, _ => OutOfBounds
  end.
Definition shipped : bool := true.
Definition build_objs (dis : bool) (isint : list bool) (lo up : list Q) (sos : nat) : outcome (list bobj) :=
  do r <- build_ints 0 isint lo up; Ok (r ++ (if dis then [] else map BSos (seq 0 sos))).

(** ** The core problem: BM_tm::initialize_core, BM_tm.cpp 60-133 *)
(** BCP_var_t. *)
Inductive ctype := CCont | CBin | CInt.
(** A column of the continuous relaxation: isBinary, isInteger, objective and bounds; the core variable made of it. *)
Record col := Column { c_bin : bool; c_int : bool; c_obj : Q; c_lo : ext; c_up : ext }.
Record cvar := Cvar { v_type : ctype; v_obj : Q; v_lo : ext; v_up : ext }.
(** 114-116. *)
Definition core_type (c : col) : ctype :=
  let t := CCont in
  let t := if c_bin c then CBin else t in
  if c_int c then CInt else t.
(** 94-118: for pure branch-and-bound no objective, no rows and no matrix. *)
Definition core_of (pure : bool) (cols : list col) (rows : list (ext * ext)) : list cvar * option (list (ext * ext)) :=
  (map (fun c => Cvar (core_type c) (if pure then 0%Q else c_obj c) (c_lo c) (c_up c)) cols, if pure then None else Some rows).
(** 121-132: number of objects the pseudo-costs are kept for. *)
Fixpoint tm_objs (isint : list bool) : nat := match isint with [] => 0 | b :: l => (if b then 1 else 0) + tm_objs l end.
Definition tm_count (dis : bool) (isint : list bool) (sos : nat) : nat := tm_objs isint + (if dis then 0 else sos).

(** ** Beginning of a node *)

(** OsiSimpleInteger::resetBounds over the objects, BM_lp.cpp 115-125: stops at the first that is no integer. *)
Fixpoint reset_objs (lo up : list Q) (os : list bobj) : outcome (list bobj) :=
  match os with
  | BInt c _ _ :: r =>
      match nth_error lo c, nth_error up c with
      | Some l, Some u => do r <- reset_objs lo up r; Ok (BInt c l u :: r)
      | _, _ => OutOfBounds
      end
  | _ => Ok os
  end.
(** What the process knows: bounds of the NLP and its objects, and the objects of the LP. *)
Record proc := Proc { n_lo : list Q; n_up : list Q; n_objs : list bobj; l_objs : list bobj }.
(** BM_lp::initialize_new_search_tree_node 88-131; [llo], [lup]: bounds of the LP at the node. *)
Definition node_start (pure : bool) (llo lup : list Q) (p : proc) : outcome proc :=
  if pure then Ok p
  else do os <- reset_objs llo lup (n_objs p); Ok (Proc llo lup os os).
Fixpoint nodes (pure : bool) (bs : list (list Q * list Q)) (p : proc) : outcome proc :=
  match bs with [] => Ok p | (l, u) :: bs => do p <- node_start pure l u p; nodes pure bs p end.

(** ** Cuts *)
Record rowcut := RowCut { c_lb : Q; c_ub : Q; c_row : list (nat * Q) }.
Inductive cut := Row (c : rowcut) | Col (num : nat).

(** One round of generation: for each generator its frequency, the number drawn by CoinDrand48 and the cuts it would
    add; the last one is not asked.  BM_lp.cpp 258-270. *)
Record gen := Gen { g_freq : Z; g_draw : Q; g_cuts : list cut }.
Definition asked (g : gen) : bool := let rand := (1 - g_draw g)%Q in Qltb rand (inject_Z (g_freq g)).
Fixpoint run_gens (gs : list gen) : list cut :=
  match gs with [] => [] | g :: gs => (if asked g then g_cuts g else []) ++ run_gens gs end.
(** A cut of BCP made of a row cut: bounds kept by BCP, and the row cut. *)
Record bbcut := BB { b_lb : Q; b_ub : Q; b_cut : rowcut }.
Definition bb_of (c : rowcut) : bbcut := BB (c_lb c) (c_ub c) c.          (* BB_cut.cpp 45-47 *)
(** A row: bounds and coefficients. *)
Definition brow := (Q * Q * list (nat * Q))%type.
Definition row_cuts (l : list cut) : list rowcut := flat_map (fun c => match c with Row r => [r] | Col _ => [] end) l.
(** BM_lp::generate_cuts_in_lp 241-286; [gs]: all generators, [pending]: cuts_.  [None]: no generator to go back to. *)
Definition generate_cuts (pure : bool) (gs : list gen) (pending : list cut) : outcome (list bbcut * list brow * list cut) :=
  if pure then Ok ([], [], [])
  else match gs with
       | [] => OutOfBounds                               (* end-- on the end of an empty list *)
       | _ =>
           let all := row_cuts (pending ++ run_gens (removelast gs)) in
           Ok (map bb_of all, map (fun c => (c_lb c, c_ub c, c_row c)) all, [])
       end.
(** BM_lp::cuts_to_rows 290-308: cuts of BCP to rows; [None]: a cut of another kind. *)
Fixpoint to_rows (cs : list (option bbcut)) : outcome (list brow) :=
  match cs with
  | [] => Ok []
  | None :: _ => Thrown
  | Some c :: cs => do r <- to_rows cs; Ok ((b_lb c, b_ub c, c_row (b_cut c)) :: r)
  end.

(** What happens to the pending cuts in a process: the feasibility check adds some (BM_lp.cpp 215), a round of generation,
    an expansion of cuts into rows. *)
Inductive event := Check (cs : list cut) | Round (gs : list gen) | Expand (cs : list (option bbcut)).
(** One event: what is handed to BCP, and what is pending then.  An expansion that throws ends the process. *)
Definition happen (pure : bool) (e : event) (pending : list cut) : outcome (list bbcut * list cut) :=
  match e with
  | Check cs => Ok ([], pending ++ cs)
  | Round gs => do ' (n, _, p) <- generate_cuts pure gs pending; Ok (n, p)
  | Expand cs => do _ <- to_rows cs; Ok ([], [])
  end.
Fixpoint history (pure : bool) (es : list event) (pending : list cut) : outcome (list bbcut * list cut) :=
  match es with
  | [] => Ok ([], pending)
  | e :: es => do ' (n, p) <- happen pure e pending; do ' (m, q) <- history pure es p; Ok (n ++ m, q)
  end.

(** ** A cut on its way to another process *)
Inductive btok := TD (q : Q) | TIs (l : list nat) | TDs (l : list Q).
(** BB_cut::pack, BB_cut.cpp 10-19. *)
Definition pack_cut (c : bbcut) : list btok :=
  [TD (c_lb (b_cut c)); TD (c_ub (b_cut c)); TIs (map fst (c_row (b_cut c))); TDs (map snd (c_row (b_cut c)))].
(** BB_cut::BB_cut(BCP_buffer&), 22-42; the second count overwrites the first. *)
Definition big : Q := inject_Z (10 ^ 40).
Definition unpack_cut (buf : list btok) : outcome (bbcut * list btok) :=
  match buf with
  | TD l :: TD u :: TIs is :: TDs es :: r =>
      let numElem := List.length es in
      if Nat.leb numElem (List.length is)
      then Ok (BB (- big) big (RowCut l u (combine is es)), r) else OutOfBounds
  | _ => Thrown
  end.
(** Cuts one after the other in one buffer (BM_pack.cpp 191-204 for each). *)
Fixpoint pack_cuts (cs : list (option bbcut)) : outcome (list btok) :=
  match cs with
  | [] => Ok []
  | None :: _ => Thrown
  | Some c :: cs => do r <- pack_cuts cs; Ok (pack_cut c ++ r)
  end.
Fixpoint unpack_cuts (n : nat) (buf : list btok) : outcome (list bbcut * list btok) :=
  match n with
  | O => Ok ([], buf)
  | S n => do ' (c, r) <- unpack_cut buf; do ' (cs, r) <- unpack_cuts n r; Ok (c :: cs, r)
  end.
