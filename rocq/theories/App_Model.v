(** The programs, and the storage of a C interface problem over its whole life.
    src/Apps/BonMin.cpp 28-98, src/Apps/BonNodeSolver.cpp 33-112, src/Interfaces/BonStdCInterface.cpp 116-210 and 297-454.
    Simplifications: what happens inside initialize and the branch-and-bound is an argument (an exception or
    none); of the output only whether something was written on the error stream; the C interface's arrays are
    blocks, the parts of a problem as in Io_Model.v, the local arrays of the k-th solve numbered by k. *)
From Coq Require Import List Bool Arith.
From Verif Require Import Base Io_Model.
Import ListNotations.

(** How a part of the run ends: normally, or with an exception of one of these types (TNLPSolver::UnsolvedError *,
    OsiTMINLPInterface::SimpleError, CoinError, Ipopt::OPTION_INVALID, Ipopt::IpoptException, something else). *)
Inductive ending := Done | Unsolved | Simple | Coin | OptionInvalid | IpoptEx | OtherEx.

(** How a process ends: exit status, or terminated because of an exception nobody catches. *)
Inductive finish := Exit (code : nat) | Terminated.
(** Result of a program: how it ends, whether it wrote on the error stream. *)
Definition result := (finish * bool)%type.

(** std::cerr<<p for a char pointer. *)
Definition print_name {A} (name : option A) : outcome unit := match name with Some _ => Ok tt | None => NullDeref end.

(** BonMin.cpp 28-98; [argc]: number of words of the command; [run]: lines 46-58. *)
Definition bonmin_main (argc : nat) (run : ending) : outcome result :=
  let pbName := if Nat.ltb 1 argc then Some tt else None in
  match run with
  | Done => Ok (Exit 0, false)
  | Unsolved => Ok (Exit 0, true)                        (* 60-67 *)
  | Simple => Ok (Exit 0, true)                          (* 68-72 *)
  | Coin => Ok (Exit 0, true)                            (* 73-77 *)
  | OptionInvalid => Ok (Exit 0, true)                   (* 78-81 *)
  | IpoptEx => Ok (Exit 0, true)                         (* 82-85 *)
  | OtherEx => do _ <- print_name pbName; Ok (Terminated, true)     (* 87-91 *)
  end.

(** BonNodeSolver.cpp 33-112; [init]: lines 58-65, outside of the try block; [run]: 67-89. *)
Definition node_main (argc : nat) (init run : ending) : outcome result :=
  if Nat.leb argc 1 then NullDeref                       (* strlen(argv[1]), 40 *)
  else match init with
       | Done =>
           match run with
           | Done => Ok (Exit 0, false)
           | Simple | Coin => Ok (Exit 0, true)          (* 90-99 *)
           | Unsolved | OptionInvalid | IpoptEx | OtherEx => Ok (Terminated, true)    (* 100-104 *)
           end
       | _ => Ok (Terminated, true)
       end.

(** ** C interface: storage *)

(** Local arrays of BonminSolve: start_x, start_lam, start_z_L, start_z_U, variable_types, variable_linearity_types,
    constraint_linearity_types. *)
Inductive local := LX | LLam | LZL | LZU | LVT | LVL | LCL.
(** What the caller does with a problem: a scaling call, or a solve; which of x, mult_g, mult_x_L, mult_x_U are not NULL. *)
Inductive call := Scaling (x g : bool) | Solve (x mg ml mu : bool).

(** Blocks of the problem, blocks of solves (number of the solve, array), number of solves so far. *)
Record store := Store { s_prob : cmem; s_loc : list (nat * local); s_next : nat }.

(** BonminSolve 297-454 for a problem with m constraints: what it allocates (314-367). *)
Definition solve_new (m : nat) (mg ml mu : bool) : list local :=
  [LX] ++ (if mg then [LLam] else []) ++ (if ml then [LZL] else []) ++ (if mu then [LZU] else []) ++
  [LVT; LVL] ++ (if Nat.ltb 0 m then [LCL] else []).
(** And releases: nothing. (StdInterfaceTMINLP's destructor, BonStdInterfaceTMINLP.cpp 100-105, releases only its own copies.) *)
Definition solve_del (m : nat) : list local := [].

(** One call. *)
Definition do_call (m : nat) (s : store) (c : call) : outcome store :=
  match c with
  | Scaling x g => do p <- mem_scaling (x, g) (s_prob s); Ok (Store p (s_loc s) (s_next s))
  | Solve x mg ml mu =>
      if x then
        let new := filter (fun a => negb (existsb (fun b => match a, b with LX, LX | LLam, LLam | LZL, LZL | LZU, LZU | LVT, LVT | LVL, LVL | LCL, LCL => true | _, _ => false end) (solve_del m)))
                          (solve_new m mg ml mu) in
        Ok (Store (s_prob s) (s_loc s ++ map (fun a => (s_next s, a)) new) (S (s_next s)))
      else Ok s                                          (* 316-321 *)
  end.
(** Create, the calls, free; what is still allocated. *)
Fixpoint do_calls (m : nat) (s : store) (cs : list call) : outcome store :=
  match cs with [] => Ok s | c :: cs => do s <- do_call m s c; do_calls m s cs end.
Definition life (m : nat) (cs : list call) : outcome (list blk * list (nat * local)) :=
  do s <- do_calls m (Store (mem_create m) [] 0) cs;
  do l <- mem_free m (s_prob s);
  Ok (l, s_loc s).
