(** Model of the parallel branch-and-bound driver of experimental/Bcp
    (BM_lp_branch.cpp, BM_lp.cpp, BM_tm.cpp, BM_pack.cpp, BM.cpp, BM.hpp).
    The frame work BCP, the NLP solver and the Osi objects are arguments.
    Sets (SOS) are left out: BM.hpp 22 defines BM_DISREGARD_SOS, so every object
    is an integer variable (BM_pack.cpp 113-123).
    Arrays read at the column of an object are total here: objects are made for
    columns 0 .. numCols-1 only (BM_pack.cpp 115-122). *)
From Coq Require Import String.
From Verif Require Import Base Arr.
#[local] Open Scope Q_scope.

Definition flo (q : Q) : Q := inject_Z (Qfloor q).        (* floor *)
Definition cei (q : Q) : Q := inject_Z (Qceiling q).      (* ceil *)
Definition half : Q := 1 # 2.
(** Store into an array, at a position that is inside it. *)
Fixpoint put {A} (i : nat) (v : A) (l : list A) {struct l} : list A :=
  match l with
  | [] => []
  | a :: t => match i with O => v :: t | S i' => a :: put i' v t end
  end.

(** ** Parameters (BM.cpp 65-98, BM.hpp 60-103) *)
Inductive ipar := UsePseudoCosts | DecreasingSort | PreferHigh | NumNlpFailureMax
                | SBNumBranchesInRoot | SBNumBranchesInTree | SBMaxLevel.
Definition ipar_eqb (a b : ipar) : bool :=
  match a, b with
  | UsePseudoCosts, UsePseudoCosts | DecreasingSort, DecreasingSort | PreferHigh, PreferHigh
  | NumNlpFailureMax, NumNlpFailureMax | SBNumBranchesInRoot, SBNumBranchesInRoot
  | SBNumBranchesInTree, SBNumBranchesInTree | SBMaxLevel, SBMaxLevel => true
  | _, _ => false
  end.
(** Values of the integer parameters, [None] while never written. *)
Definition ints := ipar -> option Z.
Definition set_entry (k : ipar) (v : Z) (P : ints) : ints :=
  fun j => if ipar_eqb j k then Some v else P j.
(** create_keyword_list, BM.cpp 66-84 (integer keywords). *)
Definition keywords : list (string * ipar) :=
  [ ("BM_UsePseudoCosts"%string, UsePseudoCosts);
    ("BM_DecreasingSortInSetupList"%string, DecreasingSort);
    ("BM_PreferHighCombinationInBranching"%string, PreferHigh);
    ("BM_NumNlpFailureMax"%string, NumNlpFailureMax) ].
(** set_default_entries, BM.cpp 89-98. *)
Definition default_entries : ints :=
  set_entry NumNlpFailureMax 5 (set_entry PreferHigh 0 (set_entry DecreasingSort 1
    (set_entry UsePseudoCosts 1 (fun _ => None)))).
(** Reading a parameter file: lines with a keyword that is not known are left out. *)
Fixpoint read_par (file : list (string * Z)) (P : ints) : ints :=
  match file with
  | [] => P
  | (w, v) :: r =>
      read_par r (match find (fun k => String.eqb (fst k) w) keywords with
                  | Some (_, k) => set_entry k v P
                  | None => P
                  end)
  end.
Definition entry (P : ints) (k : ipar) : outcome Z :=
  match P k with Some v => Ok v | None => Uninit end.

(** ** Objects and the point of a node *)
Record obj := { o_col : nat; o_prio : Z }.
Definition dobj : obj := {| o_col := 0; o_prio := 0 |}.
(** OsiSimpleInteger::infeasibility of Osi: the value is moved into the bounds,
    then compared with the nearest integer. *)
Definition qclip (lo up v : Q) : Q := if Qltb v lo then lo else if Qltb up v then up else v.
Definition osi_infeas (tol lo up v : Q) : Q :=
  let w := qclip lo up v in
  let d := Qabs (w - flo (w + half)) in
  if Qle_bool d tol then 0 else d.

(** ** Results of one branch, BM.hpp 154-166 and 243-254 (iterations and times
    are not modelled) *)
Record status := { ab : bool; opt : bool; pinf : bool }.     (* the three bits set at 412-415 *)
Definition ans := (status * Q)%type.
Record branch := { b_up : bool; b_obj : nat; b_col : nat; b_val : Q; b_bd : Q }.
Record side := { d_st : status; d_val : Q; d_chg : Q }.
(** [r_e0], [r_e1]: bits 0 and 1 of branchEval; a side is [None] until the first
    result for it is stored, and keeps the last one stored afterwards. *)
Record sbres := { r_col : nat; r_e0 : bool; r_e1 : bool; r_d0 : option side; r_d1 : option side }.
Definition dres : sbres := {| r_col := 0; r_e0 := false; r_e1 := false; r_d0 := None; r_d1 := None |}.
(** BM_lp::unpack_module_data, BM_pack.cpp 144-152. *)
Definition init_table (objs : list obj) : list sbres :=
  map (fun o => {| r_col := o_col o; r_e0 := false; r_e1 := false; r_d0 := None; r_d1 := None |}) objs.
(** BM_lp::clear_SB_results, 311-318. *)
Definition clear (tab : list sbres) : list sbres :=
  map (fun r => {| r_col := r_col r; r_e0 := false; r_e1 := false; r_d0 := r_d0 r; r_d1 := r_d1 r |}) tab.

Section Node.
(** The objects, the order of the objects by priority (objInd_, BM_pack.cpp
    146-155), the point and the bounds of the node (branchInfo), CoinSort_2 with
    decreasing or increasing keys, the value of each object at the point,
    BonChooseVariable::computeUsefulness. *)
Variable objs : list obj.
Variable order : list nat.
Variable sol lo up : list Q.
Variable srt : bool -> list (Q * nat) -> list (Q * nat).
Variable infeas : nat -> Q.
Variable useful : nat -> Q -> Q.
(** Parameters: DisregardPriorities, UsePseudoCosts, DecreasingSortInSetupList;
    whether the node is the root. *)
Variable disr pseudo decr isRoot : bool.

Definition ocol (i : nat) : nat := o_col (nth i objs dobj).
Definition oprio (i : nat) : Z := o_prio (nth i objs dobj).
Definition osol (i : nat) : Q := nth (ocol i) sol 0.
Definition olo (i : nat) : Q := nth (ocol i) lo 0.
Definition oup (i : nat) : Q := nth (ocol i) up 0.

(** *** BM_lp::sort_objects, BM_lp_branch.cpp 170-307 *)
Record sst := { s_last : Z; s_ib : nat; s_fb : nat;
                s_inf : list (Q * nat); s_feas : list (Q * nat); s_num : Z }.
(** Sort the entries from position [k] on. *)
Definition sort_tail (k : nat) (l : list (Q * nat)) : list (Q * nat) := firstn k l ++ srt decr (skipn k l).
(** 201-218 *)
Definition new_inf (pr : Z) (s : sst) : sst :=
  if disr then s else
  if Z.ltb (s_last s) pr then
    if Nat.ltb (s_ib s) (List.length (s_inf s)) then
      {| s_last := pr; s_ib := List.length (s_inf s); s_fb := s_fb s;
         s_inf := sort_tail (s_ib s) (s_inf s); s_feas := s_feas s; s_num := s_num s |}
    else
      {| s_last := pr; s_ib := s_ib s; s_fb := s_fb s;
         s_inf := s_inf s; s_feas := s_feas s; s_num := s_num s |}
  else s.
(** 251-267: feasBlockStart is not moved *)
Definition new_feas (pr : Z) (s : sst) : sst :=
  if disr then s else
  if Z.ltb (s_last s) pr then
    {| s_last := pr; s_ib := s_ib s; s_fb := s_fb s; s_inf := s_inf s;
       s_feas := if Nat.ltb (s_fb s) (List.length (s_feas s)) then sort_tail (s_fb s) (s_feas s) else s_feas s;
       s_num := s_num s |}
  else s.
(** 219-230 *)
Definition add_inf (i : nat) (v : Q) (s : sst) : sst :=
  {| s_last := s_last s; s_ib := s_ib s; s_fb := s_fb s;
     s_inf := s_inf s ++ [(if pseudo then if isRoot then v else useful i v else v, i)];
     s_feas := s_feas s; s_num := s_num s + 2 |}.
(** 244-250, 268-273 *)
Definition add_feas (i : nat) (s : sst) : sst :=
  {| s_last := s_last s; s_ib := s_ib s; s_fb := s_fb s; s_inf := s_inf s;
     s_feas := s_feas s ++ [(useful i (osol i), i)];
     s_num := s_num s + 1 +
              (if Qltb (olo i) (flo (osol i + half)) && Qltb (cei (osol i - half)) (oup i) then 1 else 0) |}.
Definition fixed (i : nat) : bool := Qltb (Qabs (oup i - olo i)) (1 # 10).
(** One turn of the loop 193-275; [None]: return -1. *)
Definition sort_step (i : nat) (s : sst) : option sst :=
  if Qltb 0 (infeas i) then
    if Qle_bool (inject_Z (10 ^ 50)) (infeas i) then None
    else Some (add_inf i (infeas i) (new_inf (oprio i) s))
  else if fixed i then Some s
  else Some (add_feas i (new_feas (oprio i) s)).
(** [false]: left with -1. *)
Fixpoint sort_scan (l : list nat) (s : sst) : bool * sst :=
  match l with
  | [] => (true, s)
  | i :: r => match sort_step i s with Some s' => sort_scan r s' | None => (false, s) end
  end.
(** The lists infInd_, feasInd_ and branchNum; [c_ok] false: -1 was returned. *)
Record cand := { c_ok : bool; c_inf : list nat; c_feas : list nat; c_num : Z }.
Definition sort_objects : outcome cand :=
  match order with
  | [] => OutOfBounds                                  (* objInd_[0], 180 *)
  | i0 :: _ =>
      let '(ok, s) := sort_scan order {| s_last := oprio i0; s_ib := 0; s_fb := 0; s_inf := []; s_feas := []; s_num := 0 |} in
      if ok then
        let fi := if Nat.ltb (s_ib s) (List.length (s_inf s)) then sort_tail (s_ib s) (s_inf s) else s_inf s in
        let ff := if Nat.ltb (s_fb s) (List.length (s_feas s)) then sort_tail (s_fb s) (s_feas s) else s_feas s in
        Ok {| c_ok := true; c_inf := map snd fi; c_feas := map snd ff; c_num := s_num s |}
      else Ok {| c_ok := false; c_inf := map snd (s_inf s); c_feas := map snd (s_feas s); c_num := s_num s |}
  end.

(** *** BM_lp::collect_branch_data, 322-387 (its stores into sbResult_ are
    repeated by BM_register_branch_results and left out here) *)
Definition inf_branches (i : nat) : list branch :=
  [ {| b_up := false; b_obj := i; b_col := ocol i; b_val := osol i; b_bd := flo (osol i) |};
    {| b_up := true; b_obj := i; b_col := ocol i; b_val := osol i; b_bd := cei (osol i) |} ].
Definition feas_branches (i : nat) : list branch :=
  (if Qltb (olo i) (flo (osol i + half))
   then [ {| b_up := false; b_obj := i; b_col := ocol i; b_val := osol i; b_bd := flo (osol i - half) |} ] else []) ++
  (if Qltb (cei (osol i - half)) (oup i)
   then [ {| b_up := true; b_obj := i; b_col := ocol i; b_val := osol i; b_bd := cei (osol i + half) |} ] else []).
Definition all_branches (inf feas : list nat) : list branch :=
  flat_map inf_branches inf ++ flat_map feas_branches feas.
(** The array of length [n], filled until [n] branches are there. *)
Definition collect (n : nat) (inf feas : list nat) : arr branch :=
  let l := firstn n (all_branches inf feas) in map Some l ++ repeat None (n - List.length l).

(** *** BM_solve_branches, 391-422.  [solve]: the solver with given bounds. *)
Variable solve : list Q -> list Q -> ans.
Fixpoint solve_branches (l u : list Q) (bs : list branch) : list ans * (list Q * list Q) :=
  match bs with
  | [] => ([], (l, u))
  | b :: r =>
      let c := b_col b in
      let old_l := nth c l 0 in
      let old_u := nth c u 0 in
      let l1 := if b_up b then put c (b_bd b) l else l in
      let u1 := if b_up b then u else put c (b_bd b) u in
      let '(st, v) := solve l1 u1 in
      let a := (st, if opt st then v else 0) in
      let '(al, f) := solve_branches (put c old_l l1) (put c old_u u1) r in
      (a :: al, f)
  end.
(** BM_register_branch_results, 426-440. *)
Definition register1 (b : branch) (a : ans) (tab : list sbres) : list sbres :=
  let r := nth (b_obj b) tab dres in
  let s := {| d_st := fst a; d_val := snd a; d_chg := Qabs (b_val b - b_bd b) |} in
  put (b_obj b)
    (if b_up b
     then {| r_col := r_col r; r_e0 := r_e0 r; r_e1 := true; r_d0 := r_d0 r; r_d1 := Some s |}
     else {| r_col := r_col r; r_e0 := true; r_e1 := r_e1 r; r_d0 := Some s; r_d1 := r_d1 r |}) tab.
Fixpoint register (bs : list branch) (al : list ans) (tab : list sbres) : list sbres :=
  match bs, al with
  | b :: bs', a :: al' => register bs' al' (register1 b a tab)
  | _, _ => tab
  end.

(** *** BM_lp::do_distributed_SB, 444-532 *)
(** 479-501: how many branches each of the [pids] processes gets, and how many are left. *)
Fixpoint chunks (pids left : nat) : list nat * nat :=
  match pids with
  | O => ([], left)
  | S p =>
      let q := (left / pids)%nat in
      let n := if Nat.ltb (q * pids) left then S q else q in
      let '(ns, rest) := chunks p (left - n) in
      (n :: ns, rest)
  end.
Fixpoint slice (k n : nat) (a : arr branch) : outcome (list branch) :=
  match n with
  | O => Ok []
  | S n' => do b <- aget k a; do r <- slice (S k) n' a; Ok (b :: r)
  end.
Fixpoint slices (k : nat) (ns : list nat) (a : arr branch) : outcome (list (nat * list branch)) :=
  match ns with
  | [] => Ok []
  | n :: ns' => do b <- slice k n a; do r <- slices (k + n) ns' a; Ok ((k, b) :: r)
  end.
(** BM_lp::process_message of the other processes, 1007-1074: they set the
    bounds received, solve and send the place and the answers back. *)
Definition reply (m : nat * list branch) : nat * list ans := (fst m, fst (solve_branches lo up (snd m))).
(** 511-531; the messages in the order they arrive.  [Diverges]: waits for ever.
    Also returned: the messages not read. *)
Fixpoint receive (have n : nat) (ms : list (nat * list ans)) (a : arr branch) (tab : list sbres)
  : outcome (list sbres * list (nat * list ans)) :=
  if Nat.ltb have n then
    match ms with
    | [] => Diverges
    | (k, al) :: r =>
        do bs <- slice k (List.length al) a;
        receive (have + List.length al) n r a (register bs al tab)
    end
  else Ok (tab, ms).
(** [ndebug]: the program is compiled without assertions; [net]: the order in
    which the replies arrive. *)
Variable ndebug : bool.
Variable net : list (nat * list ans) -> list (nat * list ans).
Definition do_distributed_SB (pidNum n : nat) (inf feas : list nat) (tab : list sbres)
  : outcome (list sbres * list (nat * list ans)) :=
  let a := collect n inf feas in
  let '(ns, lft) := chunks pidNum n in
  do ms <- slices 0 ns a;
  do _ <- chk (ndebug || Nat.eqb (n / (pidNum + 1)) lft);
  do bs <- slice (n - lft) lft a;
  receive lft n (net (map reply ms)) a (register bs (fst (solve_branches lo up bs)) tab).

(** *** BM_lp::process_SB_results, 545-741 *)
(** BCP's over_ub; BonChooseVariable::maxminCrit; objective value of the node;
    the preferred way of an object, if it has one and is infeasible. *)
Variable over : Q -> bool.
Variable maxmin nodeval : Q.
Variable pref : nat -> option bool.
Variable high : bool.
(** isBranchFathomable, 536-541 *)
Definition fathomable (s : side) : bool := pinf (d_st s) || (opt (d_st s) && over (d_val s)).
Definition get (s : option side) : outcome side := match s with Some x => Ok x | None => Uninit end.
Definition evaluated (r : sbres) : bool := r_e0 r || r_e1 r.
Fixpoint fathom_scan (tab : list sbres) (inf : list nat) : outcome bool :=       (* 582-606 *)
  match inf with
  | [] => Ok false
  | i :: rest =>
      let r := nth i tab dres in
      if evaluated r then
        do _ <- chk (ndebug || (r_e0 r && r_e1 r));
        do d0 <- get (r_d0 r);
        if fathomable d0 then
          do d1 <- get (r_d1 r);
          if fathomable d1 then Ok true else fathom_scan tab rest
        else fathom_scan tab rest
      else fathom_scan tab rest
  end.
Fixpoint fix_inf (tab : list sbres) (inf : list nat) (l u : list Q) : outcome (bool * (list Q * list Q)) :=   (* 611-629 *)
  match inf with
  | [] => Ok (false, (l, u))
  | i :: rest =>
      let r := nth i tab dres in
      if evaluated r then
        do d0 <- get (r_d0 r);
        do d1 <- get (r_d1 r);
        let c := r_col r in
        let l1 := if fathomable d0 then put c (cei (nth c sol 0)) l else l in
        let u1 := if fathomable d1 then put c (flo (nth c sol 0)) u else u in
        do ' (b, lu) <- fix_inf tab rest l1 u1;
        Ok (fathomable d0 || fathomable d1 || b, lu)
      else fix_inf tab rest l u
  end.
Fixpoint fix_feas (tab : list sbres) (feas : list nat) (l u : list Q) : outcome (bool * (list Q * list Q)) :=   (* 630-652 *)
  match feas with
  | [] => Ok (false, (l, u))
  | i :: rest =>
      let r := nth i tab dres in
      do b0 <- (if r_e0 r then do d <- get (r_d0 r); Ok (fathomable d) else Ok false);
      do b1 <- (if r_e1 r then do d <- get (r_d1 r); Ok (fathomable d) else Ok false);
      let c := r_col r in
      let l1 := if b0 then put c (cei (nth c sol 0 - half)) l else l in
      let u1 := if b1 then put c (flo (nth c sol 0 + half)) u else u in
      do ' (b, lu) <- fix_feas tab rest l1 u1;
      Ok (b0 || b1 || b, lu)
  end.
Definition qmin (a b : Q) : Q := if Qltb b a then b else a.
(** 682-685 *)
Definition score (d0 d1 : side) : Q :=
  maxmin * qmin (d_val d1 - nodeval) (d_val d0 - nodeval) +
  (1 - maxmin) * qmax (d_val d1 - nodeval) (d_val d0 - nodeval).
(** 672-698: position in the list, way (true: up first), score.  The starting
    value (plus or minus DBL_MAX) is [None]. *)
Definition better (v : Q) (best : option (nat * bool * Q)) : bool :=
  match best with
  | None => true
  | Some (_, _, w) => if high then Qltb w v else Qltb v w
  end.
Fixpoint pick (tab : list sbres) (inf : list nat) (k : nat) (best : option (nat * bool * Q)) : outcome (option (nat * bool * Q)) :=
  match inf with
  | [] => Ok best
  | i :: rest =>
      let r := nth i tab dres in
      if evaluated r then
        do d0 <- get (r_d0 r);
        do d1 <- get (r_d1 r);
        if ab (d_st d0) || ab (d_st d1) then pick tab rest (S k) best
        else
          let v := score d0 d1 in
          if better v best then
            let way := match pref i with
                       | Some w => w
                       | None => negb (Qltb (d_val d0 - nodeval) (d_val d1 - nodeval))
                       end in
            pick tab rest (S k) (Some (k, way, v))
          else pick tab rest (S k) best
      else pick tab rest (S k) best
  end.
(** 704-710 *)
Fixpoint first_open (tab : list sbres) (inf : list nat) (k : nat) : option nat :=
  match inf with
  | [] => None
  | i :: rest => if evaluated (nth i tab dres) then first_open tab rest (S k) else Some k
  end.
(** 712-721 *)
Fixpoint first_half (tab : list sbres) (inf : list nat) (k : nat) (best : nat) : outcome nat :=
  match inf with
  | [] => Ok best
  | i :: rest =>
      let r := nth i tab dres in
      do d0 <- get (r_d0 r);
      if negb (ab (d_st d0)) then Ok k
      else do d1 <- get (r_d1 r);
           if negb (ab (d_st d1)) then Ok k else first_half tab rest (S k) k
  end.
(** -2; -1 without a branching object; a branching object on the candidate at a
    position, with the way that goes first, and whether a bound was moved. *)
Inductive decision := DFathom | DResolve | DBranch (pos : nat) (way : bool) (moved : bool).
Definition process_SB_results (inf feas : list nat) (tab : list sbres) (l u : list Q)
  : outcome (decision * (list Q * list Q)) :=
  do f <- fathom_scan tab inf;
  if f then Ok (DFathom, (l, u)) else
  do ' (lost, (l1, u1)) <- fix_inf tab inf l u;
  do ' (moved, (l2, u2)) <- fix_feas tab feas l1 u1;
  if lost then Ok (DResolve, (l2, u2)) else
  do p <- pick tab inf 0 None;
  match p with
  | Some (k, w, _) => Ok (DBranch k w moved, (l2, u2))
  | None =>
      match first_open tab inf 0 with
      | Some k => Ok (DBranch k true moved, (l2, u2))
      | None => do k <- first_half tab inf 0 0; Ok (DBranch k true moved, (l2, u2))
      end
  end.

(** *** BM_lp::try_to_branch, 745-819.  [pidNum]: number of processes granted. *)
Variable P : ints.
Variable index : Z.                                  (* current_index() *)
Variable pidNum : nat.
(** 784-797 *)
Definition how_many (num : Z) : outcome Z :=
  if Z.eqb index 0 then do r <- entry P SBNumBranchesInRoot; Ok (Z.min num r)
  else do m <- entry P SBMaxLevel;
       if Z.ltb index m then
         do t <- entry P SBNumBranchesInTree;
         Ok (Z.min num (Z.max (Z.of_nat pidNum + 1) t))
       else Ok (if Nat.ltb 0 pidNum then Z.of_nat pidNum + 1 else 0)%Z.
(** [TLocal]: BCP_lp_user::try_to_branch (BCP) is called, 805-808. *)
Inductive tried :=
| TNone
| TLocal
| TDone (inf feas : list nat) (d : decision) (l u : list Q) (tab : list sbres) (unread : list (nat * list ans)).
Definition try_to_branch (tab : list sbres) : outcome tried :=
  do c <- sort_objects;
  match c_inf c with
  | [] => Ok TNone                                                  (* 757-759 *)
  | _ =>
      do n <- how_many (c_num c);
      if Z.ltb 0 n then
        do ' (tab1, un) <- do_distributed_SB pidNum (Z.to_nat n) (c_inf c) (c_feas c) (clear tab);
        do ' (d, (l, u)) <- process_SB_results (c_inf c) (c_feas c) tab1 lo up;
        Ok (TDone (c_inf c) (c_feas c) d l u tab1 un)
      else Ok TLocal
  end.

(** *** BM_lp::bbBranch, 823-988: what is told to BCP.  [BBranch]: the object,
    whether the up child is first, the bounds, and the values and stati given
    for the two children (set_presolve_result, 942-950). *)
Inductive told :=
| BFathomed
| BResolve (l u : list Q)
| BLocal
| BBranch (i : nat) (up_first : bool) (l u : list Q) (pre : list (status * Q)).
Definition bbBranch (tab : list sbres) : outcome told :=
  do t <- try_to_branch tab;
  match t with
  | TNone => Thrown                                                 (* 898-901 *)
  | TLocal => Ok BLocal
  | TDone inf feas d l u tab1 _ =>
      match d with
      | DFathom => Ok BFathomed
      | DResolve => Ok (BResolve l u)
      | DBranch k w _ =>
          let i := nth k inf 0%nat in
          let r := nth i tab1 dres in
          do d0 <- get (r_d0 r);
          do d1 <- get (r_d1 r);
          let e0 := (d_st d0, d_val d0) in
          let e1 := (d_st d1, d_val d1) in
          Ok (BBranch i w l u (if w then [e1; e0] else [e0; e1]))
      end
  end.

(** ** BM_lp::send_pseudo_cost_update, 122-166, and the buffer of BCP *)
End Node.

Inductive tok := TI (z : Z) | TD (q : Q) | TAI (l : list Z) | TAD (l : list Q).
Definition PseudoCostUpdate : Z := 2.              (* BM.hpp 47-51 *)
(** The number sent for one side.  A zero change of the variable would give an
    infinite number, which is no value of the model. *)
Definition only_ab (s : status) : bool := ab s && negb (opt s) && negb (pinf s).    (* status == BCP_Abandoned *)
Definition only_opt (s : status) : bool := opt s && negb (ab s) && negb (pinf s).   (* status == BCP_ProvenOptimal *)
Definition pc_change (cutoff nodeval : Q) (s : side) : outcome Q :=
  let ch := if only_opt (d_st s) then d_val s - nodeval
            else if Qltb cutoff (inject_Z (10 ^ 50)) then 2 * (cutoff - nodeval)
            else 2 * Qabs nodeval in
  if Qeq_bool (d_chg s) 0 then Uninit else Ok (ch / d_chg s).
Definition pc_side (cutoff nodeval : Q) (i : nat) (way : Z) (ev : bool) (s : option side) : outcome (list tok) :=
  if ev then
    do d <- get s;
    if only_ab (d_st d) then Ok []
    else do c <- pc_change cutoff nodeval d; Ok [TI (Z.of_nat i); TI way; TD c]
  else Ok [].
Fixpoint pc_body (cutoff nodeval : Q) (i : nat) (tab : list sbres) : outcome (list tok) :=
  match tab with
  | [] => Ok [TI (-1)]
  | r :: rest =>
      do a <- pc_side cutoff nodeval i 0 (r_e0 r) (r_d0 r);
      do b <- pc_side cutoff nodeval i 1 (r_e1 r) (r_d1 r);
      do c <- pc_body cutoff nodeval (S i) rest;
      Ok (a ++ b ++ c)
  end.
Definition send_pseudo_cost_update (cutoff nodeval : Q) (tab : list sbres) : outcome (list tok) :=
  do b <- pc_body cutoff nodeval 0 tab; Ok (TI PseudoCostUpdate :: b).

(** Pseudo-costs (OsiPseudoCosts). *)
Record pcosts := { up_tot : list Q; up_num : list Z; down_tot : list Q; down_num : list Z }.
(** BM_tm::receive_pseudo_cost_update, BM_tm.cpp 305-330.  Unpacking a number of
    the wrong kind or from an empty buffer is an error of BCP ([Thrown]). *)
Fixpoint receive_pc (fuel : nat) (buf : list tok) (p : pcosts) : outcome pcosts :=
  match fuel with
  | O => Diverges
  | S f =>
      match buf with
      | TI i :: r =>
          if Z.eqb i (-1) then Ok p
          else match r with
               | TI way :: TD c :: r' =>
                   if Z.ltb i 0 then OutOfBounds else
                   let k := Z.to_nat i in
                   if Z.eqb way 0 then
                     if Nat.ltb k (List.length (down_tot p)) then
                       receive_pc f r' {| up_tot := up_tot p; up_num := up_num p;
                                          down_tot := put k (nth k (down_tot p) 0 + c) (down_tot p);
                                          down_num := put k (nth k (down_num p) 0 + 1)%Z (down_num p) |}
                     else OutOfBounds
                   else
                     if Nat.ltb k (List.length (up_tot p)) then
                       receive_pc f r' {| up_tot := put k (nth k (up_tot p) 0 + c) (up_tot p);
                                          up_num := put k (nth k (up_num p) 0 + 1)%Z (up_num p);
                                          down_tot := down_tot p; down_num := down_num p |}
                     else OutOfBounds
               | _ => Thrown
               end
      | _ => Thrown
      end
  end.
(** BM_tm::process_message, BM_tm.cpp 209-217. *)
Definition tm_process_message (buf : list tok) (p : pcosts) : outcome pcosts :=
  match buf with
  | TI t :: r => if Z.eqb t PseudoCostUpdate then receive_pc (S (List.length r)) r p else Ok p
  | _ => Thrown
  end.

(** ** Node data: BM_pack.cpp 165-187, BM_tm.cpp 334-341, BM_lp_branch.cpp 101-117 *)
(** On the side of the tree manager the pseudo-costs go along; an LP process
    sends the counter only. *)
Definition pack_user_data (tm : option pcosts) (failed : Z) : list tok :=
  TI failed :: match tm with
               | Some p => [TAD (up_tot p); TAI (up_num p); TAD (down_tot p); TAI (down_num p)]
               | None => []
               end.
(** Unpacking into existing arrays of [n] cells: a longer array overruns them,
    of a shorter one the rest stays. *)
Definition into {A} (l old : list A) : outcome (list A) :=
  if Nat.leb (List.length l) (List.length old) then Ok (l ++ skipn (List.length l) old) else OutOfBounds.
(** [lp]: the pseudo-costs of an LP process ([Some]) or the tree manager
    ([None]); [choose] false: the branching method is not a BonChooseVariable. *)
Definition unpack_user_data (lp : option pcosts) (choose : bool) (buf : list tok) : outcome (Z * option pcosts * list tok) :=
  match buf with
  | TI f :: r =>
      match lp with
      | None => Ok (f, None, r)
      | Some p =>
          if choose then
            match r with
            | TAD ut :: TAI un :: TAD dt :: TAI dn :: r' =>
                do ut' <- into ut (up_tot p);
                do un' <- into un (up_num p);
                do dt' <- into dt (down_tot p);
                do dn' <- into dn (down_num p);
                Ok (f, Some {| up_tot := ut'; up_num := un'; down_tot := dt'; down_num := dn' |}, r')
            | _ => Thrown
            end
          else NullDeref
      end
  | _ => Thrown
  end.

(** ** Failures of the NLP solver in a row: BM_lp_branch.cpp 46-68,
    BM_lp.cpp 99-100, BM_lp_branch.cpp 992-1003, BM_tm.cpp 136-144 *)
(** select_branching_candidates, 47-67: the new counter, and whether the node is given up. *)
Definition count_failure (max : Z) (failed : bool) (n : Z) : Z * bool :=
  if failed then ((n + 1)%Z, Z.leb max (n + 1)) else (0%Z, false).
(** Processes work on nodes that others have made.  [w_open]: data of the nodes
    waiting; [w_busy]: the counter of each process at work.  With each of them
    goes the list of the outcomes of the solves on the path to it, latest first
    (not in the code: to state what the counter means).  [w_gone]: paths of the
    nodes given up. *)
Record world := { w_open : list (Z * list bool); w_busy : list (option (Z * list bool)); w_gone : list (list bool) }.
Inductive event := Grab (k j : nat) | Solved (k : nat) (failed : bool) | Split (k : nat) | Drop (k : nat).
Definition set_busy (k : nat) (v : option (Z * list bool)) (w : world) : world :=
  {| w_open := w_open w; w_busy := put k v (w_busy w); w_gone := w_gone w |}.
Definition happen (max : Z) (w : world) (e : event) : world :=
  match e with
  | Grab k j =>
      match take_nth j (w_open w), nth k (w_busy w) None with
      | Some ((n, h), r), None => {| w_open := r; w_busy := put k (Some (n, h)) (w_busy w); w_gone := w_gone w |}
      | _, _ => w
      end
  | Solved k failed =>
      match nth k (w_busy w) None with
      | Some (n, h) =>
          let '(n', give_up) := count_failure max failed n in
          if give_up
          then {| w_open := w_open w; w_busy := put k None (w_busy w); w_gone := (failed :: h) :: w_gone w |}
          else set_busy k (Some (n', failed :: h)) w
      | None => w
      end
  | Split k =>
      match nth k (w_busy w) None with
      | Some (n, h) => {| w_open := (n, h) :: (n, h) :: w_open w; w_busy := put k None (w_busy w); w_gone := w_gone w |}
      | None => w
      end
  | Drop k => set_busy k None w
  end.
(** create_root *)
Definition start (procs : nat) : world := {| w_open := [(0%Z, [])]; w_busy := repeat None procs; w_gone := [] |}.

(** ** Solutions *)
(** BM_lp::test_feasibility_hybrid, BM_lp.cpp 232-240. *)
Definition hybrid_entries (tol : Q) (x : list Q) : list (nat * Q) :=
  filter (fun e => Qltb tol (snd e)) (combine (seq 0 (List.length x)) x).
(** BM_tm::write_AMPL_solution, BM_tm.cpp 174-186. *)
Fixpoint dense (isint : nat -> bool) (es : list (nat * Q)) (d : list Q) : list Q :=
  match es with
  | [] => d
  | (i, v) :: r => dense isint r (put i (if isint i then flo (v + half) else v) d)
  end.
Definition written (isint : nat -> bool) (n : nat) (es : list (nat * Q)) : list Q := dense isint es (repeat 0 n).

(** ** Order of the candidate nodes: BMSearchTreeCompareBest, BM_tm.cpp 258-271 *)
Definition gap : Q := 1 # 100000000.
Definition before (x y : Q * Z) : bool :=
  Qltb (fst x) (fst y - gap) || (Qle_bool (fst x) (fst y + gap) && Z.ltb (snd y) (snd x)).

(** ** BM_lp::compute_lower_bound, BM_lp.cpp 312-328 *)
Definition compute_lower_bound (pure : bool) (objval old : Q) : outcome Q :=
  if pure then Ok (qmax objval old) else Uninit.
