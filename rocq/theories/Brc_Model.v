(** Model of the branching code: candidate lists, strong branching, the choice of the branching
    object, pseudo-costs (src/Algorithms/Branching/BonChooseVariable.cpp, BonRandomChoice.{hpp,cpp})
    and strong branching on the linear relaxation (BonLpBranchingSolver.cpp).

    Simplifications.  Doubles are rationals, COIN_DBL_MAX is +infinity.  Messages are left out.  A
    list cell holding -1 is [None].  The base classes OsiChooseVariable, OsiHotInfo and
    OsiPseudoCosts are not in the repository; what is used of them is described where it is used. *)
From Verif Require Import Base Arr Itf_Model Oad_Model.
#[local] Open Scope Q_scope.

(** ** Objects and pseudo-costs *)
(** What the code asks of a branching object: infeasibility(info,way), priority(), upEstimate(),
    downEstimate(). *)
Record bobj := { o_inf : Q; o_prio : Z; o_up : Q; o_dn : Q }.
(** OsiPseudoCosts: sums of changes and numbers of observations, per object. *)
Record pcosts := { p_ut : list Q; p_un : list nat; p_dt : list Q; p_dn : list nat }.
(** OsiPseudoCosts::initialize clears everything. *)
Definition pc_init (n : nat) : pcosts :=
  {| p_ut := repeat 0 n; p_un := repeat O n; p_dt := repeat 0 n; p_dn := repeat O n |}.
(** BonChooseVariable.hpp 101-105. *)
Inductive crit := DecrPs | IncrPs | DecrInfeas | IncrInfeas.
Definition odd_crit (c : crit) : bool := match c with IncrPs | IncrInfeas => true | _ => false end.
Definition ps_crit (c : crit) : bool := match c with DecrPs | IncrPs => true | _ => false end.
Definition qmin (a b : Q) : Q := if Qltb a b then a else b.      (* CoinMin *)
Definition qmx (a b : Q) : Q := if Qltb b a then a else b.       (* CoinMax *)
Definition qnat (k : nat) : Q := inject_Z (Z.of_nat k).

(** computeMultipliers, BonChooseVariable.cpp 203-230. *)
Definition multipliers (pc : pcosts) : Q * Q :=
  ((1 + qsum (p_ut pc)) / (1 + qsum (map qnat (p_un pc))), (1 + qsum (p_dt pc)) / (1 + qsum (map qnat (p_dn pc)))).
(** 252-303 computeUsefulness: the usefulness and value2 (minus infinity when the object is trusted). *)
Definition usefulness (cr : crit) (W um dm : Q) (trust : nat) (pc : pcosts) (i : nat) (o : bobj) : outcome (Q * ext) :=
  do nu <- rd i (p_un pc); do nd <- rd i (p_dn pc);
  if ps_crit cr then
    do su <- rd i (p_ut pc); do sd <- rd i (p_dt pc);
    let su := su + (1 # (10 ^ 30)) in
    let sd := sd + (1 # (10 ^ 30)) in
    let ue := if Nat.eqb nu 0 then o_up o * um else o_up o * su / qnat nu in
    let de := if Nat.eqb nd 0 then o_dn o * dm else o_dn o * sd / qnat nd in
    let u := W * qmin ue de + (1 - W) * qmx ue de in
    let u := if (Nat.eqb nu 0 || Nat.eqb nd 0)%bool
             then if Qeq_bool (o_inf o) 0 then 0 else if Qle_bool (1 # 2) W then qmin ue de else qmx ue de
             else u in
    Ok (u, if (Nat.ltb nu trust || Nat.ltb nd trust)%bool then Fin (o_inf o) else MInf)
  else Ok (o_inf o, Fin (o_inf o)).

(** ** setupList, BonChooseVariable.cpp 306-584 *)
Notation cell := (option nat).
Record lst := {
  k_list : list cell; k_use : list Q; k_check : ext; k_ci : nat; k_best : Z; k_ms : nat; k_put : nat;
  k_l2 : list cell; k_u2 : list Q; k_check2 : ext; k_ci2 : nat; k_uns : nat; k_nnt : nat }.
Definition INT_MAX : Z := 2147483647.
Record sopts := {
  s_crit : crit; s_W : Q; s_trust : nat;      (* candidate_sort_criterion, the weight, number_before_trust_list *)
  s_strong : nat; s_root : nat; s_frac : Q }. (* number_strong_branch, number_strong_branch_root, setup_pseudo_frac *)

(** 379-386: the candidates go to the end. *)
Fixpoint flush (j : nat) (L : list cell) (U : list Q) (put : nat) {struct j} : outcome (list cell * list Q * nat) :=
  match j with
  | O => Ok (L, U, put)
  | S j' =>
      do c <- rd j' L;
      match c with
      | None => flush j' L U put
      | Some o =>
          do L1 <- lset j' None L; do U1 <- lset j' 0 U;
          match put with
          | O => OutOfBounds
          | S p => do L2 <- lset p (Some o) L1; flush j' L2 U1 p
          end
      end
  end.
(** 420-432, 447-459: the position to use next. *)
Fixpoint worst (n j : nat) (L : list cell) (U : list Q) (check : ext) (ci : nat) {struct n} : outcome (ext * nat) :=
  match n with
  | O => Ok (check, ci)
  | S n' =>
      do c <- rd j L;
      match c with
      | None => Ok (Fin 0, j)
      | Some _ => do u <- rd j U;
                  if ext_ltb (Fin u) check then worst n' (S j) L U (Fin u) j else worst n' (S j) L U check ci
      end
  end.
(** 411-412, 436-437, 466-467: assert (list_[putOther-1]<0); list_[--putOther]=i. *)
Definition to_end (i : nat) (L : list cell) (put : nat) : outcome (list cell * nat) :=
  match put with
  | O => OutOfBounds
  | S p => do c <- rd p L; match c with Some _ => AssertFail | None => do L' <- lset p (Some i) L; Ok (L', p) end
  end.
(** 376-400: a better priority flushes the choices. *)
Definition better_prio (mmf : nat) (pr : Z) (s : lst) : outcome lst :=
  if Z.ltb pr (k_best s) then
    do ' (L, U, put) <- flush (k_ms s) (k_list s) (k_use s) (k_put s);
    Ok {| k_list := L; k_use := U; k_check := MInf; k_ci := 0; k_best := pr; k_ms := Nat.min (k_ms s) put; k_put := put;
          k_l2 := repeat None mmf; k_u2 := repeat 0 mmf; k_check2 := MInf; k_ci2 := 0; k_uns := k_uns s; k_nnt := 0 |}
  else Ok s.
(** 406-438. *)
Definition first_list (i : nat) (u : Q) (s : lst) : outcome lst :=
  if ext_ltb (k_check s) (Fin u) then
    do c <- rd (k_ci s) (k_list s);
    do ' (L, put) <- match c with Some o => to_end o (k_list s) (k_put s) | None => Ok (k_list s, k_put s) end;
    do L1 <- lset (k_ci s) (Some i) L;
    do _ <- chk (Nat.ltb (k_ci s) put);
    do U1 <- lset (k_ci s) u (k_use s);
    let ms := Nat.min (k_ms s) put in
    do ' (check, ci) <- worst ms 0 L1 U1 PInf (k_ci s);
    Ok {| k_list := L1; k_use := U1; k_check := check; k_ci := ci; k_best := k_best s; k_ms := ms; k_put := put;
          k_l2 := k_l2 s; k_u2 := k_u2 s; k_check2 := k_check2 s; k_ci2 := k_ci2 s; k_uns := k_uns s; k_nnt := k_nnt s |}
  else
    do ' (L, put) <- to_end i (k_list s) (k_put s);
    Ok {| k_list := L; k_use := k_use s; k_check := k_check s; k_ci := k_ci s; k_best := k_best s;
          k_ms := Nat.min (k_ms s) put; k_put := put;
          k_l2 := k_l2 s; k_u2 := k_u2 s; k_check2 := k_check2 s; k_ci2 := k_ci2 s; k_uns := k_uns s; k_nnt := k_nnt s |}.
(** 440-461. *)
Definition second_list (mmf i : nat) (v2 : ext) (s : lst) : outcome lst :=
  match v2 with
  | Fin w =>
      if (Nat.ltb 0 mmf && ext_ltb (k_check2 s) v2)%bool then
        do L2 <- lset (k_ci2 s) (Some i) (k_l2 s);
        do U2 <- lset (k_ci2 s) w (k_u2 s);
        do ' (check2, ci2) <- worst mmf 0 L2 U2 PInf (k_ci2 s);
        Ok {| k_list := k_list s; k_use := k_use s; k_check := k_check s; k_ci := k_ci s; k_best := k_best s; k_ms := k_ms s; k_put := k_put s;
              k_l2 := L2; k_u2 := U2; k_check2 := check2; k_ci2 := ci2; k_uns := k_uns s; k_nnt := S (k_nnt s) |}
      else Ok s
  | _ => Ok s                                                                (* -COIN_DBL_MAX exceeds nothing *)
  end.
Definition set_uns (s : lst) : lst :=
  {| k_list := k_list s; k_use := k_use s; k_check := k_check s; k_ci := k_ci s; k_best := k_best s; k_ms := k_ms s; k_put := k_put s;
     k_l2 := k_l2 s; k_u2 := k_u2 s; k_check2 := k_check2 s; k_ci2 := k_ci2 s; k_uns := S (k_uns s); k_nnt := k_nnt s |}.
Definition huge : Q := inject_Z (10 ^ 50).
(** 362-471, one object; the flag is false when the object cannot be repaired. *)
Definition scan_one (q : sopts) (mmf : nat) (um dm : Q) (pc : pcosts) (i : nat) (o : bobj) (s : lst) : outcome (bool * lst) :=
  if Qltb 0 (o_inf o) then
    let s := set_uns s in
    if Qle_bool huge (o_inf o) then Ok (false, s)
    else
      do s1 <- better_prio mmf (o_prio o) s;
      if Z.eqb (o_prio o) (k_best s1) then
        do ' (u, v2) <- usefulness (s_crit q) (s_W q) um dm (s_trust q) pc i o;
        do s2 <- first_list i u s1;
        do s3 <- second_list mmf i v2 s2;
        Ok (true, s3)
      else
        do ' (L, put) <- to_end i (k_list s1) (k_put s1);                    (* 463-468 *)
        Ok (true, {| k_list := L; k_use := k_use s1; k_check := k_check s1; k_ci := k_ci s1; k_best := k_best s1;
                     k_ms := Nat.min (k_ms s1) put; k_put := put;
                     k_l2 := k_l2 s1; k_u2 := k_u2 s1; k_check2 := k_check2 s1; k_ci2 := k_ci2 s1; k_uns := k_uns s1; k_nnt := k_nnt s1 |})
  else Ok (true, s).
Fixpoint scan (q : sopts) (mmf : nat) (um dm : Q) (pc : pcosts) (i : nat) (os : list bobj) (s : lst) {struct os} : outcome (bool * lst) :=
  match os with
  | [] => Ok (true, s)
  | o :: os' =>
      do ' (ok, s') <- scan_one q mmf um dm pc i o s;
      if ok then scan q mmf um dm pc (S i) os' s' else Ok (false, s')
  end.

(** 484-507 (with [neg] telling whether the usefulness is negated) and 512-524: squeeze out empty cells. *)
Fixpoint compact (neg : bool) (n i k : nat) (L : list cell) (U : list Q) {struct n} : outcome (list cell * list Q * nat) :=
  match n with
  | O => Ok (L, U, k)
  | S n' =>
      do c <- rd i L;
      match c with
      | None => compact neg n' (S i) k L U
      | Some _ => do u <- rd i U;
                  do L1 <- lset k c L; do U1 <- lset k (if neg then - u else u) U;
                  compact neg n' (S i) (S k) L1 U1
      end
  end.
(** CoinSort_2 sorts two arrays by the first one. *)
Record sorters := { sI : list (cell * Q) -> list (cell * Q); sQ : list (Q * cell) -> list (Q * cell) }.
Definition sortI (S : sorters) (k : nat) (L : list cell) (U : list Q) : outcome (list cell * list Q) :=
  if (Nat.leb k (length L) && Nat.leb k (length U))%bool then
    let r := sI S (combine (firstn k L) (firstn k U)) in
    Ok (map fst r ++ skipn k L, map snd r ++ skipn k U)
  else OutOfBounds.
Definition sortQ (S : sorters) (k : nat) (U : list Q) (L : list cell) : outcome (list Q * list cell) :=
  if (Nat.leb k (length L) && Nat.leb k (length U))%bool then
    let r := sQ S (combine (firstn k U) (firstn k L)) in
    Ok (map fst r ++ skipn k U, map snd r ++ skipn k L)
  else OutOfBounds.
Definition big : Q := inject_Z (10 ^ 150).
Definition is_cell (i : nat) (c : cell) : bool := match c with Some j => Nat.eqb j i | None => false end.
(** 530-541: candidates of the second list which are already on the first one. *)
Fixpoint merge (mmf n i i1 i2 : nat) (L : list cell) (U : list Q) (L2 : list cell) (U2 : list Q) {struct n} : outcome (list Q * list cell) :=
  match n with
  | O => Ok (U, L2)
  | S n' =>
      do c1 <- rd i1 L; do c2 <- rd i2 L2;
      let f1 := is_cell i c1 in
      let f2 := is_cell i c2 in
      do ' (U', L2') <-
        (if (f1 && f2)%bool then
           do w <- rd i2 U2; do U' <- lset i1 (- big * (1 + w)) U; do L2' <- lset i2 None L2; Ok (U', L2')
         else Ok (U, L2));
      let i1' := if f1 then S i1 else i1 in
      let i2' := if f2 then S i2 else i2 in
      if Nat.eqb i2' mmf then Ok (U', L2') else merge mmf n' (S i) i1' i2' L U' L2' U2
  end.
(** 542-548: the others are added. *)
Fixpoint force (n i k : nat) (L : list cell) (U : list Q) (L2 : list cell) (U2 : list Q) {struct n} : outcome (list cell * list Q * nat) :=
  match n with
  | O => Ok (L, U, k)
  | S n' =>
      do c <- rd i L2;
      match c with
      | None => force n' (S i) k L U L2 U2
      | Some _ => do w <- rd i U2; do L1 <- lset k c L; do U1 <- lset k (- big * (1 + w)) U; force n' (S i) (S k) L1 U1 L2 U2
      end
  end.
(** 553-555: move others. *)
Fixpoint move (n i put : nat) (L : list cell) {struct n} : outcome (list cell * nat) :=
  match n with
  | O => Ok (L, i)
  | S n' => do c <- rd put L; do L1 <- lset i c L; move n' (S i) (S put) L1
  end.
Record slist := { r_list : list cell; r_use : list Q; r_nol : nat; r_uns : Z; r_nnt : nat }.
(** 509-558. *)
Definition finish (S : sorters) (q : sopts) (n mmf : nat) (s : lst) (nol : nat) (L : list cell) (U : list Q) (ms : nat) : outcome slist :=
  if Nat.eqb nol 0 then Ok {| r_list := L; r_use := U; r_nol := 0; r_uns := Z.of_nat (k_uns s); r_nnt := k_nnt s |}
  else
    do ' (L, U, tot, nnt) <-
      (if (Nat.ltb 0 mmf && Nat.leb ms nol)%bool then
         do ' (L2, U2, nnt) <- compact false mmf 0 0 (k_l2 s) (k_u2 s);
         if Nat.eqb nnt 0 then Ok (L, U, nol, nnt)
         else
           do ' (L, U) <- sortI S nol L U;
           do ' (L2, U2) <- sortI S nnt L2 U2;
           do ' (U, L2) <- merge mmf n 0 0 0 L U L2 U2;
           do ' (L, U, tot) <- force nnt 0 nol L U L2 U2;
           Ok (L, U, tot, nnt)
       else Ok (L, U, nol, k_nnt s));
    do ' (U, L) <- sortQ S tot U L;                                          (* 551 *)
    do ' (L, i) <- move (n - k_put s) nol (k_put s) L;
    do _ <- chk (Nat.eqb i (k_uns s));                                        (* 556 *)
    Ok {| r_list := L; r_use := U;
          r_nol := if Nat.eqb (Nat.max (s_strong q) (s_root q)) 0 then 0 else nol;
          r_uns := Z.of_nat (k_uns s); r_nnt := nnt |}.
(** 351-354. *)
Definition most_fra (q : sopts) (ms : nat) : nat :=
  if Qltb 0 (s_frac q) then Nat.max 1 (Z.to_nat (Qfloor (s_frac q * qnat ms))) else O.
(** setupList with number_before_trust_list >= 0 (a negative value runs the base class' own list).
    [cap]: number of objects the arrays list_ and useful_ were allocated for, when this was created. *)
Definition setupList (S : sorters) (q : sopts) (initialize : bool) (cap : nat) (pc : pcosts) (os : list bobj) : outcome (slist * pcosts) :=
  if negb initialize then Thrown                                              (* 325 *)
  else
    let n := length os in
    do _ <- chk (negb (Nat.eqb n 0));                                         (* 329 *)
    let pc := if Nat.ltb (length (p_un pc)) n then pc_init n else pc in       (* 330-340 *)
    let ms := Nat.min (Nat.max (s_strong q) (s_root q)) n in                  (* 344 *)
    if Nat.ltb cap n then OutOfBounds                                         (* 348-351 *)
    else
      let mmf := most_fra q ms in
      let '(um, dm) := multipliers pc in
      let s0 := {| k_list := repeat None n ++ repeat None (cap - n); k_use := repeat 0 n ++ repeat 0 (cap - n);
                   k_check := MInf; k_ci := 0; k_best := INT_MAX; k_ms := ms; k_put := n;
                   k_l2 := repeat None mmf; k_u2 := repeat 0 mmf; k_check2 := MInf; k_ci2 := 0; k_uns := 0; k_nnt := 0 |} in
      do ' (feas, s) <- scan q mmf um dm pc 0 os s0;
      if feas then
        let ms := Nat.min (k_ms s) (k_put s) in
        do ' (L, U, nol) <- compact (negb (odd_crit (s_crit q))) ms 0 0 (k_list s) (k_use s);
        do r <- finish S q n mmf s nol L U ms;
        Ok (r, pc)
      else Ok ({| r_list := k_list s; r_use := k_use s; r_nol := 0; r_uns := -1; r_nnt := k_nnt s |}, pc).

(** ** BonRandomChoice *)
(** BonRandomChoice.cpp 13-56.  COIN_DBL_MAX as infeasibility is [None]. *)
Record robj := { ro_inf : option Q; ro_prio : Z }.
Fixpoint rscan (i : nat) (os : list robj) (best : Z) (L : list nat) {struct os} : list nat :=
  match os with
  | [] => L
  | o :: os' =>
      match ro_inf o with
      | None => L                                                             (* break *)
      | Some v =>
          if Qltb 0 v then
            let L := if Z.ltb (ro_prio o) best then [] else L in              (* flush *)
            rscan (S i) os' (ro_prio o) (L ++ [i])                            (* bestPriority = priorityLevel, always *)
          else rscan (S i) os' best L
      end
  end.
Definition rsetup (os : list robj) : outcome (list nat) :=
  do _ <- chk (negb (Nat.eqb (length os) 0)); Ok (rscan 0 os INT_MAX []).
(** BonRandomChoice.hpp 48-64: [d] is CoinDrand48(), at least 0 and less than 1. *)
Definition rchoose (d : Q) (L : list nat) : outcome (option nat) :=
  match L with
  | [] => Ok None                                                             (* returns 1 *)
  | _ => do i <- rd (Z.to_nat (Qfloor (d * qnat (length L)))) L; Ok (Some i)
  end.

(** ** Pseudo-cost updates *)
(** BonChooseVariable.cpp 1031-1082 updateInformation(index, branch, ...).  [cbc]: cutoff and current
    objective value of the search, when there is one.  [n]: number of objects. *)
Definition up_branch (b : Z) : bool := negb (Z.eqb b 0).
Definition put_cost (up : bool) (i : nat) (d : Q) (pc : pcosts) : outcome pcosts :=
  if up then do t <- rd i (p_ut pc); do c <- rd i (p_un pc); do T <- lset i (t + d) (p_ut pc); do C <- lset i (S c) (p_un pc);
             Ok {| p_ut := T; p_un := C; p_dt := p_dt pc; p_dn := p_dn pc |}
  else do t <- rd i (p_dt pc); do c <- rd i (p_dn pc); do T <- lset i (t + d) (p_dt pc); do C <- lset i (S c) (p_dn pc);
       Ok {| p_ut := p_ut pc; p_un := p_un pc; p_dt := T; p_dn := C |}.
Definition expensive (cutoff : ext) (objv : Q) : Q :=
  match cutoff with
  | Fin c => if Qltb c huge then 2 * (c - objv) else 2 * Qabs objv
  | PInf => 2 * Qabs objv
  | MInf => 2 * Qabs objv                                                    (* not a cutoff; never used *)
  end.
Record obs := { b_index : nat; b_branch : Z; b_dobj : Q; b_dval : Q; b_status : Z; b_cut : ext; b_cur : Q }.
Definition update_branch (cbc : bool) (n : nat) (b : obs) (pc : pcosts) : outcome pcosts :=
  if negb cbc then Ok pc
  else
    do _ <- chk (Nat.ltb (b_index b) n);
    do _ <- chk (Z.ltb (b_branch b) 2);
    if Qltb (Qabs (b_dval b)) (1 # 1000000) then Ok pc
    else if Z.eqb (b_status b) 1 then put_cost (up_branch (b_branch b)) (b_index b) (expensive (b_cut b) (b_cur b) / b_dval b) pc
    else do _ <- chk (Z.leb 0 (b_status b));
         put_cost (up_branch (b_branch b)) (b_index b) (b_dobj b / b_dval b) pc.
Fixpoint updates (cbc : bool) (n : nat) (bs : list obs) (pc : pcosts) {struct bs} : outcome pcosts :=
  match bs with [] => Ok pc | b :: bs' => do pc' <- update_branch cbc n b pc; updates cbc n bs' pc' end.

(** ** Strong branching *)
Definition bounds := list (Q * Q).
(** A child problem after its solve: isProvenOptimal(), isProvenPrimalInfeasible(), iteration limit
    without objective limit, objective, and whether its solution satisfies all objects. *)
Record child := { h_opt : bool; h_inf : bool; h_lim : bool; h_obj : Q; h_feas : bool }.
(** A candidate: object number, the object's estimates, boundBranch(), and what branch() does to the
    bounds, for the first (down) and the second (up) call. *)
Record cand := { d_obj : nat; d_up : Q; d_dn : Q; d_bound : bool; d_do : bool -> bounds -> bounds }.
Record hot := { g_obj : nat; g_dst : Z; g_ust : Z; g_dch : Q; g_uch : Q }.
Record sbopts := {
  q_trustPc : bool; q_trustBound : bool; q_trustSol : bool; q_look : nat; q_isroot : bool; q_weight : Q;
  q_orig : Q;                                                                 (* info->objectiveValue_ *)
  q_dbg : bool }.                                                             (* solver->getRowCutDebugger() *)
(** 981-1025 updateInformation(info, branch, hotInfo). *)
Definition update_hot (q : sbopts) (n : nat) (cut : ext) (up : bool) (st : Z) (ch : Q) (c : cand) (pc : pcosts) : outcome pcosts :=
  if negb (q_trustPc q) then Ok pc
  else
    do _ <- chk (Nat.ltb (d_obj c) n);
    do _ <- chk (Qltb 0 (d_up c) && Qltb 0 (d_dn c));
    let e := if up then d_up c else d_dn c in
    if Z.eqb st 0 then put_cost up (d_obj c) (ch / e) pc
    else if Z.eqb st 1 then put_cost up (d_obj c) (expensive cut (q_orig q) / e) pc
    else Ok pc.
(** 1119-1144 HotInfo::updateInformation; the part of OsiHotInfo::updateInformation (not in the
    repository): optimal is 0, a limit is 2, anything else 1; with trustStrongForBound an optimal
    child not below the cutoff is 1; with trustStrongForSolution an optimal child whose solution is
    feasible and better than the best one gives 3 and is saved; then the pseudo-costs are updated with
    the stored status.  Result: status returned, status stored, change, best objective, pseudo-costs. *)
Definition update_info (q : sbopts) (n : nat) (cut good : ext) (up : bool) (h : child) (c : cand) (pc : pcosts)
    : outcome (Z * Z * Q * ext * pcosts) :=
  let st := if h_opt h then 0%Z else if h_lim h then 2%Z else 1%Z in
  let ch := qmx 0 (h_obj h - q_orig q) in
  let above := (q_trustBound q && Z.eqb st 0 && negb (ext_ltb (Fin (h_obj h)) cut))%bool in
  let st := if above then 1%Z else st in
  let ch := if above then inject_Z (10 ^ 100) else ch in
  let sol := (Z.eqb st 0 && q_trustSol q && ext_ltb (Fin (h_obj h)) good && h_feas h)%bool in
  let good := if sol then Fin (h_obj h) else good in
  let ret := if sol then 3%Z else st in
  do pc' <- update_hot q n cut up st ch c pc;
  if (negb (h_inf h) && negb (h_opt h))%bool then Ok (2%Z, 2%Z, ch, good, pc')
  else if (h_inf h && Qltb (Qabs (h_obj h)) (1 # 1000000))%bool then Ok (2%Z, 2%Z, ch, good, pc')
  else Ok (ret, st, ch, good, pc').
(** 860-866, 912-918: restore bounds (info->lower_ and upper_ are the solver's own arrays). *)
Fixpoint restore (saved now : bounds) : bounds :=
  match saved, now with
  | (sl, su) :: saved', (l, u) :: now' =>
      ((if Qeq_bool sl l then l else sl), (if Qeq_bool su u then u else su)) :: restore saved' now'
  | _, _ => now
  end.
Record sb := { v_b : bounds; v_cut : ext; v_good : ext; v_pc : pcosts; v_done : nat; v_fix : nat }.
(** One direction, 823-866 or 868-918.  [solve]: the outcome of a child solve, given the bounds used. *)
Definition one_side (q : sbopts) (n : nat) (up : bool) (solve : bounds -> child) (c : cand) (s : sb) : outcome (Z * Z * Q * sb) :=
  let b' := d_do c up (v_b s) in
  let h := solve b' in
  do ' (ret, st, ch, good, pc) <- update_info q n (v_cut s) (v_good s) up h c (v_pc s);
  let '(ret, cut) := if (Z.eqb ret 3 && q_trustSol q)%bool then (0%Z, good) else (ret, v_cut s) in
  if (q_dbg q && Z.eqb ret 1)%bool then Thrown
  else Ok (ret, st, ch,
           {| v_b := if d_bound c then restore (v_b s) b' else v_b s;        (* a clone is used otherwise *)
              v_cut := cut; v_good := good; v_pc := pc; v_done := v_done s; v_fix := v_fix s |}).
Definition score (W up dn : Q) : Q := W * qmin up dn + (1 - W) * qmx up dn.
(** The loop 808-945.  [late]: the time limit is passed after this candidate; [rc]: the return code;
    [best], [trials]: the look-ahead heuristic. *)
Fixpoint strong (q : sbopts) (n i : nat) (solve : nat -> bool -> bounds -> child) (late : nat -> bool)
    (cs : list cand) (rc : Z) (best : ext) (trials : nat) (rs : list hot) (s : sb) {struct cs} : outcome (Z * list hot * sb) :=
  match cs with
  | [] => Ok (rc, rs, s)
  | c :: cs' =>
      do ' (s0, d0, ch0, s1) <- one_side q n false (solve i false) c s;
      do ' (s1st, d1, ch1, s2) <- one_side q n true (solve i true) c s1;
      let both := (Z.eqb s0 1 && Z.eqb s1st 1)%bool in
      let one := (Z.eqb s0 1 || Z.eqb s1st 1)%bool in
      let s2 := {| v_b := v_b s2; v_cut := v_cut s2; v_good := v_good s2; v_pc := v_pc s2; v_done := S (v_done s2);
                   v_fix := if (one && negb both)%bool then S (v_fix s2) else v_fix s2 |} in
      let rc := if both then (-1)%Z else if one then 1%Z else rc in
      let rs := rs ++ [{| g_obj := d_obj c; g_dst := d0; g_ust := d1; g_dch := ch0; g_uch := ch1 |}] in
      if late i then Ok (3%Z, rs, s2)
      else if (negb (q_isroot q) && Nat.ltb 0 (q_look q))%bool then
        do _ <- chk (Z.eqb s0 0 && Z.eqb s1st 0);
        let v := score (q_weight q) ch1 ch0 in
        if ext_ltb best (Fin v) then strong q n (S i) solve late cs' rc (Fin v) 0 rs s2
        else if Nat.leb (q_look q) (S trials) then Ok (rc, rs, s2)
        else strong q n (S i) solve late cs' rc best (S trials) rs s2
      else strong q n (S i) solve late cs' rc best trials rs s2
  end.
(** 786-945. *)
Definition doStrongBranching (q : sbopts) (n : nat) (solve : nat -> bool -> bounds -> child) (late : nat -> bool) (cs : list cand) (s : sb)
    : outcome (Z * list hot * sb) := strong q n 0 solve late cs 0%Z MInf 0 [] s.

(** ** chooseVariable, 598-773 *)
(** CoinMin and CoinMax when an argument may be NaN ([None]). *)
Definition nmin (a b : option Q) : option Q := match a, b with Some x, Some y => Some (qmin x y) | _, _ => b end.
Definition nmax (a b : option Q) : option Q := match a, b with Some x, Some y => Some (qmx x y) | _, _ => b end.
Definition nlin (W : Q) (a b : option Q) : option Q := match a, b with Some x, Some y => Some (W * x + (1 - W) * y) | _, _ => None end.
Definition ngt (a b : option Q) : bool := match a, b with Some x, Some y => Qltb y x | _, _ => false end.   (* a > b *)
(** total*estimate/number; with number 0 the total is 0 and the result NaN. *)
Definition avg (tot est : Q) (num : nat) : option Q := if Nat.eqb num 0 then None else Some (tot * est / qnat num).
Record copts := {
  w_strong : nat; w_root : nat; w_trusted : nat;       (* numberStrong_, numberStrongRoot_, numberBeforeTrusted *)
  w_min : nat; w_only : bool; w_nnt : nat }.           (* min_number_strong_branch, only_pseudo_when_trusted_, number_not_trusted_ *)
(** The candidates and the best trusted object, 633-661. *)
Record tri := { t_best : option nat; t_way : Z; t_val : ext; t_cands : list cand }.
Fixpoint split (q : sbopts) (w : copts) (pc : pcosts) (mk : nat -> cand) (n i : nat) (L : list cell) (t : tri) {struct n} : outcome tri :=
  match n with
  | O => Ok t
  | S n' =>
      do c <- rd i L;
      match c with
      | None => OutOfBounds                                                   (* upNumber[-1] *)
      | Some o =>
          do nu <- rd o (p_un pc); do nd <- rd o (p_dn pc);
          if (Nat.eqb (w_trusted w) 0 || Nat.ltb i (w_min w) || (w_only w && Nat.ltb 0 (w_nnt w)) ||
              (negb (q_isroot q) && (Nat.ltb nu (w_trusted w) || Nat.ltb nd (w_trusted w))) ||
              (q_isroot q && (Nat.eqb nu 0 && Nat.eqb nd 0)))%bool
          then split q w pc mk n' (S i) L {| t_best := t_best t; t_way := t_way t; t_val := t_val t; t_cands := t_cands t ++ [mk o] |}
          else
            do tu <- rd o (p_ut pc); do td <- rd o (p_dt pc);
            let ue := avg tu (d_up (mk o)) nu in
            let de := avg td (d_dn (mk o)) nd in
            let v := nlin (q_weight q) (nmin ue de) (nmax ue de) in
            if match v with Some x => ext_ltb (t_val t) (Fin x) | None => false end
            then split q w pc mk n' (S i) L {| t_best := Some o; t_way := if ngt ue de then 0%Z else 1%Z;
                                               t_val := match v with Some x => Fin x | None => MInf end; t_cands := t_cands t |}
            else split q w pc mk n' (S i) L t
      end
  end.
(** The results, 681-745.  [pref]: the object's preferred way when it has one. *)
Record pick := { y_best : option nat; y_way : Z; y_val : ext; y_rc : Z; y_fixed : nat; y_forced : option (nat * Z); y_b : bounds }.
Definition fix_to (q : sbopts) (mk : nat -> cand) (fixv : bool) (o : nat) (up : bool) (way : Z) (p : pick) : pick :=
  {| y_best := y_best p; y_way := y_way p; y_val := y_val p; y_rc := y_rc p; y_fixed := S (y_fixed p);
     y_forced := match y_forced p with None => Some (o, way) | f => f end;
     y_b := if fixv then d_do (mk o) up (y_b p) else y_b p |}.
Definition look_one (q : sbopts) (cut : ext) (mk : nat -> cand) (pref : nat -> option Z) (fixv : bool) (r : hot) (p : pick) : outcome pick :=
  let o := g_obj r in
  do ' (ue, p) <-
    (if Z.eqb (g_ust r) 1 then Ok (expensive cut (q_orig q), fix_to q mk fixv o false 0 p)
     else do _ <- chk (Z.leb 0 (g_ust r)); Ok (g_uch r, p));
  do ' (de, p) <-
    (if Z.eqb (g_dst r) 1 then Ok (expensive cut (q_orig q), fix_to q mk fixv o true 1 p)
     else do _ <- chk (Z.leb 0 (g_dst r)); Ok (g_dch r, p));
  let v := score (q_weight q) ue de in
  if ext_ltb (y_val p) (Fin v) then
    Ok {| y_best := Some o;
          y_way := match pref o with Some w => w | None => if Qltb de ue then 0%Z else 1%Z end;
          y_val := Fin v; y_rc := if Z.eqb (y_rc p) 0 then 0%Z else 2%Z; y_fixed := y_fixed p; y_forced := y_forced p; y_b := y_b p |}
  else Ok p.
Fixpoint look_all (q : sbopts) (cut : ext) (mk : nat -> cand) (pref : nat -> option Z) (fixv : bool) (rs : list hot) (p : pick) {struct rs} : outcome pick :=
  match rs with [] => Ok p | r :: rs' => do p' <- look_one q cut mk pref fixv r p; look_all q cut mk pref fixv rs' p' end.
Record choice := { x_rc : Z; x_best : option nat; x_way : Z; x_forced : option (nat * Z); x_b : bounds; x_pc : pcosts; x_rs : list hot }.
Definition chooseVariable (q : sbopts) (w : copts) (n : nat) (mk : nat -> cand) (pref : nat -> option Z) (fixv : bool)
    (solve : nat -> bool -> bounds -> child) (late : nat -> bool) (uns : Z) (L : list cell) (s : sb) : outcome choice :=
  if Z.eqb uns 0 then Ok {| x_rc := 1; x_best := None; x_way := -1; x_forced := None; x_b := v_b s; x_pc := v_pc s; x_rs := [] |}
  else
    let ns := if q_isroot q then Nat.max (w_strong w) (w_root w) else w_strong w in
    let left := Z.to_nat (Z.min (Z.of_nat ns - Z.of_nat (v_done s)) uns) in
    do t <- split q w (v_pc s) mk left 0 L {| t_best := None; t_way := -1; t_val := MInf; t_cands := [] |};
    match t_cands t with
    | [] =>                                                                    (* 754-756 *)
        do c <- rd 0 L;
        Ok {| x_rc := 0; x_best := c; x_way := t_way t; x_forced := None; x_b := v_b s; x_pc := v_pc s; x_rs := [] |}
    | cs =>
        do ' (rc, rs, s') <- doStrongBranching q n solve late cs s;
        if (Z.leb 0 rc && Z.leb rc 2)%bool then
          let rc0 := if Z.eqb rc 0 then 0%Z else match t_best t with Some _ => 3%Z | None => 4%Z end in
          do p <- look_all q (v_cut s') mk pref fixv rs
                    {| y_best := t_best t; y_way := t_way t; y_val := t_val t; y_rc := rc0; y_fixed := 0; y_forced := None; y_b := v_b s' |};
          Ok {| x_rc := if (Z.eqb (Z.of_nat (y_fixed p)) uns && negb (Nat.eqb (y_fixed p) 0))%bool then 4%Z else y_rc p;
                x_best := y_best p; x_way := y_way p; x_forced := y_forced p; x_b := y_b p; x_pc := v_pc s'; x_rs := rs |}
        else if Z.eqb rc 3 then                                                 (* 747-752 *)
          do c <- rd 0 L;
          Ok {| x_rc := 0; x_best := c; x_way := 0; x_forced := None; x_b := v_b s'; x_pc := v_pc s'; x_rs := rs |}
        else
          Ok {| x_rc := rc; x_best := t_best t; x_way := t_way t; x_forced := None; x_b := v_b s'; x_pc := v_pc s'; x_rs := rs |}
    end.

(** ** Strong branching on the linear relaxation, BonLpBranchingSolver.cpp *)
(** An LP solve: proven infeasible or objective limit, iteration limit, objective, and solution. *)
Record lpres := { j_inf : bool; j_lim : bool; j_obj : Q; j_sol : list Q }.
(** 135-151: bounds given to the LP for column i, and what is remembered for the restoration. *)
Definition lp_low (orig lo : Q) : Q := if Qltb orig lo then lo else orig.
Definition lp_up (orig lo up : Q) : Q := if Qltb up orig then lo else orig.       (* setColUpper(i,lo) *)
Fixpoint lp_bounds (orig chd : bounds) : bounds :=
  match orig, chd with
  | (ol, ou) :: orig', (lo, up) :: chd' => (lp_low ol lo, lp_up ou lo up) :: lp_bounds orig' chd'
  | _, _ => orig
  end.
(** 184-190: only the changed bounds are put back. *)
Fixpoint lp_restore (orig chd now : bounds) : bounds :=
  match orig, chd, now with
  | (ol, ou) :: orig', (lo, up) :: chd', (nl, nu) :: now' =>
      ((if Qltb ol lo then ol else nl), (if Qltb up ou then ou else nu)) :: lp_restore orig' chd' now'
  | _, _, _ => now
  end.
Record lpsb := { u_bounds : bounds; u_sol : list Q }.          (* lin_: its column bounds and its last solution *)
(** 105-197 solveFromHotStart.  [basis]: lp_strong_warmstart_method is Basis; [rounds]: maxCuttingPlaneIterations_
    (the cut generator ecp_ is never created: 87-90 are commented out).  Result: status, objective value and
    solution given to the problem, and the linear solver afterwards. *)
Definition lp_hot (basis : bool) (rounds : nat) (solve : bounds -> lpres) (chd : bounds) (l : lpsb)
    : outcome (rstatus * Q * list Q * lpsb) :=
  let b := lp_bounds (u_bounds l) chd in
  let r := solve b in
  let l1 := if basis then {| u_bounds := b; u_sol := j_sol r |} else l in         (* a clone is solved otherwise *)
  do st <- (if j_inf r then Ok provenInfeasible
            else if j_lim r then Ok iterationLimit
            else if Nat.ltb 0 rounds then NullDeref                               (* ecp_->doEcpRounds *)
            else Ok solvedOptimal);
  Ok (st, j_obj r, u_sol l1,                                                      (* 180-181: lin_->getColSolution() *)
      if basis then {| u_bounds := lp_restore (u_bounds l) chd (u_bounds l1); u_sol := u_sol l1 |} else l).
