(** Strong branching on QPs with hot starts:
    src/Interfaces/Filter/BonBqpdSolver.cpp 107-806 and .hpp 186-371 (the QP solver and its cache),
    src/Algorithms/Branching/BonQpBranchingSolver.cpp 50-111 (marks, trials, unmarks),
    src/Interfaces/BonBranchingTQP.cpp 136-170, 312-333 (bounds, starting point, answers),
    src/Interfaces/BonOsiTMINLPInterface.cpp 3039-3095 (hot starts of the interface).

    [bqpd] is the Fortran routine, [oth] any other NLP solver given the QP, [qp_of] the QP made from
    a point and its multipliers (its coefficients: Bqp_Model).  Simplifications: doubles are exact
    rationals; the coefficients of gradient and Jacobian are passed as they are (their packing into
    a and la: Nls_Model); of the COMMON block hessc only phl is kept (phr and phc are not touched by
    this code); printing and timing are left out; the sizes kmax and mlp are not negative.
    Memory: arrays are lists of cells; what is deleted is [HFreed].  An int that is too large to be
    computed, and the exception of new[] that follows, is [Thrown]. *)
From Verif Require Import Base Arr.
From Verif Require Itf_Model Nls_Model.
#[local] Open Scope Q_scope.

(** ** The QP (BranchingTQP) *)
Record tqp := mkT {
  t_n : nat; t_m : nat;
  t_x0 : list Q; t_f0 : Q; t_g0 : list Q;       (* x_sol_copy_, obj_val_, g_vals_ *)
  t_grad : list Q; t_jac : list (nat * nat * Q);
  t_hv : list Q;                                (* Hessian, in the order given by TMat2RowPMat *)
  t_hla : list Z                                (* its structure, written by TMat2RowPMat *)
}.
Definition eshift (e : ext) (q : Q) : ext := match e with Fin a => Fin (a - q) | _ => e end.
Fixpoint shifts (l : list ext) (x : list Q) : list ext :=                       (* TQP 142-151 *)
  match l, x with e :: l, q :: x => eshift e q :: shifts l x | _, _ => [] end.
(** 1e50, lines 244-247 and 323-326. *)
Definition big : Q := inject_Z 100000000000000000000000000000000000000000000000000.
Definition clip_lo (e : ext) : ext :=
  match e with MInf => Fin (- big) | Fin q => Fin (if Qltb q (- big) then - big else q) | PInf => PInf end.
Definition clip_up (e : ext) : ext :=
  match e with PInf => Fin big | Fin q => Fin (if Qltb big q then big else q) | MInf => MInf end.

(** ** COMMON blocks, lines 36-98 *)
Record com := mkCom {
  c_bqpdc : list Z; c_epsc : list Q; c_vstepc : Q; c_repc : list Q; c_nup : Z; c_nfreq : Z;
  c_alphac : Q; c_sparsec : list Z; c_factorc : list Z; c_mxm1c : Z; c_minorc : Q;
  c_kk : Z; c_kkk : Z; c_ll : Z; c_lll : Z; c_mxws : Z; c_mxlws : Z;     (* wsc *)
  c_scalec : Z * Z; c_phl : Z
}.
(** ** What bqpd works on *)
Record work := mkW {
  w_k : option Z; w_x : arr Q; w_f : option Q; w_g : arr Q; w_r : arr Q; w_w : arr Q; w_e : arr Q;
  w_ls : arr Z; w_alp : arr Q; w_lp : arr Z; w_peq : option Z; w_ws : arr Q; w_lws : arr Z; w_info : option Z
}.
Record call := mkCall {
  k_t : tqp; k_kmax : nat; k_mlp : nat; k_bl : list ext; k_bu : list ext;
  k_w : work; k_com : com; k_m0de : Z
}.
Record answer := mkAns { a_w : work; a_com : com; a_ifail : Z }.

(** Hot start arrays: never made, live, or deleted (the pointers are not reset, 685-699). *)
Inductive hot := HNull | HLive (w : work) (c : com) | HFreed.
(** cachedInfo, .hpp 187-290. *)
Record cache := mkC {
  h_t : tqp; h_kmax : nat; h_mlp : nat; h_bl : list ext; h_bu : list ext; h_w : work;
  h_m0de : option Z; h_ifail : Z; h_kk : Z; h_ll : Z; h_mxws : Z; h_mxlws : Z;
  h_have : bool; h_hot : hot; h_use : bool; h_bad : bool; h_next : Z; h_piv : Z
}.
Definition upd_w (c : cache) (w : work) (m0de : option Z) (ifail : Z) : cache :=
  mkC (h_t c) (h_kmax c) (h_mlp c) (h_bl c) (h_bu c) w m0de ifail (h_kk c) (h_ll c) (h_mxws c) (h_mxlws c)
      (h_have c) (h_hot c) (h_use c) (h_bad c) (h_next c) (h_piv c).
Definition upd_ws (c : cache) (ws : arr Q) (mxws : Z) : cache :=
  let w := h_w c in
  mkC (h_t c) (h_kmax c) (h_mlp c) (h_bl c) (h_bu c)
      (mkW (w_k w) (w_x w) (w_f w) (w_g w) (w_r w) (w_w w) (w_e w) (w_ls w) (w_alp w) (w_lp w) (w_peq w) ws (w_lws w) (w_info w))
      (h_m0de c) (h_ifail c) (h_kk c) (h_ll c) mxws (h_mxlws c)
      (h_have c) (h_hot c) (h_use c) (h_bad c) (h_next c) (h_piv c).
Definition upd_hot (c : cache) (have : bool) (h : hot) (next : Z) : cache :=
  mkC (h_t c) (h_kmax c) (h_mlp c) (h_bl c) (h_bu c) (h_w c) (h_m0de c) (h_ifail c) (h_kk c) (h_ll c) (h_mxws c) (h_mxlws c)
      have h (h_use c) (h_bad c) next (h_piv c).
Definition upd_flags (c : cache) (use bad : bool) (next piv : Z) : cache :=
  mkC (h_t c) (h_kmax c) (h_mlp c) (h_bl c) (h_bu c) (h_w c) (h_m0de c) (h_ifail c) (h_kk c) (h_ll c) (h_mxws c) (h_mxlws c)
      (h_have c) (h_hot c) use bad next piv.
Definition upd_bounds (c : cache) (bl bu : list ext) (use : bool) (m0de : Z) : cache :=
  mkC (h_t c) (h_kmax c) (h_mlp c) bl bu (h_w c) (Some m0de) (h_ifail c) (h_kk c) (h_ll c) (h_mxws c) (h_mxlws c)
      (h_have c) (h_hot c) use (h_bad c) (h_next c) (h_piv c).

(** CoinCopyOfArray and CoinCopyN. *)
Definition copy_of {A} (a : arr A) (n : nat) : outcome (arr A) :=
  if Nat.ltb (length a) n then OutOfBounds else Ok (firstn n a).
Definition copyN {A} (src : arr A) (n : nat) (dst : arr A) : outcome (arr A) :=
  if (Nat.ltb (length src) n || Nat.ltb (length dst) n)%bool then OutOfBounds else Ok (firstn n src ++ skipn n dst).

(** ** Hot starts: markHotStart 490-584, copyFromHotStart 586-682, unmarkHotStart 684-699 *)
Definition markHotStart (reinit : Z) (g : com) (c : cache) : outcome cache :=
  let t := h_t c in let n := t_n t in let m := t_m t in let w := h_w c in
  do x <- copy_of (w_x w) n; do g' <- copy_of (w_g w) n;
  do r <- copy_of (w_r w) (n + m); do ww <- copy_of (w_w w) (n + m); do e <- copy_of (w_e w) (n + m);
  do ls <- copy_of (w_ls w) (n + m); do alp <- copy_of (w_alp w) (h_mlp c); do lp <- copy_of (w_lp w) (h_mlp c);
  do ws <- copy_of (w_ws w) (Z.to_nat (h_mxws c)); do lws <- copy_of (w_lws w) (Z.to_nat (h_mxlws c));
  Ok (upd_hot c true (HLive (mkW (w_k w) x (w_f w) g' r ww e ls alp lp (w_peq w) ws lws (w_info w)) g) reinit).
(** The blocks put back: all but mxws, mxlws, scalec and hessc. *)
Definition restore (h g : com) : com :=
  mkCom (c_bqpdc h) (c_epsc h) (c_vstepc h) (c_repc h) (c_nup h) (c_nfreq h) (c_alphac h) (c_sparsec h) (c_factorc h)
        (c_mxm1c h) (c_minorc h) (c_kk h) (c_kkk h) (c_ll h) (c_lll h) (c_mxws g) (c_mxlws g) (c_scalec g) (c_phl g).
Definition copyFromHotStart (c : cache) (g : com) : outcome (cache * com) :=
  match h_hot c with
  | HNull => NullDeref
  | HFreed => Dangling
  | HLive s hc =>
      let t := h_t c in let n := t_n t in let m := t_m t in let w := h_w c in
      do x <- copyN (w_x s) n (w_x w); do g' <- copyN (w_g s) n (w_g w);
      do r <- copyN (w_r s) (n + m) (w_r w); do ww <- copyN (w_w s) (n + m) (w_w w); do e <- copyN (w_e s) (n + m) (w_e w);
      do ls <- copyN (w_ls s) (n + m) (w_ls w);
      do alp <- copyN (w_alp s) (h_mlp c) (w_alp w); do lp <- copyN (w_lp s) (h_mlp c) (w_lp w);
      do ws <- copyN (w_ws s) (Z.to_nat (h_mxws c)) (w_ws w); do lws <- copyN (w_lws s) (Z.to_nat (h_mxlws c)) (w_lws w);
      Ok (upd_w c (mkW (w_k s) x (w_f s) g' r ww e ls alp lp (w_peq s) ws lws (w_info s)) (h_m0de c) (h_ifail c), restore hc g)
  end.
Definition unmark_cache (c : cache) : outcome cache :=
  match h_hot c with
  | HNull => Ok (upd_hot c false HNull (h_next c))       (* delete [] NULL *)
  | HLive _ _ => Ok (upd_hot c false HFreed (h_next c))
  | HFreed => Dangling
  end.
(** ~cachedInfo 467-487. *)
Definition destroy_cache (c : cache) : outcome unit :=
  if h_have c then do c' <- unmark_cache c; Ok tt else Ok tt.

(** ** cachedInfo::initialize, 267-411 *)
Definition int_max : Z := 2147483647.
(** (int) of a double that is not negative. *)
Definition to_int (q : Q) : outcome Z := let z := Qfloor q in if Z.ltb int_max z then Thrown else Ok z.
Definition new_size (z : Z) : outcome nat := if (Z.ltb z 0 || Z.ltb int_max z)%bool then Thrown else Ok (Z.to_nat z).
Definition nonzeros (l : list Q) : nat := length (filter (fun q => negb (Qeq_bool q 0)) l).
Definition amax (t : tqp) : nat := (length (t_jac t) + nonzeros (t_grad t))%nat.            (* 333-339 *)
Definition init_com (g : com) : com :=                                                      (* 277-286 *)
  mkCom (c_bqpdc g) [1111 # 10000000000000000000; 1 # 1000000000000; 1] (c_vstepc g) [1 # 10000; 2; 3; 2] (c_nup g) 500
        (c_alphac g) (c_sparsec g) (c_factorc g) (c_mxm1c g) (c_minorc g)
        (c_kk g) (c_kkk g) (c_ll g) (c_lll g) (c_mxws g) (c_mxlws g) (c_scalec g) (c_phl g).
Record box := mkB { b_xl : list ext; b_xu : list ext; b_gl : list ext; b_gu : list ext }.
Definition qp_lo (t : tqp) (b : box) : list ext := map clip_lo (shifts (b_xl b) (t_x0 t) ++ shifts (b_gl b) (t_g0 t)).
Definition qp_up (t : tqp) (b : box) : list ext := map clip_up (shifts (b_xu b) (t_x0 t) ++ shifts (b_gu b) (t_g0 t)).
(** kmax -1 stands for n, 294-300; here [None]. *)
Definition new_cache (kmax_ipt : option nat) (mlp : nat) (fill : Q) (t : tqp) (b : box) : outcome cache :=
  let n := t_n t in let m := t_m t in let nnz_hess := length (t_hv t) in
  let kmax := match kmax_ipt with None => n | Some k => Nat.min k n end in
  do fl <- to_int (fill * inject_Z (Z.of_nat (amax t)));
  let mxws := (Z.of_nat (nnz_hess + ((kmax * (kmax + 9)) / 2 + 2 * n + m) + 5 * n) + fl)%Z in      (* 377 *)
  let mxlws := Z.of_nat ((nnz_hess + n + 2) + kmax + (9 * n + m)) in                              (* 378 *)
  do lw <- new_size mxws; do ll <- new_size mxlws;
  do lws <- ablit 0 (t_hla t) (repeat (Some 55%Z) ll);
  do ws <- ablit 0 (t_hv t) (repeat (Some 42) lw);
  Ok (mkC t kmax mlp (qp_lo t b) (qp_up t b)
        (mkW None (fresh n) None (fresh n) (fresh (n + m)) (fresh (n + m)) (fresh (n + m)) (fresh (n + m))
             (fresh mlp) (fresh mlp) None ws lws None)
        None 0 (Z.of_nat nnz_hess) (Z.of_nat (nnz_hess + n + 2)) mxws mxlws
        false HNull false false 0 0).

Section Bqpd.
Variable bqpd : call -> answer.
(** The static members m0de_ and reinit_freq_, lines 22-23. *)
Variables (sm0de reinit : Z).

(** ** cachedInfo::optimize, 701-867 *)
Record st := mkS { s_c : cache; s_fill : Q; s_com : com; s_log : list (call * answer) }.
Definition with_c (s : st) (c : cache) : st := mkS c (s_fill s) (s_com s) (s_log s).
Definition set_common (s : st) : st :=                                              (* 704-711 *)
  let c := s_c s in let g := s_com s in
  mkS c (s_fill s)
      (mkCom (c_bqpdc g) (c_epsc g) (c_vstepc g) (c_repc g) (c_nup g) (c_nfreq g) (c_alphac g) (c_sparsec g) (c_factorc g)
             (c_mxm1c g) (c_minorc g) (h_kk c) (c_kkk g) (h_ll c) (c_lll g) (h_mxws c) (h_mxlws c) (0, 0)%Z 1) (s_log s).
(** One call of the Fortran routine; ifail is 0 on entry. *)
Definition call_bqpd (s : st) : outcome st :=
  let c := s_c s in
  match h_m0de c with
  | None => Uninit
  | Some md =>
      let k := mkCall (h_t c) (h_kmax c) (h_mlp c) (h_bl c) (h_bu c) (h_w c) (s_com s) md in
      let a := bqpd k in
      Ok (mkS (upd_w c (a_w a) (Some md) (a_ifail a)) (s_fill s) (a_com a) (s_log s ++ [(k, a)]))
  end.
(** m0de = 0 and a new starting point: 724-727, 822-824, 854-856. *)
Definition cold (s : st) : outcome st :=
  let c := s_c s in let w := h_w c in
  do x <- copyN (repeat (Some 0) (t_n (h_t c))) (t_n (h_t c)) (w_x w);
  Ok (with_c s (upd_w c (mkW (w_k w) x (w_f w) (w_g w) (w_r w) (w_w w) (w_e w) (w_ls w) (w_alp w) (w_lp w) (w_peq w)
                             (w_ws w) (w_lws w) (w_info w)) (Some 0%Z) 0)).
Definition from_hot (s : st) : outcome st :=
  do ' (c, g) <- copyFromHotStart (s_c s) (s_com s); Ok (mkS c (s_fill s) g (s_log s)).
Fixpoint bump (fuel : nat) (next piv : Z) : Z :=                                    (* 719-720 *)
  match fuel with
  | O => next
  | S f => if (Z.ltb 0 reinit && Z.ltb next piv)%bool then bump f (next + reinit) piv else next
  end.
Definition start (s : st) : outcome st :=                                           (* 713-728 *)
  let c := s_c s in
  if (h_use c && negb (h_bad c))%bool then
    let s := with_c s (upd_flags c false (h_bad c) (h_next c) (h_piv c)) in
    if (h_have c && Z.ltb (h_next c) (h_piv c))%bool then
      do s <- from_hot s;
      let c := s_c s in
      Ok (with_c s (upd_flags c (h_use c) (h_bad c) (bump (Z.to_nat (h_piv c - h_next c)) (h_next c) (h_piv c)) (h_piv c)))
    else Ok s
  else
    do s <- cold s;
    let c := s_c s in Ok (with_c s (upd_flags c (h_use c) false (h_next c) (h_piv c))).
(** 839-862: the factor is doubled, the workspace replaced and the QP solved again. *)
Definition grow (s : st) : outcome st :=
  let c := s_c s in
  do c <- (if h_have c then unmark_cache c else Ok c);
  let fill := s_fill s * 2 in
  do fl <- to_int (fill * inject_Z (Z.of_nat (amax (h_t c))));
  let mx := (h_kk c + c_kkk (s_com s) + Z.of_nat (5 * t_n (h_t c)) + fl)%Z in
  do lw <- new_size mx;
  do ws <- copyN (w_ws (h_w c)) (Z.to_nat (h_kk c)) (repeat (Some 42) lw);
  let g := s_com s in
  do s <- cold (mkS (upd_ws c ws mx) fill
                    (mkCom (c_bqpdc g) (c_epsc g) (c_vstepc g) (c_repc g) (c_nup g) (c_nfreq g) (c_alphac g) (c_sparsec g) (c_factorc g)
                           (c_mxm1c g) (c_minorc g) (c_kk g) (c_kkk g) (c_ll g) (c_lll g) mx (c_mxlws g) (c_scalec g) (c_phl g)) (s_log s));
  call_bqpd s.
Fixpoint growing (fuel : nat) (s : st) : outcome st :=
  if Z.eqb (h_ifail (s_c s)) 7 then
    match fuel with O => Diverges | S f => do s <- grow s; growing f s end
  else Ok s.
Definition is (l : list Z) (z : Z) : bool := existsb (Z.eqb z) l.
(** 807-837: the first call, the second try from the hot start, the restart. *)
Definition first_call (s : st) : outcome st :=
  do s <- call_bqpd s;
  let c := s_c s in
  match w_info (h_w c) with
  | None => Uninit
  | Some p => Ok (with_c s (upd_flags c (h_use c) (h_bad c) (h_next c) (h_piv c + p)))
  end.
Definition retry_hot (s : st) : outcome st :=
  let c := s_c s in
  if (Z.ltb 0 reinit && h_have c && is [7; 8]%Z (h_ifail c) && match h_m0de c with Some md => Z.eqb md 6 | None => false end)%bool
  then do s <- from_hot s; call_bqpd s
  else Ok s.
Definition retry_cold (s : st) : outcome st :=
  if (Z.eqb (h_ifail (s_c s)) 8 && Z.eqb sm0de 6)%bool then do s <- cold s; call_bqpd s else Ok s.
Definition optimize (fuel : nat) (s : st) : outcome st :=
  do s <- start (set_common s);
  do s <- first_call s;
  do s <- retry_hot s;
  do s <- retry_cold s;
  do s <- growing fuel s;
  let c := s_c s in
  Ok (if Z.eqb (h_ifail c) 8 then with_c s (upd_flags c (h_use c) true (h_next c) (h_piv c)) else s).

(** ** BqpdSolver, 107-257, 430-465 *)
Record bsol := mkBs { y_fill : Q; y_kmax : option nat; y_mlp : nat; y_cache : option cache }.
(** What the solver reports to the problem (TMINLP2TNLP::finalize_solution 474-509). *)
Record rep := mkR { r_st : Itf_Model.rstatus; r_x : list Q; r_obj : Q; r_du : list Q }.
Fixpoint values {A} (a : arr A) : outcome (list A) :=
  match a with [] => Ok [] | None :: _ => Uninit | Some v :: a => do r <- values a; Ok (v :: r) end.
Fixpoint vadd (x d : list Q) : outcome (list Q) :=
  match x, d with [], _ => Ok [] | _ :: _, [] => OutOfBounds | a :: x, b :: d => do r <- vadd x d; Ok ((a + b) :: r) end.
Definition callOptimizer (fuel : nat) (c : cache) (y : bsol) (g : com) : outcome (rep * bsol * com * list (call * answer)) :=
  do s <- optimize fuel (mkS c (y_fill y) g []);
  let c := s_c s in let t := h_t c in
  let (status, sr) := Nls_Model.bqpd_status (h_ifail c) in
  do d <- values (w_x (h_w c));
  do x <- vadd (t_x0 t) d;
  match w_f (h_w c) with
  | None => Uninit
  | Some f =>
      let obj := match sr with Nls_Model.LOCAL_INFEASIBILITY_ => f | _ => f + t_f0 t end in
      Ok (mkR status x obj (repeat 0 (t_m t + 2 * t_n t)), mkBs (s_fill s) (y_kmax y) (y_mlp y) (Some c), s_com s, s_log s)
  end.
Definition OptimizeTNLP (fuel : nat) (t : tqp) (b : box) (y : bsol) (g : com) : outcome (rep * bsol * com * list (call * answer)) :=
  match y_cache y with
  | Some c =>
      if h_use c then callOptimizer fuel c y g
      else do c' <- new_cache (y_kmax y) (y_mlp y) (y_fill y) t b;
           do d <- destroy_cache c;
           callOptimizer fuel c' y (init_com g)
  | None =>
      do c' <- new_cache (y_kmax y) (y_mlp y) (y_fill y) t b;
      callOptimizer fuel c' y (init_com g)
  end.
(** ReOptimizeTNLP 229-264; the problem given is the one of the cache (assert, 234). *)
Definition ReOptimizeTNLP (fuel : nat) (b : box) (y : bsol) (g : com) : outcome (rep * bsol * com * list (call * answer)) :=
  match y_cache y with
  | None => NullDeref
  | Some c => callOptimizer fuel (upd_bounds c (qp_lo (h_t c) b) (qp_up (h_t c) b) true sm0de) y g
  end.
Definition bsol_mark (y : bsol) (g : com) : outcome bsol :=
  match y_cache y with
  | None => NullDeref
  | Some c => do c <- markHotStart reinit g c; Ok (mkBs (y_fill y) (y_kmax y) (y_mlp y) (Some c))
  end.
Definition bsol_destroy (y : bsol) : outcome unit :=
  match y_cache y with None => Ok tt | Some c => destroy_cache c end.
End Bqpd.

(** ** QpBranchingSolver and the interface *)
Record opts := mkO { o_fill : Q; o_kmax : option nat; o_mlp : nat; o_m0de : Z; o_reinit : Z }.
Inductive solver := SBqpd (y : bsol) | SOther.
Record state := mkSt {
  (* the problem: bounds, solution, multipliers, objective value *)
  z_xl : list ext; z_xu : list ext; z_x : list Q; z_du : list Q; z_obj : Q;
  (* the interface *)
  z_status : Itf_Model.rstatus; z_before : option Itf_Model.rstatus;
  (* QpBranchingSolver: branching_tqp_, tqp_solver_, first_solve_ *)
  z_tqp : option tqp; z_sol : option solver; z_first : option bool;
  (* shared by all solvers: COMMON blocks and static members *)
  z_com : com; z_m0de : Z; z_reinit : Z
}.
Section Interface.
Variable bqpd : call -> answer.
Variable oth : tqp -> box -> bool -> Itf_Model.rstatus * list Q * Q * list Q.
Variable qp_of : list Q -> list Q -> tqp.
Variables (filter : bool) (o : opts) (gl gu : list ext) (fuel : nat).

Definition the_box (z : state) : box := mkB (z_xl z) (z_xu z) gl gu.
Definition is_optimal (r : Itf_Model.rstatus) : bool :=
  match r with Itf_Model.solvedOptimal | Itf_Model.solvedOptimalTol => true | _ => false end.
(** What finalize_solution leaves in the problem. *)
Definition put (z : state) (r : rep) (sol : option solver) (first : option bool) (g : com) : state :=
  mkSt (z_xl z) (z_xu z) (r_x r) (r_du r) (r_obj r) (z_status z) (z_before z) (z_tqp z) sol first g (z_m0de z) (z_reinit z).
Definition drop_solver (z : state) : outcome unit :=
  match z_sol z with Some (SBqpd y) => bsol_destroy y | _ => Ok tt end.
(** QpBranchingSolver::markHotStart 50-83, OsiTMINLPInterface::markHotStart 3039-3055. *)
Definition mark (z : state) : outcome (state * list (call * answer)) :=
  let t := qp_of (z_x z) (z_du z) in
  let z1 := mkSt (z_xl z) (z_xu z) (z_x z) (z_du z) (z_obj z) (z_status z) (Some (z_status z)) (Some t) (z_sol z) (Some true)
                 (z_com z) (z_m0de z) (z_reinit z) in
  if filter then
    let z2 := mkSt (z_xl z1) (z_xu z1) (z_x z1) (z_du z1) (z_obj z1) (z_status z1) (z_before z1) (z_tqp z1) (z_sol z1) (z_first z1)
                   (z_com z1) (o_m0de o) (o_reinit o) in                            (* BqpdSolver 132-137 *)
    do ' (r, y, g, l) <- OptimizeTNLP bqpd (z_m0de z2) (z_reinit z2) fuel t (the_box z2) (mkBs (o_fill o) (o_kmax o) (o_mlp o) None) (z_com z2);
    if is_optimal (r_st r) then
      do y <- bsol_mark (z_reinit z2) y g;
      do d <- drop_solver z2;
      Ok (put z2 r (Some (SBqpd y)) (Some false) g, l)
    else
      do d <- drop_solver z2;
      Ok (put z2 r (Some (SBqpd y)) (Some true) g, l)
  else
    Ok (match z_sol z1 with
        | Some _ => z1
        | None => mkSt (z_xl z1) (z_xu z1) (z_x z1) (z_du z1) (z_obj z1) (z_status z1) (z_before z1) (z_tqp z1) (Some SOther) (z_first z1)
                       (z_com z1) (z_m0de z1) (z_reinit z1)
        end, []).
(** QpBranchingSolver::solveFromHotStart 97-111, OsiTMINLPInterface::solveFromHotStart 3057-3078. *)
Definition set_status (z : state) (r : Itf_Model.rstatus) : state :=
  mkSt (z_xl z) (z_xu z) (z_x z) (z_du z) (z_obj z) r (z_before z) (z_tqp z) (z_sol z) (z_first z) (z_com z) (z_m0de z) (z_reinit z).
Definition trial (z : state) : outcome (state * list (call * answer)) :=
  match z_sol z, z_tqp z, z_first z with
  | Some sol, Some t, Some first =>
      match sol with
      | SBqpd y =>
          do ' (r, y, g, l) <- (if first then OptimizeTNLP bqpd (z_m0de z) (z_reinit z) fuel t (the_box z) y (z_com z)
                                else ReOptimizeTNLP bqpd (z_m0de z) (z_reinit z) fuel (the_box z) y (z_com z));
          Ok (set_status (put z r (Some (SBqpd y)) (Some (if is_optimal (r_st r) then false else first)) g) (r_st r), l)
      | SOther =>
          let '(stt, d, f, du) := oth t (the_box z) (negb first) in
          do x <- vadd (t_x0 t) d;
          let r := mkR stt x (match stt with Itf_Model.provenInfeasible => f | _ => f + t_f0 t end) du in
          Ok (set_status (put z r (Some SOther) (Some (if is_optimal stt then false else first)) (z_com z)) stt, [])
      end
  | None, _, _ => NullDeref
  | _, _, _ => Uninit
  end.
(** QpBranchingSolver::unmarkHotStart 85-95, OsiTMINLPInterface::unmarkHotStart 3080-3095. *)
Definition unmark (z : state) : outcome state :=
  do d <- drop_solver z;
  match z_before z with
  | None => Uninit
  | Some b =>
      Ok (mkSt (z_xl z) (z_xu z) (z_x z) (z_du z) (z_obj z) b (z_before z) None None (z_first z) (z_com z) (z_m0de z) (z_reinit z))
  end.

Inductive op :=
  | SetBounds (xl xu : list ext)
  | NodeSolve (x du : list Q) (obj : Q) (r : Itf_Model.rstatus) (g : com)   (* filterSQP uses bqpd too *)
  | Foreign (g : com) (m0de reinit : Z)      (* another QP solver works, or is made with its own options *)
  | Mark | Trial | Unmark.
(** What was solved, and what the interface reports afterwards. *)
Inductive event :=
  | EMark (t : tqp) (l : list (call * answer)) (after : state)
  | ETrial (l : list (call * answer)) (after : state)
  | EOther.
Definition step (p : op) (z : state) : outcome (state * event) :=
  match p with
  | SetBounds xl xu =>
      Ok (mkSt xl xu (z_x z) (z_du z) (z_obj z) (z_status z) (z_before z) (z_tqp z) (z_sol z) (z_first z) (z_com z) (z_m0de z) (z_reinit z), EOther)
  | NodeSolve x du obj r g =>
      Ok (mkSt (z_xl z) (z_xu z) x du obj r (z_before z) (z_tqp z) (z_sol z) (z_first z) g (z_m0de z) (z_reinit z), EOther)
  | Foreign g md re =>
      Ok (mkSt (z_xl z) (z_xu z) (z_x z) (z_du z) (z_obj z) (z_status z) (z_before z) (z_tqp z) (z_sol z) (z_first z) g md re, EOther)
  | Mark => do ' (z', l) <- mark z; Ok (z', EMark (qp_of (z_x z) (z_du z)) l z')
  | Trial => do ' (z', l) <- trial z; Ok (z', ETrial l z')
  | Unmark => do z' <- unmark z; Ok (z', EOther)
  end.
Fixpoint run (ps : list op) (z : state) : outcome (state * list event) :=
  match ps with
  | [] => Ok (z, [])
  | p :: ps => do ' (z, e) <- step p z; do ' (z, es) <- run ps z; Ok (z, e :: es)
  end.
End Interface.
