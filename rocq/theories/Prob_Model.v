(** The problem object handed to the NLP solver:
    src/Interfaces/BonTMINLP2TNLP.cpp and BonTMINLP2TNLP.hpp (class TMINLP2TNLP).
    It stores bounds that may be changed during the search, the starting point
    and its multipliers (which live in ONE vector, the multipliers being reached
    through a raw pointer into that vector), and the last solution.

    Simplifications: the interior-point warm starter (curr_warm_starter_,
    need_new_warm_starter_) is not modelled; the wrapped TMINLP is a record
    ([nlp]); doubles are rationals.  The cut-handling subclass
    (src/Algorithms/QuadCuts/BonTMINLP2Quad.cpp) adds and removes rows; only its
    effect on the data of this class is modelled here ([add_rows], [del_rows]);
    the rows themselves are in Quad_Model.v. *)
From Verif Require Import Base Arr Nlp.
#[local] Open Scope Q_scope.

(** ** std::vector<double> with the identity of its storage.
    [v_buf] numbers the allocations made by this vector, [v_cap] is its capacity.
    Bonmin::vector is std::vector (src/Interfaces/BonTypes.hpp 7-38). *)
Record vec := mkVec { v_buf : nat; v_cap : nat; v_el : list Q }.
Definition vempty : vec := mkVec 0 0 [].
(** A pointer into the storage of that vector: allocation number and offset. *)
Record ptr := mkPtr { q_buf : nat; q_off : nat }.
(** vector::resize(k, fill).  Reallocates only when k exceeds the capacity; the
    new capacity is any number at least k ([ex] is the slack the allocator gives). *)
Definition vresize (k : nat) (fill : Q) (ex : nat) (v : vec) : vec :=
  let el := firstn k (v_el v) ++ repeat fill (k - length (v_el v)) in
  if Nat.leb k (v_cap v) then mkVec (v_buf v) (v_cap v) el
  else mkVec (S (v_buf v)) (k + ex) el.
(** vector::clear keeps the storage. *)
Definition vclear (v : vec) : vec := mkVec (v_buf v) (v_cap v) [].
(** Copy k values to the front of the vector's storage (IpBlasDcopy into x_init_()). *)
Definition vput (o : nat) (l : list Q) (v : vec) : outcome vec :=
  if Nat.leb (o + length l) (length (v_el v))
  then Ok (mkVec (v_buf v) (v_cap v) (firstn o (v_el v) ++ l ++ skipn (o + length l) (v_el v)))
  else OutOfBounds.
(** Read k values through a pointer / from an offset. *)
Definition vread (o k : nat) (v : vec) : outcome (list Q) :=
  if Nat.leb (o + k) (length (v_el v)) then Ok (firstn k (skipn o (v_el v))) else OutOfBounds.
Definition pread (p : ptr) (o k : nat) (v : vec) : outcome (list Q) :=
  if Nat.eqb (q_buf p) (v_buf v) then vread (q_off p + o) k v else Dangling.

(** ** The object, BonTMINLP2TNLP.hpp 384-450 (data members) *)
Record prob := mkProb {
  b_P : nlp;                               (* tminlp_ *)
  b_xl : list ext; b_xu : list ext;        (* x_l_, x_u_ *)
  b_ol : list ext; b_ou : list ext;        (* orig_x_l_, orig_x_u_ *)
  b_gl : list ext; b_gu : list ext;        (* g_l_, g_u_ *)
  b_ty : list bool;                        (* var_types_: integer or binary *)
  b_user : list Q;                         (* x_init_user_ *)
  b_xi : vec; b_di : option ptr;           (* x_init_, duals_init_ *)
  b_xs : list Q; b_gs : list Q; b_ds : list Q;  (* x_sol_, g_sol_, duals_sol_ *)
  b_obj : option Q                         (* obj_value_; None: the initial 1e100 *)
}.
Definition num_variables (s : prob) : nat := length (b_xl s).    (* hpp 61-65 *)
Definition num_constraints (s : prob) : nat := length (b_gl s).  (* hpp 68-72 *)

(** Constructor, BonTMINLP2TNLP.cpp 31-112. *)
Definition mk_prob (P : nlp) : prob :=
  mkProb P (p_xl P) (p_xu P) (p_xl P) (p_xu P) (p_gl P) (p_gu P) (p_int P) (p_x0 P)
         vempty None [] [] [] None.

(** Field updates. *)
Definition with_x (s : prob) xl xu :=
  mkProb (b_P s) xl xu (b_ol s) (b_ou s) (b_gl s) (b_gu s) (b_ty s) (b_user s) (b_xi s) (b_di s)
         (b_xs s) (b_gs s) (b_ds s) (b_obj s).
Definition with_g (s : prob) gl gu :=
  mkProb (b_P s) (b_xl s) (b_xu s) (b_ol s) (b_ou s) gl gu (b_ty s) (b_user s) (b_xi s) (b_di s)
         (b_xs s) (b_gs s) (b_ds s) (b_obj s).
Definition with_i (s : prob) xi di :=
  mkProb (b_P s) (b_xl s) (b_xu s) (b_ol s) (b_ou s) (b_gl s) (b_gu s) (b_ty s) (b_user s) xi di
         (b_xs s) (b_gs s) (b_ds s) (b_obj s).
Definition with_sol (s : prob) xs gs ds ob :=
  mkProb (b_P s) (b_xl s) (b_xu s) (b_ol s) (b_ou s) (b_gl s) (b_gu s) (b_ty s) (b_user s)
         (b_xi s) (b_di s) xs gs ds ob.

(** Effect of adding rows on the data above, BonTMINLP2Quad.cpp 347-371, 374-399,
    416-445: bounds appended, duals_sol_ and x_init_ resized (filled with 0) and
    duals_init_ set, whether or not they had been set before. *)
Definition resizeQ (k : nat) (l : list Q) : list Q := firstn k l ++ repeat 0 (k - length l).
Definition add_rows (gl gu : list ext) (ex : nat) (s : prob) : prob :=
  let s := with_g s (b_gl s ++ gl) (b_gu s ++ gu) in
  let n := num_variables s in let m := num_constraints s in
  let v := vresize (m + 3 * n) 0 ex (b_xi s) in
  with_i (with_sol s (b_xs s) (b_gs s) (resizeQ (m + 2 * n) (b_ds s)) (b_obj s)) v (Some (mkPtr (v_buf v) n)).
(** Effect of removing rows, 448-488: only the bounds change.  [gl], [gu]: the
    bounds that remain. *)
Definition del_rows (gl gu : list ext) (s : prob) : prob := with_g s gl gu.

(** assert(n == num_variables()) and a copy of n values. *)

(** ** Bounds, BonTMINLP2TNLP.cpp 238-278 *)
Definition SetVariablesBounds (l u : list ext) (s : prob) : outcome prob :=      (* 238-245 *)
  do _ <- chk (Nat.eqb (length l) (num_variables s) && Nat.eqb (length u) (num_variables s));
  Ok (with_x s l u).
Definition SetVariablesLowerBounds (l : list ext) (s : prob) : outcome prob :=   (* 247-252 *)
  do _ <- chk (Nat.eqb (length l) (num_variables s)); Ok (with_x s l (b_xu s)).
Definition SetVariablesUpperBounds (u : list ext) (s : prob) : outcome prob :=   (* 254-259 *)
  do _ <- chk (Nat.eqb (length u) (num_variables s)); Ok (with_x s (b_xl s) u).
Definition SetVariableBounds (i : nat) (l u : ext) (s : prob) : outcome prob :=  (* 261-266 *)
  do _ <- chk (Nat.ltb i (num_variables s));
  do xl <- lset i l (b_xl s); do xu <- lset i u (b_xu s); Ok (with_x s xl xu).
Definition SetVariableLowerBound (i : nat) (l : ext) (s : prob) : outcome prob := (* 268-272 *)
  do _ <- chk (Nat.ltb i (num_variables s));
  do xl <- lset i l (b_xl s); Ok (with_x s xl (b_xu s)).
Definition SetVariableUpperBound (i : nat) (u : ext) (s : prob) : outcome prob := (* 274-278 *)
  do _ <- chk (Nat.ltb i (num_variables s));
  do xu <- lset i u (b_xu s); Ok (with_x s (b_xl s) xu).

(** get_bounds_info, 346-358. *)
Definition get_bounds_info (n m : nat) (s : prob) : outcome (list ext * list ext * list ext * list ext) :=
  do _ <- chk (Nat.eqb n (num_variables s)); do _ <- chk (Nat.eqb m (num_constraints s));
  Ok (b_xl s, b_xu s, b_gl s, b_gu s).

(** ** Starting point, 280-303 and 360-397 *)
(** resetStartingPoint, 280-284: clears x_init_, leaves duals_init_ as it is. *)
Definition resetStartingPoint (s : prob) : prob := with_i s (vclear (b_xi s)) (b_di s).
(** setxInit, 286-292. *)
Definition setxInit (x : list Q) (ex : nat) (s : prob) : outcome prob :=
  do _ <- chk (Nat.eqb (length x) (num_variables s));
  let v := if Nat.ltb (length (v_el (b_xi s))) (length x) then vresize (length x) 0 ex (b_xi s) else b_xi s in
  do v <- vput 0 x v; Ok (with_i s v (b_di s)).
(** setDualsInit, 294-303. *)
Definition setDualsInit (d : list Q) (ex : nat) (s : prob) : outcome prob :=
  let n := num_variables s in let m := num_constraints s in
  do _ <- chk (Nat.eqb (length d) (n * 2 + m));
  let v := vresize (n * 3 + m) 0 ex (b_xi s) in
  let p := mkPtr (v_buf v) n in
  do v <- vput (q_off p) d v; Ok (with_i s v (Some p)).
(** has_x_init, hpp 208-213. *)
Definition has_x_init (s : prob) : nat :=
  match v_el (b_xi s), b_di s with [], _ => 0 | _, Some _ => 2 | _, None => 1 end.

(** What get_starting_point writes into the caller's arrays. *)
Record start := mkStart { st_ret : bool; st_x : option (list Q); st_zL : option (list Q);
                          st_zU : option (list Q); st_lam : option (list Q) }.
(** The assertion of lines 382 and 390; comparing an invalid pointer is [Dangling]. *)
Definition duals_chk (n m : nat) (p : ptr) (s : prob) : outcome unit :=
  do _ <- chk (Nat.eqb (length (v_el (b_xi s))) (3 * n + m));
  if Nat.eqb (q_buf p) (v_buf (b_xi s)) then chk (Nat.eqb (q_off p) n) else Dangling.
(** get_starting_point, 360-397. *)
Definition get_starting_point (n m : nat) (init_x init_z init_l : bool) (s : prob) : outcome start :=
  do _ <- chk (Nat.eqb m (num_constraints s)); do _ <- chk (Nat.eqb n (num_variables s));
  do x <- (if init_x then
             match v_el (b_xi s) with
             | [] => do _ <- chk (Nat.leb n (length (b_user s)));           (* 372-375 *)
                     Ok (Some (firstn n (b_user s)))
             | _ :: _ => do x <- vread 0 n (b_xi s); Ok (Some x)            (* 377 *)
             end
           else Ok None);
  let lam zL zU :=
    if init_l then
      match b_di s with
      | None => Ok (mkStart false x zL zU None)                             (* 388-389 *)
      | Some p => do _ <- duals_chk n m p s;
                  do l <- (if Nat.ltb 0 m then do l <- pread p (2 * n) m (b_xi s); Ok l else Ok []);
                  Ok (mkStart true x zL zU (Some l))
      end
    else Ok (mkStart true x zL zU None) in
  if init_z then
    match b_di s with
    | None => Ok (mkStart false x None None None)                           (* 380-381 *)
    | Some p => do _ <- duals_chk n m p s;
                do zL <- pread p 0 n (b_xi s); do zU <- pread p n n (b_xi s);
                lam (Some zL) (Some zU)
    end
  else lam None None.

(** ** Solutions *)
(** finalize_solution, 474-509.  [du]: lambda (with z_L and z_U), NULL or not.
    [viol]: the status is LOCAL_INFEASIBILITY and ip_cq is given (then the
    objective is replaced by the constraint violation). *)
Definition finalize_solution (x g : list Q) (du : option (list Q * list Q * list Q)) (ob : Q)
    (viol : option Q) (s : prob) : outcome prob :=
  let n := num_variables s in let m := num_constraints s in
  do _ <- chk (Nat.eqb (length x) n); do _ <- chk (Nat.eqb (length g) m);
  let gs := if Nat.ltb 0 m then g else b_gs s in
  let ds := resizeQ (m + 2 * n) (b_ds s) in
  do ds <- (match du with
            | None => Ok ds
            | Some (zL, zU, lam) =>
                if (Nat.eqb (length lam) m && Nat.eqb (length zL) n && Nat.eqb (length zU) n)%bool
                then Ok (zL ++ zU ++ lam) else OutOfBounds
            end);
  Ok (with_sol s x gs ds (match viol with Some v => Some v | None => Some ob end)).

(** Set_x_sol, 306-314 and Set_dual_sol, 317-325. *)
Definition Set_x_sol (x : list Q) (s : prob) : outcome prob :=
  do _ <- chk (Nat.eqb (length x) (num_variables s));
  let cur := match b_xs s with [] => repeat 0 (length x) | c => c end in
  do _ <- chk (Nat.eqb (length x) (length cur));
  Ok (with_sol s x (b_gs s) (b_ds s) (b_obj s)).
Definition Set_dual_sol (d : list Q) (s : prob) : outcome prob :=
  do _ <- chk (Nat.eqb (length d) (num_variables s * 2 + num_constraints s));
  let cur := match b_ds s with [] => repeat 0 (length d) | c => c end in
  do _ <- chk (Nat.eqb (length d) (length cur));
  Ok (with_sol s (b_xs s) (b_gs s) d (b_obj s)).

(** force_fractionnal_sol, 618-629.  The test [x_l_[i] < x_u_[i] + 0.5] is
    evaluated as written.  ceil(-DBL_MAX) is -DBL_MAX, hence the result type. *)
Definition half : Q := 1 # 2.
Definition ext_lt_half (l u : ext) : bool :=
  match l, u with
  | MInf, _ => true | _, PInf => true
  | Fin a, Fin b => Qltb a (b + half)
  | PInf, _ => false | Fin _, MInf => false
  end.
Definition ff_value (l : ext) : ext :=
  match l with Fin q => Fin (inject_Z (Qceiling q) + half) | e => e end.
(** New value of each coordinate ([Fin] of the old one when untouched). *)
Definition force_one (ty : bool) (l u : ext) (x : Q) : ext :=
  if (ty && ext_lt_half l u)%bool then ff_value l else Fin x.
Fixpoint force_list (ty : list bool) (l u : list ext) (x : list Q) : list ext :=
  match ty, l, u, x with
  | t :: ty, a :: l, b :: u, y :: x => force_one t a b y :: force_list ty l u x
  | _, _, _, _ => []
  end.
Definition force_fractionnal_sol (s : prob) : outcome (list ext) :=
  if (Nat.leb (num_variables s) (length (b_xs s)))%bool
  then Ok (force_list (b_ty s) (b_xl s) (b_xu s) (b_xs s)) else OutOfBounds.

(** check_solution, 668-696. *)
Definition round (q : Q) : Q := inject_Z (Qfloor (q + half)).
Definition emax (a b : ext) : ext :=
  match a, b with
  | PInf, _ | _, PInf => PInf
  | MInf, e | e, MInf => e
  | Fin x, Fin y => Fin (qmax x y)
  end.
(** max(0, l - v): how much the lower side is violated. *)
Definition vlo (l : ext) (v : Q) : ext :=
  match l with MInf => Fin 0 | Fin q => Fin (qmax 0 (q - v)) | PInf => PInf end.
Definition vup (u : ext) (v : Q) : ext :=
  match u with PInf => Fin 0 | Fin q => Fin (qmax 0 (- q + v)) | MInf => PInf end.
Fixpoint errloop (gl gu : list ext) (g : list Q) (e : ext) : ext :=    (* 691-694 *)
  match gl, gu, g with
  | l :: gl, u :: gu, v :: g => errloop gl gu g (emax (emax e (vlo l v)) (vup u v))
  | _, _, _ => e
  end.
Fixpoint round_cols (cols : list nat) (x : list Q) : outcome (list Q) := (* 673-679 *)
  match cols with
  | [] => Ok x
  | c :: cols => do v <- rd c x; do x <- lset c (round v) x; round_cols cols x
  end.
Fixpoint round_ty (ty : list bool) (x : list Q) : list Q :=              (* 682-686 *)
  match ty, x with
  | t :: ty, v :: x => (if t then round v else v) :: round_ty ty x
  | _, _ => x
  end.
(** [objs]: the columns of the simple-integer objects, if objects are given. *)
Definition check_solution (objs : option (list nat)) (s : prob) : outcome (prob * ext) :=
  do _ <- chk (Nat.eqb (length (b_xs s)) (num_variables s));
  do _ <- chk (Nat.eqb (length (b_gs s)) (num_constraints s));
  do x <- (match objs with Some cols => round_cols cols (b_xs s) | None => Ok (round_ty (b_ty s) (b_xs s)) end);
  let g := p_g (b_P s) x in
  Ok (with_sol s x g (b_ds s) (Some (p_f (b_P s) x)), errloop (b_gl s) (b_gu s) g (Fin 0)).

(** ** Copying *)
(** gutsOfCopy, 181-236, applied to [t] (the object being built or assigned). *)
Definition gutsOfCopy (o t : prob) : outcome prob :=
  let n := num_variables o in let m := num_constraints o in
  do t <- (if Nat.ltb 0 n then
             let t := mkProb (b_P t) (b_xl o) (b_xu o) (b_ol o) (b_ou o) (b_gl t) (b_gu t) (b_ty o)
                             (b_user o) (b_xi t) (b_di t) (b_xs t) (b_gs t) (b_ds t) (b_obj t) in
             match b_xs o with [] => Ok t | x => Set_x_sol x t end           (* 201-203 *)
           else Ok t);
  let t := match b_gl o with                                                 (* 206-210 *)
           | [] => t
           | _ => with_g t (b_gl o) (b_gu o)                                 (* with 213-214 *)
           end in
  do gs <- (if Nat.ltb 0 m then
              match b_gs o with
              | [] => Ok (b_gs t)
              | g => if Nat.leb m (length g) then Ok (firstn m g) else OutOfBounds          (* 215-218 *)
              end
            else Ok (b_gs t));
  let t := with_sol t (b_xs t) gs (b_ds t) (b_obj t) in
  let v := mkVec (S (v_buf (b_xi t))) (length (v_el (b_xi o))) (v_el (b_xi o)) in           (* 222 *)
  let t := with_i t v (match b_di o with Some _ => Some (mkPtr (v_buf v) n) | None => None end) in
  do ds <- (match b_ds o with
            | [] => Ok (b_ds t)
            | d => if Nat.leb (m + 2 * n) (length d) then Ok (firstn (m + 2 * n) d)
                   else OutOfBounds                                                         (* 231-234 *)
            end);
  Ok (with_sol t (b_xs t) (b_gs t) ds (b_obj t)).
(** Copy constructor, 114-142. *)
Definition copy_ctor (o : prob) : outcome prob :=
  gutsOfCopy o (mkProb (b_P o) [] [] [] [] [] [] [] [] vempty None [] [] [] (b_obj o)).
(** operator=, 145-165 (for two different objects; gutsOfDelete is empty). *)
Definition assign (rhs this : prob) : outcome prob :=
  gutsOfCopy rhs (mkProb (b_P rhs) (b_xl this) (b_xu this) (b_ol this) (b_ou this) (b_gl this) (b_gu this)
     (b_ty this) (b_user this) (b_xi this) (b_di this) (b_xs this) (b_gs this) (b_ds this) (b_obj rhs)).

(** ** Histories *)
Inductive op :=
| OReset                                    (* resetStartingPoint *)
| OX (x : list Q) (ex : nat)                (* setxInit *)
| OD (d : list Q) (ex : nat)                (* setDualsInit *)
| OAdd (gl gu : list ext) (ex : nat)         (* rows added by the subclass *)
| ODel (gl gu : list ext)                   (* rows removed; the remaining bounds *)
| OBounds (l u : list ext) | OLower (l : list ext) | OUpper (u : list ext)
| OBound (i : nat) (l u : ext) | OLow (i : nat) (l : ext) | OUp (i : nat) (u : ext)
| OFinal (x g : list Q) (zL zU lam : list Q) (ob : Q) (viol : option Q).  (* the solver finishes *)
Definition step (o : op) (s : prob) : outcome prob :=
  match o with
  | OReset => Ok (resetStartingPoint s)
  | OX x ex => setxInit x ex s
  | OD d ex => setDualsInit d ex s
  | OAdd gl gu ex => Ok (add_rows gl gu ex s)
  | ODel gl gu => Ok (del_rows gl gu s)
  | OBounds l u => SetVariablesBounds l u s
  | OLower l => SetVariablesLowerBounds l s
  | OUpper u => SetVariablesUpperBounds u s
  | OBound i l u => SetVariableBounds i l u s
  | OLow i l => SetVariableLowerBound i l s
  | OUp i u => SetVariableUpperBound i u s
  | OFinal x g zL zU lam ob v => finalize_solution x g (Some (zL, zU, lam)) ob v s
  end.
(** The history is given newest operation first. *)
Fixpoint run_from (s : prob) (h : list op) : outcome prob :=
  match h with
  | [] => Ok s
  | o :: h => do s <- run_from s h; step o s
  end.
Definition run (P : nlp) (h : list op) : outcome prob := run_from (mk_prob P) h.
