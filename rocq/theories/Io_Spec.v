(** Specifications for problem descriptions, diagnostic files, option tables and the C interface:
    C31, C32, C43, C44, C69-C75. *)
From Verif Require Import Base Arr Io_Model.
#[local] Open Scope Q_scope.

(** ** C31 *)
(** An SOS description as a problem builds it: every cell of every array is set. *)
Definition filled {A} (k : nat) (p : option (arr A)) : Prop := exists l : list A, length l = k /\ p = Some (map Some l).
Definition sos_ok (s : sos) : Prop :=
  (s_num s = 0%nat /\ s_types s = None /\ s_prior s = None /\ s_starts s = None /\ s_ind s = None /\ s_wgt s = None) \/
  ((0 < s_num s)%nat /\ filled (s_num s) (s_types s) /\ filled (s_num s) (s_prior s) /\ filled (S (s_num s)) (s_starts s) /\
   filled (s_nnz s) (s_ind s) /\ filled (s_nnz s) (s_wgt s)).
(** The copy is equal to the original and the original is unchanged. *)
Definition C31_full : Prop := forall s, sos_ok s -> sos_copy s = Ok (s, s).
(** Nothing of the first [k] cells is left. *)
Definition lost {A} (k : nat) (p : option (arr A)) : Prop := exists l, p = Some l /\ forall i, (i < k)%nat -> nth_error l i = Some None.
Definition sos_lost (s : sos) (k nz : nat) : Prop :=
  lost k (s_types s) /\ lost k (s_prior s) /\ lost k (s_starts s) /\ lost nz (s_ind s) /\ lost nz (s_wgt s).

(** ** C69 *)
Definition opt_len {A} (k : nat) (p : option (list A)) : Prop := match p with None => True | Some l => length l = k end.
Definition binfo_ok (b : binfo) : Prop :=
  opt_len (b_size b) (b_prior b) /\ opt_len (b_size b) (b_dir b) /\ opt_len (b_size b) (b_up b) /\ opt_len (b_size b) (b_down b).
Definition C69_full : Prop := forall left b, binfo_ok b -> binfo_copy left b = Ok b.

(** ** C70 *)
Definition C70_full : Prop := forall n h, Forall (opt_len n) h ->
  (do p <- setPerturbations n h PNull; getPerturbation p) = Ok (last h None).
(** No NULL after an array. *)
Definition nulls_first (h : list (option (list Q))) : Prop := exists k ls, h = repeat None k ++ map Some ls.

(** ** C71 *)
(** The variable is integer and may take an integer value other than 0 and 1. *)
Definition takes_other (v : vtype * ext * ext) : Prop :=
  let '(t, l, u) := v in t = INT /\ exists z : Z, z <> 0%Z /\ z <> 1%Z /\ lo_ok l (inject_Z z) /\ up_ok u (inject_Z z).
Definition C71_full : Prop := forall vs, hasGeneralInteger vs = true <-> Exists takes_other vs.
(** Bounds that are integers or infinite, the lower one not above the upper one. *)
Definition int_bounds (v : vtype * ext * ext) : Prop :=
  let '(t, l, u) := v in
  (l = MInf \/ exists a : Z, l = Fin (inject_Z a)) /\ (u = PInf \/ exists b : Z, u = Fin (inject_Z b)).
Definition zero_one (v : vtype * ext * ext) : Prop := let '(t, l, u) := v in l = Fin 0 /\ u = Fin 1.

(** ** C32 *)
Definition bnd := (Q * Q * (Q * Q))%type.       (* current lower and upper, original lower and upper *)
Definition cur_l (v : bnd) := fst (fst v).
Definition cur_u (v : bnd) := snd (fst v).
Definition org_l (v : bnd) := fst (snd v).
Definition org_u (v : bnd) := snd (snd v).
Definition same (l l' : list Q) : Prop := Forall2 Qeq l l'.
(** With a printer that loses nothing. *)
Definition C32_full : Prop := forall vs : list bnd, exists lo up,
  readAndApply false (write_bounds (fun q => q) 0 vs) (map org_l vs) (map org_u vs) = Ok (lo, up) /\
  same lo (map cur_l vs) /\ same up (map cur_u vs).
(** Some bound has changed by more than the relative tolerance 1e-10. *)
Definition changed (v : bnd) : Prop :=
  Qabs (cur_l v - org_l v) > (1 # 10000000000) * (1 + qmax (Qabs (cur_l v)) (Qabs (org_l v))) \/
  Qabs (cur_u v - org_u v) > (1 # 10000000000) * (1 + qmax (Qabs (cur_u v)) (Qabs (org_u v))).
(** A file with one line per entry and no end of line at the very end. *)
Definition entry := (side * Z * Q)%type.
Definition line (e : entry) : list tok := let '(d, i, q) := e in [TSide d; TInt i; TReal q].
Fixpoint no_final_nl (es : list entry) : list tok :=
  match es with [] => [] | [e] => line e | e :: es' => line e ++ TNL :: no_final_nl es' end.
Fixpoint of_side (d : side) (es : list entry) : list (Z * Q) :=
  match es with
  | [] => []
  | (d', i, q) :: es' => match d, d' with LO, LO | UP, UP => (i, q) :: of_side d es' | _, _ => of_side d es' end
  end.

(** ** C72 *)
Definition C72_full : Prop := forall n m primals duals, length primals = n -> opt_len (2 * n + m) duals ->
  readStart n m (Some (write_start n m primals duals)) = Ok (true, Some primals, duals).

(** ** C43 *)
Definition C43_full : Prop := forall known h o a b m m', oruns known h [] = Ok m -> a <> b ->
  ostep known (Declare_ o a) m = Ok m' ->
  isValid known o a m' = Ok true /\ isValid known o b m' = isValid known o b m.
Definition about (o : nat) (p : oop) : Prop := match p with SetInfo o' _ => o' = o | Declare_ o' _ => o' = o end.
(** Declared valid by the history, latest call first: by a declaration for this algorithm not
    followed by a new code, or by the last code set. *)
Inductive declared (o : nat) (a : alg) : list oop -> Prop :=
| d_here : forall h, declared o a (Declare_ o a :: h)
| d_code : forall c h, Z.testbit c (abit a) = true -> declared o a (SetInfo o c :: h)
| d_alg : forall b h, declared o a h -> declared o a (Declare_ o b :: h)
| d_opt : forall p h, ~ about o p -> declared o a h -> declared o a (p :: h).

(** ** C75 *)
Inductive osorted : list opt -> Prop :=
| os_nil : osorted []
| os_cons : forall a l, Forall (fun b => (fst a < fst b)%nat \/ fst a = fst b /\ (snd a < snd b)%nat) l -> osorted l -> osorted (a :: l).
(** Contract of std::list::sort for the comparison used: the same options, no later one smaller. *)
Definition lsort_ok (sort : (opt -> opt -> bool) -> list opt -> list opt) : Prop :=
  forall l, Permutation l (sort optcmp l) /\
    forall i j a b, (i < j)%nat -> nth_error (sort optcmp l) i = Some a -> nth_error (sort optcmp l) j = Some b -> optcmp b a = false.
Definition section_of (g : nat * list nat) : list row := Header (fst g) :: map (fun o => Line (fst g, o)) (snd g).
Inductive increasing : list nat -> Prop :=
| inc_nil : increasing []
| inc_cons : forall a l, Forall (lt a) l -> increasing l -> increasing (a :: l).

(** ** C44 *)
(** The caller's arrays have the announced sizes. *)
Definition req_sizes (q : creq) : Prop :=
  opt_len (Z.to_nat (q_n q)) (q_xl q) /\ opt_len (Z.to_nat (q_n q)) (q_xu q) /\ opt_len (Z.to_nat (q_m q)) (q_gl q) /\ opt_len (Z.to_nat (q_m q)) (q_gu q) /\
  opt_len (Z.to_nat (q_n q)) (q_vt q) /\ opt_len (Z.to_nat (q_n q)) (q_vl q) /\ opt_len (Z.to_nat (q_m q)) (q_cl q).
Definition out_sizes (n m : nat) (o : cout) : Prop :=
  opt_len n (o_x o) /\ opt_len m (o_g o) /\ opt_len m (o_mg o) /\ opt_len n (o_ml o) /\ opt_len n (o_mu o).
Definition C44_full : Prop := forall left q p o x solver, req_sizes q -> createProblem q = Ok (Some p) ->
  out_sizes (Z.to_nat (q_n q)) (Z.to_nat (q_m q)) o -> o_x o = Some x ->
  exists v o', bonminSolve left p o solver = Ok (0%Z, Some v, o') /\
    t_sos v = q_sos q /\ t_br v = q_br q /\
    forall r, solver v = Some r -> o_x o' = Some (f_x r) /\ (o_g o <> None -> o_g o' = Some (f_g r)) /\ (o_obj o <> None -> o_obj o' = Some (f_obj r)).
(** What creation requires. *)
Definition req_valid (q : creq) : Prop :=
  (1 <= q_n q)%Z /\ (0 <= q_m q)%Z /\ q_xl q <> None /\ q_xu q <> None /\ (0 <= q_hess q)%Z /\ q_f q = true /\ q_grad q = true /\
  q_vt q <> None /\ q_vl q <> None /\
  (q_m q = 0%Z -> q_jac q = 0%Z) /\
  ((0 < q_m q)%Z -> q_gl q <> None /\ q_gu q <> None /\ (1 <= q_jac q)%Z /\ q_g q = true /\ q_jacf q = true /\ q_cl q <> None).
(** The solver's view agrees with what was given at creation. *)
Definition forwards (q : creq) (v : tview) : Prop :=
  Z.of_nat (t_n v) = q_n q /\ Z.of_nat (t_m v) = q_m q /\ t_jac v = q_jac q /\ t_hess v = q_hess q /\
  (t_fortran v = false <-> q_style q = 0%Z) /\
  q_xl q = Some (t_xl v) /\ q_xu q = Some (t_xu v) /\ q_vt q = Some (t_vt v) /\ q_vl q = Some (t_vl v) /\
  ((0 < q_m q)%Z -> q_gl q = Some (t_gl v) /\ q_gu q = Some (t_gu v) /\ q_cl q = Some (t_cl v)).

(** ** C73 *)
(** The protocol of the solver: a point is not new only when it is the one of the last evaluation;
    structure calls come without a point.  [prev] is the point of the last evaluation. *)
Definition call_ok (n : nat) (has_h : bool) (prev : option (list Q)) (c : ecall) : Prop :=
  (e_kind c = KH -> has_h = true) /\
  match e_x c with
  | None => e_new c = false /\ (e_kind c = KJac \/ e_kind c = KH) /\ e_mode c = Struct
  | Some x => length x = n /\ (e_kind c = KJac \/ e_kind c = KH -> e_mode c = Values) /\ (e_new c = false -> prev = Some x)
  end.
Fixpoint calls_ok (n : nat) (has_h : bool) (prev : option (list Q)) (cs : list ecall) : Prop :=
  match cs with
  | [] => True
  | c :: cs' => call_ok n has_h prev c /\ calls_ok n has_h (match e_x c with Some x => Some x | None => prev end) cs'
  end.
(** The user's function is called, with the point of the evaluation when there is one. *)
Definition sees (c : ecall) (s : option (option (list Q))) : Prop :=
  match e_x c with None => s <> None | Some x => s = Some (Some x) end.

(** ** C74 *)
Definition C74_full : Prop := forall m h, (do c <- mem_scalings h (mem_create m); mem_free m c) = Ok [].
