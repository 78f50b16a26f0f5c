(** Specifications for the solver objects: C277-C286. *)
From Verif Require Import Base Arr Itf_Model Nls_Model Nls_Spec Slv_Model.
#[local] Open Scope Z_scope.

(** ** C277: what a call may report *)
(** The status agrees with Ipopt's code. *)
Definition code_says (c : ipopt_code) (r : rstatus) : Prop :=
  (r = solvedOptimal <-> c = Solve_Succeeded \/ c = Feasible_Point_Found) /\ (r = solvedOptimalTol <-> c = Solved_To_Acceptable_Level) /\
  (r = provenInfeasible <-> c = Infeasible_Problem_Detected) /\ (r = sUnbounded <-> c = Diverging_Iterates) /\
  (r = timeLimit <-> c = Maximum_CpuTime_Exceeded) /\ (r = doesNotConverge <-> c = Search_Direction_Becomes_Too_Small).
Definition moves (p : prob) : Prop := can_move (z_xl (pb_z p)) (z_xu (pb_z p)).
(** Either Ipopt is run on the problem, or all variables are fixed and the constraints decide. *)
Definition own_answer (p : prob) (a : ans) (r : rstatus) : Prop :=
  (moves p -> code_says (a_code a) r) /\
  (~ moves p -> forall g, z_g (pb_z p) (z_xl (pb_z p)) = Some g ->
     (r = solvedOptimal /\ con_ok (z_gl (pb_z p)) (z_gu (pb_z p)) g) \/ (r = provenInfeasible /\ ~ con_ok (z_gl (pb_z p)) (z_gu (pb_z p)) g)).
Definition evaluates (p : prob) : Prop :=
  (exists v, z_f (pb_z p) (z_xl (pb_z p)) = Some v) /\ (exists g, z_g (pb_z p) (z_xl (pb_z p)) = Some g).
Definition solves (p : prob) (a : ans) (o : iop) : Prop := o = ISolve p a \/ o = IResolve p a.

(** ** C278: the last solve of an object; a clone starts anew *)
Definition last_solve (l : list iop) : option (prob * ans) :=
  fold_left (fun h o => match o with ISolve p a | IResolve p a => Some (p, a) | IClone => None | _ => h end) l None.
(** The calls on object [i] of a process. *)
Definition calls (i : nat) (l : list pop) : list fop :=
  flat_map (fun o => match o with PCall j c => if Nat.eqb j i then [c] else [] | _ => [] end) l.
(** The problem and structure an SQP object was given last for its cache: by every solve, by setting no warm start,
    and by setting a warm start on an object without cache. *)
Definition made (l : list fop) : option (nat * nat) :=
  fold_left (fun m o => match o with
                        | FOpt p s _ _ | FWarm None p s => Some (p, s)
                        | FWarm (Some _) p s => match m with None => Some (p, s) | Some _ => m end
                        | _ => m end) l None.
(** The iterations and time of the last solve; [None] within: the cache is newer than the last solve. *)
Definition counted (l : list fop) : option (option (nat * Q)) :=
  fst (fold_left (fun '(c, m) o => match o with
                             | FOpt p s n t => (Some (Some (n, t)), Some (p, s))
                             | FReopt _ _ n t => (Some (Some (n, t)), m)
                             | FWarm None p s => (Some None, Some (p, s))
                             | FWarm (Some _) p s => match m with None => (Some None, Some (p, s)) | Some _ => (c, m) end
                             | _ => (c, m) end) l (None, None)).
Definition last_fsolve (l : list fop) : option (nat * Q) :=
  fold_left (fun c o => match o with FOpt _ _ n t | FReopt _ _ n t => Some (n, t) | _ => c end) l None.
Definition C278_full : Prop :=
  (forall l0 l s, iops (ipo_new l0) l = Ok s ->
     match last_solve l with
     | None => IterationCount s = O /\ CPUTime s = 0%Q
     | Some (p, a) => (moves p -> IterationCount s = a_iter a /\ CPUTime s = a_time a) /\ (~ moves p -> IterationCount s = O /\ CPUTime s = 0%Q)
     end) /\
  (forall t0 l s i f, pops (proc0 t0) l = Ok s -> nth_error (p_sol s) i = Some f ->
     match last_fsolve (calls i l) with
     | None => f_iterations f = Ok O /\ f_cputime f = 0%Q
     | Some (n, t) => f_iterations f = Ok n /\ f_cputime f = t
     end).

(** ** C279 *)
Definition C279_full : Prop := forall l0 l s p a o s' r, iops (ipo_new l0) l = Ok s -> solves p a o -> istep s o = Ok (s', Some r) ->
  r = provenInfeasible -> own_answer p a r.

(** ** C280 *)
Definition C280_full : Prop := forall l0 l s p a, iops (ipo_new l0) l = Ok s -> evaluates p -> exists s' r, istep s (ISolve p a) = Ok (s', Some r).
(** The last run of Ipopt by this object since it was made or initialised was on problem [q]. *)
Definition last_run (q : nat) (l : list iop) : Prop :=
  exists l1 o l2 p a, l = l1 ++ o :: l2 /\ solves p a o /\ moves p /\ pb_id p = q /\
    Forall (fun o => match o with ISolve p _ | IResolve p _ => ~ moves p | IClone => False | IInit _ g => g = false | _ => True end) l2.
(** The warm start switch was last turned on. *)
Definition warm_on (l : list iop) : Prop :=
  exists l1 l2, l = l1 ++ IWarm true :: l2 /\ Forall (fun o => match o with IWarm _ | IClone => False | _ => True end) l2.

(** ** C281 *)
Definition C281_full : Prop := forall c n, errorNum c = Some n -> errorName n = Ok c.

(** ** C282 *)
(** First setting of an option in a file. *)
Fixpoint first_in (o : oname) (f : list (oname * oval)) : option oval :=
  match f with [] => None | (a, v) :: t => if oname_eqb o a then Some v else first_in o t end.
Definition protected (o : oname) (l : opts) : option oval := match lookup o l with Some (v, false) => Some v | _ => None end.
(** Bonmin's choices for Ipopt inside a MINLP (its documentation of the options). *)
Definition minlp_default (o : oname) : option oval :=
  match o with
  | gamma_phi => Some (Num (1 # 100000000)) | gamma_theta => Some (Num (1 # 10000)) | required_infeasibility_reduction => Some (Num (1 # 10))
  | expect_infeasible_problem | honor_original_bounds => Some Yes | mu_strategy => Some Adaptive | mu_oracle => Some Probing
  | print_level => Some (Int 1) | _ => None
  end.
Definition or_else {A} (a b : option A) : option A := match a with Some _ => a | None => b end.
(** What the user asked for, if anything: what cannot be changed any more, then the file, then what was set by the program, then the default. *)
Definition wanted (l0 : opts) (f : list (oname * oval)) (o : oname) : option oval :=
  or_else (protected o l0) (or_else (first_in o f) (or_else (get o l0) (minlp_default o))).
Definition no_init (o : iop) : Prop := match o with IInit _ _ => False | _ => True end.

(** ** C283 *)
Definition C283_full : Prop :=
  (forall l0 f l s k, iops (fst (ipo_init f true (ipo_new l0))) l = Ok s -> Forall no_init l ->
     get print_level (i_opts (forceSolverOutput k s)) = Some (Int k)) /\
  (forall t0 l s i f k p str n t s' r, pops (proc0 t0) (l ++ [PCall i FInit; PCall i (FForce k)]) = Ok s -> nth_error (p_sol s) i = Some f ->
     pstep s (PCall i (FOpt p str n t)) = Ok (s', Some r) -> r_iprint r = k).

(** ** C284, C285, C286: SQP objects *)
(** The options of the objects, in the order in which these are made. *)
Definition opts_of (l : list pop) : list fopts :=
  fold_left (fun h o => match o with PNew o => h ++ [o] | PClone i => match nth_error h i with Some o => h ++ [o] | None => h end | _ => h end) l [].
(** The object whose call made a cache last. *)
Definition makes (before : list fop) (o : fop) : Prop :=
  match o with FOpt _ _ _ _ | FWarm None _ _ => True | FWarm (Some _) _ _ => made before = None | _ => False end.
Definition maker (j : nat) (l : list pop) : Prop :=
  exists l1 o l2, l = l1 ++ PCall j o :: l2 /\ makes (calls j l1) o /\
    forall a k o' b, l2 = a ++ PCall k o' :: b -> ~ makes (calls k (l1 ++ PCall j o :: a)) o'.
Definition fsolves (p str : nat) (o : fop) : Prop := exists n t, o = FOpt p str n t \/ o = FReopt p str n t.
Definition C285_full : Prop := forall t0 l s i p str o s' r w, pops (proc0 t0) l = Ok s -> fsolves p str o ->
  pstep s (PCall i o) = Ok (s', Some r) -> nth_error (opts_of l) i = Some w -> r_tol r = (fo_ubd w, fo_tt w, fo_eps w, fo_infty w).
Definition C286_full : Prop := forall t0 l s i p str o s' r w, pops (proc0 t0) l = Ok s -> fsolves p str o ->
  pstep s (PCall i o) = Ok (s', Some r) -> nth_error (opts_of l) i = Some w -> r_rho r = fo_rho w.
