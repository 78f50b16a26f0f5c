(** The options of the NLP interface: src/Interfaces/BonOsiTMINLPInterface.cpp 369-427 (constructor), 431-445 (initialize, setSolver),
    447-496 (createApplication), 499-531 (setModel, readOptionFile), 1734-1740 (set_linearizer), 2956-3026 (extractInterfaceParams).

    Simplifications.  Values of options (numbers, integers, positions in an enumeration) are rationals.  Ipopt's OptionsList (outside
    the repository) is a list of settings, the latest first; getting a value looks for prefix ++ name, then for name, then takes the
    registered default.  Every list is shared by reference, as SmartPtr does.  [built]: what constructing and initializing a solver does
    to the list, and whether Initialize returned true.  Option lists live in [w_lists] and are named by their position. *)
From Verif Require Import Base.
From Coq Require Export String.
#[local] Open Scope string_scope.
#[local] Open Scope Q_scope.

Definition opts := list (string * Q).
Fixpoint find (k : string) (o : opts) : option Q :=
  match o with [] => None | (k', v) :: t => if String.eqb k k' then Some v else find k t end.
Definition set (k : string) (v : Q) (o : opts) : opts := (k, v) :: o.
(** GetNumericValue, GetIntegerValue, GetEnumValue: the value, and whether it was given. *)
Definition get (dflt : string -> Q) (o : opts) (prefix name : string) : Q * bool :=
  match find (prefix ++ name) o with
  | Some v => (v, true)
  | None => match find name o with Some v => (v, true) | None => (dflt name, false) end
  end.

Inductive kind := Ipopt | Filter.
(** app_: its class, its option list and its prefix. *)
Record app := mkApp { a_kind : kind; a_list : nat; a_prefix : string }.
(** The interface.  [p_val]: the members filled from options, by the name of the option; infty_; cutStrengthener_ (the class of the
    solver it was given); testOthers_; debug_apps_; the tolerances given to linearizer_ when it was set (tiny_, veryTiny_, rhsRelax_,
    infty_). *)
Record itf := mkI { i_app : option app; i_debug : list kind; i_test : bool; i_val : string -> Q; i_inf : Q; i_cut : option kind;
                    i_lin : option (Q * Q * Q * Q); i_model : bool }.
Record world := mkW { w_lists : list opts; w_itf : itf }.

(** Members that are taken from the option of this name and nothing else. *)
Definition plain : list string :=
  ["nlp_log_level"; "oa_cuts_log_level"; "warm_start"; "num_retry_unsolved_random_point"; "num_resolve_at_root"; "num_resolve_at_node";
   "num_resolve_at_infeasibles"; "num_iterations_suspect"; "nlp_failure_behavior"; "warm_start_bound_frac"; "tiny_element";
   "very_tiny_element"; "oa_rhs_relax"; "random_point_perturbation_interval"; "random_point_type"].
(** Members that have an option but that are not taken from it: dynamicCutOff_ 0, coeff_var_threshold_ 0.1,
    first_perc_for_cutoff_decr_ -0.02, second_perc_for_cutoff_decr_ -0.05 (registered at 169-191, set at 397-400). *)
Definition radius : string := "max_random_point_radius".
Definition small : string := "resolve_on_small_infeasibility".
Definition mem (n : string) (l : list string) : bool := existsb (String.eqb n) l.

Section Itf.
(** BONMIN_HAS_FILTERSQP; the registered defaults; the members before anything is read (369-424). *)
Variable has_filter : bool.
Variable dflt : string -> Q.
Variable ctor : string -> Q.
Variable built : kind -> opts -> opts * bool.

Definition empty : itf := mkI None [] false ctor (inject_Z (10 ^ 100)) None None false.

Definition is_filter (k : kind) : bool := match k with Filter => has_filter | Ipopt => false end.
(** extractInterfaceParams, 2956-3026. *)
Definition extract (w : world) : world :=
  let i := w_itf w in
  match i_app i with
  | None => w
  | Some a =>
      let o := nth (a_list a) (w_lists w) [] in
      let g := get dflt o (a_prefix a) in
      let val n := if mem n plain then fst (g n)
                   else if String.eqb n radius then (if is_filter (a_kind a) && negb (snd (g n)) then 10 else fst (g n))
                   else if String.eqb n small then (if is_filter (a_kind a) && negb (snd (g n)) then 1 # 1000000 else fst (g n))
                   else i_val i n in
      let lo := Qabs (fst (g "nlp_lower_bound_inf")) in let up := Qabs (fst (g "nlp_upper_bound_inf")) in
      let inf := if Qltb up lo then up else lo in
      let o' := if is_filter (a_kind a) && negb (snd (g small)) then set (a_prefix a ++ small) (1 # 1000000) o else o in
      let cut := if Qeq_bool (fst (g "cut_strengthening_type")) 0 then i_cut i else Some (a_kind a) in
      mkW (firstn (a_list a) (w_lists w) ++ o' :: skipn (S (a_list a)) (w_lists w))
          (mkI (Some a) (i_debug i) (i_test i) val inf cut (i_lin i) (i_model i))
  end.

(** Constructing solvers on the list [l], one after the other; the result of the first Initialize. *)
Fixpoint build (ks : list kind) (o : opts) : opts :=
  match ks with [] => o | k :: t => build t (fst (built k o)) end.
Definition put_list (l : nat) (o : opts) (w : list opts) : list opts := firstn l w ++ o :: skipn (S l) w.
(** createApplication, 447-496.  The boolean: an exception leaves the function. *)
Definition create (l : nat) (prefix : string) (w : world) : outcome (world * bool) :=
  let i := w_itf w in
  match nth_error (w_lists w) l with
  | None => NullDeref
  | Some o =>
      match i_app i with
      | Some _ => AssertFail
      | None =>
          let s := fst (get dflt o prefix "nlp_solver") in
          let go k dbg test :=
            let o1 := fst (built k o) in
            let w1 := mkW (put_list l (build dbg o1) (w_lists w))
                          (mkI (Some (mkApp k l prefix)) (i_debug i ++ dbg) test (i_val i) (i_inf i) (i_cut i) (i_lin i) (i_model i)) in
            if snd (built k o) then Ok (extract w1, false) else Ok (w1, true) in
          let throw test := Ok (mkW (w_lists w) (mkI None (i_debug i) test (i_val i) (i_inf i) (i_cut i) (i_lin i) (i_model i)), true) in
          if Qeq_bool s 1 then if has_filter then go Filter [Ipopt] false else throw false
          else if Qeq_bool s 0 then go Ipopt (if has_filter then [Filter] else []) false
          else if Qeq_bool s 2 then if has_filter then go Filter [Ipopt] true else throw (i_test i)
          else NullDeref
      end
  end.

Inductive op :=
| Init (l : nat) (prefix : string) (model : bool)   (* initialize(roptions, options, journalist, prefix, tminlp) *)
| SetSolver (k : kind) (l : nat) (prefix : string)  (* setSolver(app) *)
| SetOpt (l : nat) (k : string) (v : Q)             (* options->Set...Value *)
| ReadFile (t : list (string * Q))                  (* readOptionFile(name), the settings in the file *)
| SetLin.                                           (* set_linearizer *)

Definition with_itf (i : itf) (w : world) : world := mkW (w_lists w) i.
Definition step (w : world) (o : op) : outcome (world * bool) :=
  let i := w_itf w in
  match o with
  | Init l prefix model =>
      do ' (w1, e) <- match i_app i with Some _ => Ok (w, false) | None => create l prefix w end;
      if (e : bool) then Ok (w1, true)
      else if model then
        let i1 := w_itf w1 in
        Ok (with_itf (mkI (i_app i1) (i_debug i1) (i_test i1) (i_val i1) (i_inf i1) (i_cut i1) (i_lin i1) true) w1, false)
      else AssertFail
  | SetSolver k l prefix =>
      if match k with Filter => has_filter | Ipopt => true end && Nat.ltb l (List.length (w_lists w)) then
        Ok (with_itf (mkI (Some (mkApp k l prefix)) (i_debug i) (i_test i) (i_val i) (i_inf i) (i_cut i) (i_lin i) (i_model i)) w, false)
      else NullDeref
  | SetOpt l k v =>
      match nth_error (w_lists w) l with
      | None => NullDeref
      | Some o => Ok (mkW (put_list l (set k v o) (w_lists w)) i, false)
      end
  | ReadFile t =>
      match i_app i with
      | None => Ok (w, false)
      | Some a =>
          let o := nth (a_list a) (w_lists w) [] in
          Ok (extract (mkW (put_list (a_list a) (fold_left (fun o s => set (fst s) (snd s) o) t o) (w_lists w)) i), false)
      end
  | SetLin =>
      if i_model i then
        Ok (with_itf (mkI (i_app i) (i_debug i) (i_test i) (i_val i) (i_inf i) (i_cut i)
          (Some (i_val i "tiny_element", i_val i "very_tiny_element", i_val i "oa_rhs_relax", i_inf i)) (i_model i)) w, false)
      else NullDeref
  end.
Fixpoint run (ops : list op) (w : world) : outcome (world * bool) :=
  match ops with
  | [] => Ok (w, false)
  | o :: t => do ' (w1, e) <- step w o; do ' (w2, e2) <- run t w1; Ok (w2, e || e2)
  end.
End Itf.
