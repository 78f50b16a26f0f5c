(** The options of the NLP interface, specification. *)
From Verif Require Import Base Ifp_Model.
#[local] Open Scope string_scope.
#[local] Open Scope Q_scope.

(** The options of the interface that its registration documents and that concern the interface itself. *)
Definition of_interface : list string :=
  ["nlp_log_level"; "oa_cuts_log_level"; "warm_start"; "num_retry_unsolved_random_point"; "num_resolve_at_root"; "num_resolve_at_node";
   "num_resolve_at_infeasibles"; "num_iterations_suspect"; "nlp_failure_behavior"; "warm_start_bound_frac"; "tiny_element";
   "very_tiny_element"; "oa_rhs_relax"; "random_point_perturbation_interval"; "random_point_type"; "max_random_point_radius";
   "resolve_on_small_infeasibility"].
Definition never_read : list string := ["dynamic_def_cutoff_decr"; "coeff_var_threshold"; "first_perc_for_cutoff_decr"; "second_perc_for_cutoff_decr"].
(** All that createApplication and extractInterfaceParams ask for. *)
Definition asked : list string := of_interface ++ never_read ++ ["nlp_solver"; "cut_strengthening_type"; "nlp_lower_bound_inf"; "nlp_upper_bound_inf"].

(** The value a user expects: the setting with the prefix, else the setting, else the default, which is another one for FilterSQP. *)
Definition wanted (dflt : string -> Q) (o : opts) (prefix : string) (n : string) : Q :=
  match find (prefix ++ n) o, find n o with Some v, _ => v | None, Some v => v | None, None => dflt n end.
Definition default_of (dflt : string -> Q) (k : kind) (n : string) : Q :=
  match k with
  | Ipopt => dflt n
  | Filter => if String.eqb n "max_random_point_radius" then 10 else if String.eqb n "resolve_on_small_infeasibility" then 1 # 1000000 else dflt n
  end.
Definition list_of (w : world) (a : app) : opts := nth (a_list a) (w_lists w) [].
(** Constructing and initializing a solver leaves the settings of the interface. *)
Definition harmless (built : kind -> opts -> opts * bool) : Prop :=
  forall k o p n, In n asked -> find n (fst (built k o)) = find n o /\ find (p ++ n) (fst (built k o)) = find (p ++ n) o.
(** An interface with no solver, before anything was read, and [m] empty option lists. *)
Definition start (ctor : string -> Q) (m : nat) : world := mkW (repeat [] m) (empty ctor).

(** C307: initialize gives every documented option of the interface its effect. *)
Definition C307_full : Prop := forall hf dflt ctor built m ops w e l prefix w', harmless built ->
  run hf dflt built ops (start ctor m) = Ok (w, e) -> i_app (w_itf w) = None -> step hf dflt built w (Init l prefix true) = Ok (w', false) ->
  exists a, i_app (w_itf w') = Some a /\ forall n, In n of_interface \/ In n never_read ->
    i_val (w_itf w') n = wanted (default_of dflt (a_kind a)) (nth l (w_lists w) []) prefix n.

(** C308: the members of the interface agree with the options of its solver. *)
Definition in_step (dflt : string -> Q) (w : world) : Prop := forall a, i_app (w_itf w) = Some a -> forall n, In n of_interface ->
  i_val (w_itf w) n = wanted (default_of dflt (a_kind a)) (list_of w a) (a_prefix a) n.
Definition C308_full : Prop := forall hf dflt ctor built m ops w e, harmless built -> run hf dflt built ops (start ctor m) = Ok (w, e) -> in_step dflt w.

(** C309: what is read from a file last counts. *)
Definition sets (key : string) (o : op) : Prop :=
  match o with SetOpt _ k _ => k = key | ReadFile t => In key (map fst t) | _ => False end.
Definition C309_full : Prop := forall hf dflt ctor built m ops w e n v w' a, harmless built -> run hf dflt built ops (start ctor m) = Ok (w, e) ->
  i_app (w_itf w) = Some a -> In n of_interface -> (forall o, In o ops -> ~ sets (a_prefix a ++ n) o) ->
  step hf dflt built w (ReadFile [(n, v)]) = Ok (w', false) -> i_val (w_itf w') n = v.

(** C310: the solver is the one asked for by the options given to initialize. *)
Definition solver_asked (dflt : string -> Q) (o : opts) (prefix : string) : Q := wanted dflt o prefix "nlp_solver".
Definition is_asked (q : Q) (k : kind) : Prop := match k with Ipopt => q == 0 | Filter => q == 1 \/ q == 2 end.
Definition C310_full : Prop := forall hf dflt ctor built m ops w e l prefix w', run hf dflt built ops (start ctor m) = Ok (w, e) ->
  step hf dflt built w (Init l prefix true) = Ok (w', false) ->
  exists a, i_app (w_itf w') = Some a /\ a_list a = l /\ a_prefix a = prefix /\ is_asked (solver_asked dflt (nth l (w_lists w) []) prefix) (a_kind a).

(** C311: a call of initialize that threw leaves an interface without a solver, so that the next call starts anew. *)
Definition C311_full : Prop := forall hf dflt ctor built m ops w e l prefix w', run hf dflt built ops (start ctor m) = Ok (w, e) ->
  step hf dflt built w (Init l prefix true) = Ok (w', true) -> i_app (w_itf w') = None.

(** C312: cuts are strengthened if and only if cut_strengthening_type says so when options are read. *)
Definition strengthen (dflt : string -> Q) (w : world) (a : app) : Prop := ~ wanted dflt (list_of w a) (a_prefix a) "cut_strengthening_type" == 0.
Definition C312_full : Prop := forall hf dflt ctor built m ops w e t w' a, harmless built -> run hf dflt built ops (start ctor m) = Ok (w, e) ->
  step hf dflt built w (ReadFile t) = Ok (w', false) -> i_app (w_itf w') = Some a -> (i_cut (w_itf w') <> None <-> strengthen dflt w' a).

(** C314: the linear relaxation is made with the tolerances of the interface. *)
Definition tols (i : itf) : Q * Q * Q * Q := (i_val i "tiny_element", i_val i "very_tiny_element", i_val i "oa_rhs_relax", i_inf i).
Definition C314_full : Prop := forall hf dflt ctor built m ops w e t, run hf dflt built ops (start ctor m) = Ok (w, e) ->
  i_lin (w_itf w) = Some t -> t = tols (w_itf w).

(** ** For the parts that hold *)
(** The operation may change what the solver [a] is asked. *)
Definition touches (a : app) (o : op) : Prop :=
  match o with
  | SetOpt l k _ => l = a_list a /\ exists n, In n of_interface /\ (k = n \/ k = a_prefix a ++ n)
  | SetSolver _ _ _ => True
  | _ => False
  end.
(** The two values beyond which the NLP solver takes a bound as infinite. *)
Definition nlp_low (dflt : string -> Q) (w : world) (a : app) : Q := wanted dflt (list_of w a) (a_prefix a) "nlp_lower_bound_inf".
Definition nlp_upp (dflt : string -> Q) (w : world) (a : app) : Q := wanted dflt (list_of w a) (a_prefix a) "nlp_upper_bound_inf".
(** The operation reads no options, the interface having a solver or not ([s]). *)
Definition reads_nothing (s : bool) (o : op) : Prop :=
  match o with ReadFile _ => False | Init _ _ _ => s = true | _ => True end.
