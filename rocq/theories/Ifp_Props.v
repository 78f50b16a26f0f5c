(** The options of the NLP interface: C307-C314. *)
From Verif Require Import Base Ifp_Model Ifp_Spec Ifp_Proofs.
#[local] Open Scope string_scope.
#[local] Open Scope Q_scope.

(** Defaults as registered, a constructor's values, and solvers whose Initialize succeeds and leaves the options. *)
Definition ex_dflt (n : string) : Q :=
  if mem n ["tiny_element"; "oa_rhs_relax"] then 1 # 100000000
  else if mem n ["nlp_lower_bound_inf"] then - (10000000000 # 1)
  else if mem n ["nlp_upper_bound_inf"] then 10000000000 # 1
  else if mem n ["max_random_point_radius"] then 100000 # 1
  else if mem n ["coeff_var_threshold"] then 1 # 10
  else 0.
Definition ex_ctor (n : string) : Q := if mem n ["coeff_var_threshold"] then 1 # 10 else 0.
Definition ex_built (k : kind) (o : opts) : opts * bool := (o, true).
Lemma ex_harmless : harmless ex_built.
Proof. intros k o p n _. auto. Qed.

(** C307 *)
Theorem C307_refuted : ~ C307_full.
Proof.
  intros H. specialize (H true ex_dflt ex_ctor ex_built 1%nat [SetOpt 0 "bonmin.coeff_var_threshold" (1 # 2)] _ _ 0%nat "bonmin." _ ex_harmless eq_refl eq_refl eq_refl).
  destruct H as (a & A & H). injection A as <-. specialize (H "coeff_var_threshold" (or_intror (or_intror (or_introl eq_refl)))). discriminate H.
Qed.
Print Assumptions C307_refuted.
(** The others are read, with the rule for the prefix and FilterSQP's defaults. *)
Theorem C307_partial hf dflt ctor built m ops w e l prefix w' : harmless built -> run hf dflt built ops (start ctor m) = Ok (w, e) ->
  i_app (w_itf w) = None -> step hf dflt built w (Init l prefix true) = Ok (w', false) ->
  exists a, i_app (w_itf w') = Some a /\ forall n, In n of_interface ->
    i_val (w_itf w') n = wanted (default_of dflt (a_kind a)) (nth l (w_lists w) []) prefix n.
Proof.
  intros H R A S. destruct (run_ok hf dflt built ops _ _ _ (start_ok hf ctor m) R) as [O _].
  destruct (init_new hf dflt built w l prefix w' O H A S) as (k & w1 & _ & O1 & A1 & W & _ & A' & V & _).
  exists (mkApp k l prefix). split; auto. intros n I. rewrite V. rewrite (extract_val hf dflt w1 _ n O1 A1 I). apply W. apply interface_asked; auto.
Qed.
Print Assumptions C307_partial.
(** Four documented options keep the constructor's value whatever anybody does. *)
Theorem C307_never_read hf dflt ctor built m ops w e n : In n never_read -> run hf dflt built ops (start ctor m) = Ok (w, e) -> i_val (w_itf w) n = ctor n.
Proof. intros I R. apply (run_never hf dflt built ops n I _ _ _ R). Qed.
Print Assumptions C307_never_read.
Example C307_case :
  (do ' (w, e) <- run true ex_dflt ex_built [SetOpt 0 "tiny_element" (1 # 10); SetOpt 0 "bonmin.oa_rhs_relax" (1 # 5); SetOpt 0 "bonmin.nlp_solver" 1; Init 0 "bonmin." true] (start ex_ctor 1);
   Ok (map (i_val (w_itf w)) ["tiny_element"; "oa_rhs_relax"; "max_random_point_radius"; "resolve_on_small_infeasibility"; "coeff_var_threshold"], e))
  = Ok ([1 # 10; 1 # 5; 10; 1 # 1000000; 1 # 10], false).
Proof. vm_compute. reflexivity. Qed.

(** C308 *)
Theorem C308_refuted : ~ C308_full.
Proof.
  intros H. specialize (H true ex_dflt ex_ctor ex_built 1%nat [Init 0 "bonmin." true; SetOpt 0 "bonmin.num_retry_unsolved_random_point" 5] _ _ ex_harmless eq_refl).
  specialize (H _ eq_refl "num_retry_unsolved_random_point" ltac:(cbn; auto 20)). vm_compute in H. discriminate H.
Qed.
Print Assumptions C308_refuted.
(** In step after readOptionFile and as long as nobody touches the options of the interface in the solver's list. *)
Theorem C308_partial hf dflt ctor built m ops w1 e1 a t w2 e2 ops' w e : run hf dflt built ops (start ctor m) = Ok (w1, e1) -> i_app (w_itf w1) = Some a ->
  step hf dflt built w1 (ReadFile t) = Ok (w2, e2) -> (forall o, In o ops' -> ~ touches a o) -> run hf dflt built ops' w2 = Ok (w, e) -> in_step dflt w.
Proof.
  intros R A S N R'. destruct (run_ok hf dflt built ops _ _ _ (start_ok hf ctor m) R) as [O _].
  destruct (read_file hf dflt built w1 a t w2 e2 O A S) as (-> & v & -> & Ov & _ & _ & A2).
  eapply quiet_run; [exact N| |exact A2|apply extract_in_step; exact Ov|exact R']. apply extract_ok; auto.
Qed.
Print Assumptions C308_partial.
Theorem C308_init_partial hf dflt ctor built m ops w1 e1 l prefix w2 ops' w e : run hf dflt built ops (start ctor m) = Ok (w1, e1) -> i_app (w_itf w1) = None ->
  step hf dflt built w1 (Init l prefix true) = Ok (w2, false) -> (forall o a, In o ops' -> i_app (w_itf w2) = Some a -> ~ touches a o) ->
  run hf dflt built ops' w2 = Ok (w, e) -> in_step dflt w.
Proof.
  intros R A S N R'. destruct (run_ok hf dflt built ops _ _ _ (start_ok hf ctor m) R) as [O _]. destruct (step_ok hf dflt built _ _ _ _ O S) as [O2 _].
  assert (J2 : in_step dflt w2). { eapply in_step_step; [exact O|exact S| |reflexivity|exact Logic.I]. intros b B. congruence. }
  assert (exists a, i_app (w_itf w2) = Some a) as [a A2].
  { unfold step in S. rewrite A in S. apply bind_ok in S as [[v ev] [C S]]. destruct ev; [discriminate|]. injection S as <-. cbn.
    apply create_cases in C as (_ & _ & [(X & _)|(k & dbg & test & _ & _ & C)]); [discriminate|]. cbn zeta in C. destruct C as [(_ & -> & _)|(_ & _ & X)]; [|discriminate].
    rewrite extract_app. cbn. eauto. }
  eapply quiet_run; [|exact O2|exact A2|exact J2|exact R']. intros o I. apply (N o a I A2).
Qed.
Print Assumptions C308_init_partial.
Example C308_case :
  (do ' (w, e) <- run true ex_dflt ex_built [Init 0 "bonmin." true; SetOpt 0 "bonmin.warm_start" 2; ReadFile [("oa_rhs_relax", 1 # 5)]; SetOpt 0 "bonmin.fp_log_level" 3; SetLin] (start ex_ctor 1);
   Ok (map (i_val (w_itf w)) ["warm_start"; "oa_rhs_relax"], e)) = Ok ([2; 1 # 5], false).
Proof. vm_compute. reflexivity. Qed.

(** C309 *)
Theorem C309_refuted : ~ C309_full.
Proof.
  intros H. assert (N : forall o, In o [SetOpt 0 "bonmin.nlp_solver" 1; Init 0 "bonmin." true] -> ~ sets ("bonmin." ++ "resolve_on_small_infeasibility") o).
  { intros o [<-|[<-|[]]]; cbn; [discriminate|auto]. }
  assert (I : In "resolve_on_small_infeasibility" of_interface) by (cbn; auto 20).
  specialize (H true ex_dflt ex_ctor ex_built 1%nat [SetOpt 0 "bonmin.nlp_solver" 1; Init 0 "bonmin." true] _ _ "resolve_on_small_infeasibility" 1 _ (mkApp Filter 0 "bonmin.") ex_harmless eq_refl eq_refl I N eq_refl).
  vm_compute in H. discriminate H.
Qed.
Print Assumptions C309_refuted.
Theorem C309_partial hf dflt ctor built m ops w e n v w' a : harmless built -> run hf dflt built ops (start ctor m) = Ok (w, e) ->
  i_app (w_itf w) = Some a -> In n of_interface -> (forall o, In o ops -> ~ sets (a_prefix a ++ n) o) -> n <> "resolve_on_small_infeasibility" \/ hf = false ->
  step hf dflt built w (ReadFile [(n, v)]) = Ok (w', false) -> i_val (w_itf w') n = v.
Proof.
  intros H R A I N Qn S. destruct (run_ok hf dflt built ops _ _ _ (start_ok hf ctor m) R) as [O _].
  assert (Ab : absent (a_prefix a ++ n) w). { eapply (absent_run hf dflt built); [exact H|split; [apply interface_asked; exact I|exact Qn]|apply (start_ok hf ctor m)|apply absent_start|exact N|exact R]. }
  destruct (read_file hf dflt built w a _ w' _ O A S) as (_ & w1 & -> & O1 & E1 & L1 & _).
  assert (A1 : i_app (w_itf w1) = Some a) by (rewrite E1; exact A).
  rewrite (extract_val hf dflt w1 a n O1 A1 I). rewrite L1. cbn [fold_left fst snd]. unfold wanted. rewrite !find_set, String.eqb_refl.
  destruct (String.eqb (a_prefix a ++ n) n); auto. unfold list_of. rewrite Ab. reflexivity.
Qed.
Print Assumptions C309_partial.
(** With the prefix it always counts. *)
Theorem C309_prefixed_partial hf dflt ctor built m ops w e n v w' a : run hf dflt built ops (start ctor m) = Ok (w, e) -> i_app (w_itf w) = Some a -> In n of_interface ->
  step hf dflt built w (ReadFile [(a_prefix a ++ n, v)]) = Ok (w', false) -> i_val (w_itf w') n = v.
Proof.
  intros R A I S. destruct (run_ok hf dflt built ops _ _ _ (start_ok hf ctor m) R) as [O _].
  destruct (read_file hf dflt built w a _ w' _ O A S) as (_ & w1 & -> & O1 & E1 & L1 & _).
  assert (A1 : i_app (w_itf w1) = Some a) by (rewrite E1; exact A).
  rewrite (extract_val hf dflt w1 a n O1 A1 I). rewrite L1. cbn [fold_left fst snd]. unfold wanted. rewrite !find_set, String.eqb_refl. reflexivity.
Qed.
Print Assumptions C309_prefixed_partial.
Example C309_case :
  (do ' (w, e) <- run true ex_dflt ex_built [SetOpt 0 "bonmin.nlp_solver" 1; Init 0 "bonmin." true; ReadFile [("max_random_point_radius", 7)]; ReadFile [("resolve_on_small_infeasibility", 1)]] (start ex_ctor 1);
   Ok (map (i_val (w_itf w)) ["max_random_point_radius"; "resolve_on_small_infeasibility"], find "bonmin.resolve_on_small_infeasibility" (nth 0 (w_lists w) [])))
  = Ok ([7; 1 # 1000000], Some (1 # 1000000)).
Proof. vm_compute. reflexivity. Qed.

(** C310 *)
Theorem C310_refuted : ~ C310_full.
Proof.
  intros H. specialize (H true ex_dflt ex_ctor ex_built 2%nat [Init 0 "bonmin." true; SetOpt 1 "bonmin.nlp_solver" 1] _ _ 1%nat "bonmin." _ eq_refl eq_refl).
  destruct H as (a & A & L & _). injection A as <-. discriminate L.
Qed.
Print Assumptions C310_refuted.
Theorem C310_partial hf dflt ctor built m ops w e l prefix w' : run hf dflt built ops (start ctor m) = Ok (w, e) -> i_app (w_itf w) = None ->
  step hf dflt built w (Init l prefix true) = Ok (w', false) ->
  exists a, i_app (w_itf w') = Some a /\ a_list a = l /\ a_prefix a = prefix /\ is_asked (solver_asked dflt (nth l (w_lists w) []) prefix) (a_kind a).
Proof.
  intros R A S. unfold step in S. rewrite A in S. apply bind_ok in S as [[v ev] [C S]]. destruct ev; [discriminate|]. injection S as <-.
  apply create_cases in C as (_ & _ & [(X & _)|(k & dbg & test & K & _ & C)]); [discriminate|]. cbn zeta in C. destruct C as [(_ & -> & _)|(_ & _ & X)]; [|discriminate].
  exists (mkApp k l prefix). cbn [with_itf w_itf i_app a_list a_prefix a_kind]. rewrite extract_app. auto.
Qed.
Print Assumptions C310_partial.
(** With a solver already there, initialize takes nothing from the options. *)
Theorem C310_ignored hf dflt ctor built m ops w e l prefix w' e' a : run hf dflt built ops (start ctor m) = Ok (w, e) -> i_app (w_itf w) = Some a ->
  step hf dflt built w (Init l prefix true) = Ok (w', e') ->
  e' = false /\ w_lists w' = w_lists w /\ i_app (w_itf w') = Some a /\ i_val (w_itf w') = i_val (w_itf w) /\ i_cut (w_itf w') = i_cut (w_itf w).
Proof. intros _ A S. eapply init_old; eauto. Qed.
Print Assumptions C310_ignored.
Example C310_case :
  (do ' (w, e) <- run true ex_dflt ex_built [SetOpt 1 "x.nlp_solver" 1; Init 1 "x." true; Init 0 "bonmin." true] (start ex_ctor 2);
   Ok (i_app (w_itf w), i_debug (w_itf w), e)) = Ok (Some (mkApp Filter 1 "x."), [Ipopt], false).
Proof. vm_compute. reflexivity. Qed.

(** C311 *)
Definition ex_fails (k : kind) (o : opts) : opts * bool := (o, false).
Theorem C311_refuted : ~ C311_full.
Proof.
  intros H. specialize (H true ex_dflt ex_ctor ex_fails 1%nat [] _ _ 0%nat "bonmin." _ eq_refl eq_refl). discriminate H.
Qed.
Print Assumptions C311_refuted.
(** Exactly: either FilterSQP was asked for and is not there, and nothing is left behind; or the solver refused its options, it stays, and every later call of
    initialize is content with it although nothing was read. *)
Theorem C311_partial hf dflt ctor built m ops w e l prefix w' : run hf dflt built ops (start ctor m) = Ok (w, e) ->
  step hf dflt built w (Init l prefix true) = Ok (w', true) ->
  i_app (w_itf w) = None /\ i_val (w_itf w') = i_val (w_itf w) /\
  ((hf = false /\ is_asked (solver_asked dflt (nth l (w_lists w) []) prefix) Filter /\ i_app (w_itf w') = None /\ w_lists w' = w_lists w) \/
   exists k, is_asked (solver_asked dflt (nth l (w_lists w) []) prefix) k /\ snd (built k (nth l (w_lists w) [])) = false /\ i_app (w_itf w') = Some (mkApp k l prefix) /\
     forall l2 prefix2 w2 e2, step hf dflt built w' (Init l2 prefix2 true) = Ok (w2, e2) -> e2 = false /\ i_app (w_itf w2) = Some (mkApp k l prefix) /\ i_val (w_itf w2) = i_val (w_itf w)).
Proof.
  intros R S. destruct (i_app (w_itf w)) as [a|] eqn:A.
  { destruct (init_old hf dflt built w l prefix w' true a A S) as [X _]. discriminate. }
  split; auto. unfold step in S. rewrite A in S. apply bind_ok in S as [[v ev] [C S]]. destruct ev; [|discriminate]. injection S as <-.
  apply create_cases in C as (_ & _ & [(_ & Hf & K & L & A' & V & _)|(k & dbg & test & K & _ & C)]).
  - split; auto.
  - cbn zeta in C. destruct C as [(_ & _ & X)|(B & -> & _)]; [discriminate|]. split; [reflexivity|]. right. exists k. split; [exact K|]. split; [exact B|]. split; [reflexivity|].
    intros l2 p2 w2 e2 S2. eapply init_old in S2; [|reflexivity]. destruct S2 as (-> & _ & A2 & V2 & _). auto.
Qed.
Print Assumptions C311_partial.
Example C311_case : exists w,
  step false ex_dflt ex_built (start ex_ctor 1) (SetOpt 0 "bonmin.nlp_solver" 1) = Ok (w, false) /\
  (do ' (w', e) <- step false ex_dflt ex_built w (Init 0 "bonmin." true); Ok (i_app (w_itf w'), e)) = Ok (None, true) /\
  (do ' (w', e) <- run true ex_dflt ex_fails [Init 0 "bonmin." true] (start ex_ctor 1); Ok (i_app (w_itf w'), e)) = Ok (Some (mkApp Ipopt 0 "bonmin."), true).
Proof. eexists. repeat split; vm_compute; reflexivity. Qed.

(** C312 *)
Theorem C312_refuted : ~ C312_full.
Proof.
  intros H. specialize (H true ex_dflt ex_ctor ex_built 1%nat [SetOpt 0 "bonmin.cut_strengthening_type" 1; Init 0 "bonmin." true] _ _ [("bonmin.cut_strengthening_type", 0)] _ _ ex_harmless eq_refl eq_refl eq_refl).
  destruct H as [H _]. apply H; [discriminate|]. vm_compute. reflexivity.
Qed.
Print Assumptions C312_refuted.
Theorem C312_partial hf dflt ctor built m ops w e t w' e' a : run hf dflt built ops (start ctor m) = Ok (w, e) -> i_app (w_itf w) = Some a ->
  step hf dflt built w (ReadFile t) = Ok (w', e') ->
  (strengthen dflt w' a -> i_cut (w_itf w') = Some (a_kind a)) /\ (~ strengthen dflt w' a -> i_cut (w_itf w') = i_cut (w_itf w)).
Proof.
  intros R A S. destruct (run_ok hf dflt built ops _ _ _ (start_ok hf ctor m) R) as [O _].
  destruct (read_file hf dflt built w a _ w' _ O A S) as (_ & w1 & -> & O1 & E1 & L1 & _).
  assert (A1 : i_app (w_itf w1) = Some a) by (rewrite E1; exact A).
  rewrite (extract_cut hf dflt w1 a A1), E1. unfold strengthen. rewrite (extract_wanted hf dflt w1 a "cut_strengthening_type" dflt O1 A1) by (cbn; solve [auto 40|discriminate]).
  destruct (Qeq_bool (wanted dflt (list_of w1 a) (a_prefix a) "cut_strengthening_type") 0) eqn:E.
  - apply Qeq_bool_iff in E. tauto.
  - apply Qeq_bool_neq in E. tauto.
Qed.
Print Assumptions C312_partial.
(** Once on, nothing turns it off. *)
Theorem C312_stays hf dflt built ops w w' e : run hf dflt built ops w = Ok (w', e) -> i_cut (w_itf w) <> None -> i_cut (w_itf w') <> None.
Proof. apply run_cut. Qed.
Print Assumptions C312_stays.
Example C312_case :
  (do ' (w, e) <- run true ex_dflt ex_built [Init 0 "bonmin." true; ReadFile [("cut_strengthening_type", 1)]; ReadFile [("cut_strengthening_type", 0)]] (start ex_ctor 1);
   do ' (w0, e0) <- run true ex_dflt ex_built [Init 0 "bonmin." true; ReadFile [("cut_strengthening_type", 0)]] (start ex_ctor 1);
   Ok (i_cut (w_itf w), i_cut (w_itf w0))) = Ok (Some Ipopt, None).
Proof. vm_compute. reflexivity. Qed.

(** C313: a bound that the NLP solver takes as infinite is infinite for the interface, if the two values have the usual signs; and no other, if they are opposite. *)
Definition C313_claim (low upp inf : Q) : Prop :=
  (low <= 0 -> 0 <= upp -> forall x, x <= low \/ upp <= x -> inf <= Qabs x) /\
  (low == - upp -> 0 <= upp -> forall x, inf <= Qabs x <-> x <= low \/ upp <= x).
Lemma infinity_claim low upp : C313_claim low upp (if Qltb (Qabs upp) (Qabs low) then Qabs upp else Qabs low).
Proof.
  split.
  - intros L U x X. pose proof (Qabs_pos upp U) as Pu. pose proof (Qabs_neg low L) as Pl.
    assert (Hx : - low <= Qabs x \/ upp <= Qabs x).
    { destruct X as [X|X]; [left; rewrite <- Qabs_opp; apply Qle_trans with (- x); [lra|apply Qle_Qabs]|right; apply Qle_trans with x; [lra|apply Qle_Qabs]]. }
    destruct (Qltb (Qabs upp) (Qabs low)) eqn:E; [apply Qltb_lt in E|apply Qltb_ge in E]; destruct Hx; lra.
  - intros L U x. pose proof (Qabs_pos upp U) as Pu. assert (Pl : Qabs low == upp) by (rewrite Qabs_neg by lra; lra).
    assert (E : (if Qltb (Qabs upp) (Qabs low) then Qabs upp else Qabs low) == upp) by (destruct (Qltb (Qabs upp) (Qabs low)); lra).
    rewrite E. destruct (Qlt_le_dec x 0) as [N|N]; [rewrite (Qabs_neg x) by lra|rewrite (Qabs_pos x N)]; split; intros; lra.
Qed.
Theorem C313_read hf dflt ctor built m ops w e t w' e' a : run hf dflt built ops (start ctor m) = Ok (w, e) -> i_app (w_itf w) = Some a ->
  step hf dflt built w (ReadFile t) = Ok (w', e') -> C313_claim (nlp_low dflt w' a) (nlp_upp dflt w' a) (i_inf (w_itf w')).
Proof.
  intros R A S. destruct (run_ok hf dflt built ops _ _ _ (start_ok hf ctor m) R) as [O _].
  destruct (read_file hf dflt built w a _ w' _ O A S) as (_ & w1 & -> & O1 & E1 & L1 & _).
  assert (A1 : i_app (w_itf w1) = Some a) by (rewrite E1; exact A).
  rewrite (extract_inf hf dflt w1 a A1). unfold nlp_low at 1, nlp_upp at 1. rewrite !(extract_wanted hf dflt w1 a _ dflt O1 A1) by (cbn; solve [auto 40|discriminate]).
  apply infinity_claim.
Qed.
Print Assumptions C313_read.
Theorem C313_init hf dflt ctor built m ops w e l prefix w' : harmless built -> run hf dflt built ops (start ctor m) = Ok (w, e) -> i_app (w_itf w) = None ->
  step hf dflt built w (Init l prefix true) = Ok (w', false) ->
  C313_claim (wanted dflt (nth l (w_lists w) []) prefix "nlp_lower_bound_inf") (wanted dflt (nth l (w_lists w) []) prefix "nlp_upper_bound_inf") (i_inf (w_itf w')).
Proof.
  intros H R A S. destruct (run_ok hf dflt built ops _ _ _ (start_ok hf ctor m) R) as [O _].
  destruct (init_new hf dflt built w l prefix w' O H A S) as (k & w1 & _ & O1 & A1 & W & _ & A' & _ & _ & Hi & _).
  rewrite Hi, (extract_inf hf dflt w1 _ A1). unfold nlp_low, nlp_upp. cbn [a_prefix]. rewrite !W by (cbn; auto 40). apply infinity_claim.
Qed.
Print Assumptions C313_init.
Example C313_case :
  (do ' (w, e) <- run true ex_dflt ex_built [Init 0 "bonmin." true; ReadFile [("nlp_upper_bound_inf", 1000 # 1)]] (start ex_ctor 1); Ok (i_inf (w_itf w))) = Ok (1000 # 1).
Proof. vm_compute. reflexivity. Qed.

(** C314 *)
Theorem C314_refuted : ~ C314_full.
Proof.
  intros H. specialize (H true ex_dflt ex_ctor ex_built 1%nat [Init 0 "bonmin." true; SetLin; ReadFile [("bonmin.tiny_element", 1 # 2)]] _ _ _ eq_refl eq_refl).
  vm_compute in H. discriminate H.
Qed.
Print Assumptions C314_refuted.
Theorem C314_partial hf dflt built w w1 e1 ops' w' e' : step hf dflt built w SetLin = Ok (w1, e1) ->
  (forall o, In o ops' -> reads_nothing (match i_app (w_itf w) with Some _ => true | None => false end) o) -> run hf dflt built ops' w1 = Ok (w', e') ->
  i_lin (w_itf w') = Some (tols (w_itf w')).
Proof.
  intros S N R. eapply lin_run; [exact N| |exact R|].
  - unfold step in S. destruct (i_model (w_itf w)); [|discriminate]. injection S as <- _. cbn. destruct (i_app (w_itf w)); discriminate.
  - unfold step in S. destruct (i_model (w_itf w)); [|discriminate]. injection S as <- _. reflexivity.
Qed.
Print Assumptions C314_partial.
Example C314_case :
  (do ' (w, e) <- run true ex_dflt ex_built [Init 0 "bonmin." true; SetLin; SetOpt 0 "bonmin.tiny_element" (1 # 2); Init 0 "x." true] (start ex_ctor 1); Ok (i_lin (w_itf w)))
  = Ok (Some (1 # 100000000, 0, 1 # 100000000, 10000000000 # 1)).
Proof. vm_compute. reflexivity. Qed.
