(** Lemmas for the solver objects. *)
From Verif Require Import Base Arr Itf_Model Nls_Model Nls_Spec Nls_Proofs Slv_Model Slv_Spec.
#[local] Open Scope Z_scope.

(** ** Option lists *)
Lemma oname_eqb_eq a b : oname_eqb a b = true <-> a = b.
Proof.
  split.
  - destruct a, b; cbn; intros H; try discriminate; try reflexivity. apply Nat.eqb_eq in H. congruence.
  - intros ->. destruct b; cbn; try reflexivity. apply Nat.eqb_refl.
Qed.
Lemma oname_eqb_refl a : oname_eqb a a = true.
Proof. apply oname_eqb_eq. reflexivity. Qed.
Lemma oname_eqb_sym a b : oname_eqb a b = oname_eqb b a.
Proof.
  destruct (oname_eqb a b) eqn:E.
  - apply oname_eqb_eq in E. subst. symmetry. apply oname_eqb_refl.
  - destruct (oname_eqb b a) eqn:F; [|reflexivity]. apply oname_eqb_eq in F. subst. rewrite oname_eqb_refl in E. discriminate.
Qed.
Lemma lookup_set o a v c l : lookup o (set a v c l) =
  if oname_eqb o a then match lookup a l with Some (w, false) => Some (w, false) | _ => Some (v, c) end else lookup o l.
Proof.
  unfold set. destruct (oname_eqb o a) eqn:E.
  - apply oname_eqb_eq in E. subst o.
    destruct (lookup a l) as [[w [|]]|] eqn:L; [|exact L|]; cbn [lookup]; rewrite oname_eqb_refl; reflexivity.
  - destruct (lookup a l) as [[w [|]]|] eqn:L; [|reflexivity|]; cbn [lookup]; rewrite E; reflexivity.
Qed.
Lemma lookup_read o : forall f l, lookup o (read_file f l) =
  match lookup o l with
  | Some (w, false) => Some (w, false)
  | x => match first_in o f with Some v => Some (v, false) | None => x end
  end.
Proof.
  induction f as [|[a v] f IH]; intros l.
  - cbn [read_file first_in]. destruct (lookup o l) as [[w [|]]|]; reflexivity.
  - cbn [read_file first_in]. rewrite IH, lookup_set. destruct (oname_eqb o a) eqn:E.
    + apply oname_eqb_eq in E. subst a. destruct (lookup o l) as [[w [|]]|]; reflexivity.
    + reflexivity.
Qed.
Lemma get_default_if o a v l : get o (default_if a v l) = if oname_eqb o a then or_else (get a l) (Some v) else get o l.
Proof.
  unfold default_if. destruct (get a l) as [w|] eqn:G.
  - destruct (oname_eqb o a) eqn:E; [|reflexivity]. apply oname_eqb_eq in E. subst. exact G.
  - unfold get in *. rewrite lookup_set. destruct (oname_eqb o a) eqn:E; [|reflexivity].
    destruct (lookup a l) as [[w [|]]|]; try discriminate. reflexivity.
Qed.
Lemma protected_default_if o a v l w : protected o l = Some w -> protected o (default_if a v l) = Some w.
Proof.
  unfold protected, default_if, get. intros P. destruct (lookup a l) as [[x c]|] eqn:L; [exact P|].
  rewrite lookup_set. destruct (oname_eqb o a) eqn:E; [|exact P]. apply oname_eqb_eq in E. subst. rewrite L in P. discriminate.
Qed.
Lemma protected_set o a v c l w : protected o l = Some w -> protected o (set a v c l) = Some w.
Proof.
  unfold protected. intros P. rewrite lookup_set. destruct (oname_eqb o a) eqn:E; [|exact P]. apply oname_eqb_eq in E. subst.
  destruct (lookup a l) as [[x [|]]|]; try discriminate. exact P.
Qed.
Lemma protected_read o : forall f l w, protected o l = Some w -> protected o (read_file f l) = Some w.
Proof. induction f as [|[a v] f IH]; intros l w P; [exact P|]. apply IH, protected_set, P. Qed.
Lemma protected_get o l w : protected o l = Some w -> get o l = Some w.
Proof. unfold protected, get. destruct (lookup o l) as [[x [|]]|]; congruence. Qed.
Lemma get_set o a v l : get o (set a v true l) = if oname_eqb o a then or_else (protected a l) (Some v) else get o l.
Proof.
  unfold get, protected. rewrite lookup_set. destruct (oname_eqb o a); [|reflexivity]. destruct (lookup a l) as [[x [|]]|]; reflexivity.
Qed.

(** ** Initialize *)
Lemma init_opts f s : let s' := fst (ipo_init f true s) in
  (forall o, get o (i_opts s') = wanted (i_opts s) f o) /\ (forall o w, protected o (read_file f (i_opts s)) = Some w -> protected o (i_opts s') = Some w) /\
  i_log s' = Some (match wanted (i_opts s) f print_level with Some v => int_of v | None => 0 end).
Proof.
  cbv zeta. unfold ipo_init. cbn [fst]. unfold setMinlpDefaults. cbn [i_opts upd_opts i_st i_zero i_strat i_warm i_before i_log i_app i_stats].
  set (l := read_file f (i_opts s)).
  assert (R : forall o, get o l = or_else (protected o (i_opts s)) (or_else (first_in o f) (get o (i_opts s)))).
  { intros o. unfold l, get, protected. rewrite lookup_read. destruct (lookup o (i_opts s)) as [[w [|]]|]; destruct (first_in o f); reflexivity. }
  set (d := default_if honor_original_bounds _ _).
  assert (D : forall o, get o d = match o with print_level => get print_level l | _ => or_else (get o l) (minlp_default o) end).
  { intros o. unfold d. rewrite !get_default_if. destruct o; cbn [oname_eqb minlp_default or_else]; try reflexivity;
    match goal with |- get ?o l = or_else (get ?o l) None => destruct (get o l); reflexivity end. }
  assert (P : forall o w, protected o l = Some w -> protected o d = Some w) by (intros o w Pr; unfold d; repeat apply protected_default_if; exact Pr).
  assert (W : forall o, wanted (i_opts s) f o = or_else (get o l) (minlp_default o)).
  { intros o. unfold wanted. rewrite R. destruct (protected o (i_opts s)); [reflexivity|]. destruct (first_in o f); reflexivity. }
  rewrite (D print_level). destruct (get print_level l) as [v|] eqn:G.
  - cbn [i_opts i_log]. repeat split.
    + intros o. rewrite W, D. destruct o; try reflexivity. rewrite G. reflexivity.
    + exact P.
    + rewrite W, G. reflexivity.
  - cbn [i_opts i_log]. repeat split.
    + intros o. rewrite W, get_set. destruct (oname_eqb o print_level) eqn:E.
      * apply oname_eqb_eq in E. subst o. rewrite G. cbn [or_else minlp_default].
        assert (DP : get print_level d = None) by exact (D print_level). unfold protected, get in *. destruct (lookup print_level d) as [[x c]|]; [discriminate|reflexivity].
      * rewrite D. destruct o; try reflexivity. discriminate.
    + intros o w Pr. apply protected_set, P, Pr.
    + rewrite W, G. reflexivity.
Qed.

(** ** Steps of an Ipopt object *)
Definition solve_res (warm : bool) (p : prob) (a : ans) (s s' : ipo) (r : rstatus) : Prop :=
  i_warm s' = i_warm s /\ i_opts s' = i_opts s /\ i_log s' = i_log s /\
  (moves p -> i_zero s' = false /\ i_before s' = true /\ i_app s' = Some (pb_id p) /\ i_stats s' = Some (a_iter a, a_time a)) /\
  (~ moves p -> i_zero s' = true /\ i_before s' = i_before s /\ i_app s' = i_app s /\ i_stats s' = i_stats s) /\
  (a_abort a = true -> r = provenInfeasible) /\
  (a_abort a = false -> own_answer p a r).
Lemma movesP p : {moves p} + {~ moves p}.
Proof.
  destruct (movable (z_xl (pb_z p)) (z_xu (pb_z p))) eqn:E.
  - left. apply movable_iff, E.
  - right. intros M. apply movable_iff in M. congruence.
Qed.
Lemma code_says_ok c : code_says c (solverReturnStatus c).
Proof. destruct c; cbn; unfold code_says; repeat split; intros; try discriminate; try reflexivity; try (left; reflexivity); try (right; reflexivity); try (destruct H; discriminate). Qed.
Lemma zd_cases p : (moves p /\ zeroDimension (pb_z p) = Ok None) \/
  (~ moves p /\ evaluates p /\ exists r fin, zeroDimension (pb_z p) = Ok (Some (r, fin)) /\
      forall g, z_g (pb_z p) (z_xl (pb_z p)) = Some g ->
        (r = solvedOptimal /\ con_ok (z_gl (pb_z p)) (z_gu (pb_z p)) g) \/ (r = provenInfeasible /\ ~ con_ok (z_gl (pb_z p)) (z_gu (pb_z p)) g)) \/
  (~ moves p /\ ~ evaluates p /\ zeroDimension (pb_z p) = Uninit).
Proof.
  unfold zeroDimension. destruct (movable (z_xl (pb_z p)) (z_xu (pb_z p))) eqn:E.
  - left. split; [apply movable_iff, E|reflexivity].
  - right. assert (N : ~ moves p) by (intros M; apply movable_iff in M; congruence).
    destruct (z_f (pb_z p) (z_xl (pb_z p))) as [v|] eqn:F; [|right; split; [exact N|]; split; [intros [[v Hv] _]; congruence|reflexivity]].
    destruct (z_g (pb_z p) (z_xl (pb_z p))) as [g|] eqn:G; [|right; split; [exact N|]; split; [intros [_ [v' Hv]]; congruence|reflexivity]].
    left. split; [exact N|]. split; [split; eauto|].
    destruct (violated g (z_gl (pb_z p)) (z_gu (pb_z p))) eqn:V.
    + do 2 eexists. split; [reflexivity|]. intros g' [= <-]. right. split; [reflexivity|]. intros C. apply violated_iff in C. congruence.
    + do 2 eexists. split; [reflexivity|]. intros g' [= <-]. left. split; [reflexivity|]. apply violated_iff, V.
Qed.
(** Exact behaviour of a solve: refused, reading unset memory, or done. *)
Lemma solve_cases warm p a s :
  (exists s' r, solve_with warm p a s = Ok (s', r) /\ solve_res warm p a s s' r /\ (moves p \/ evaluates p) /\
     (moves p -> warm = true -> i_before s = true -> i_app s = Some (pb_id p))) \/
  (solve_with warm p a s = Thrown /\ moves p /\ warm = true /\ i_before s = true /\ i_app s <> Some (pb_id p)) \/
  (solve_with warm p a s = Uninit /\ ~ moves p /\ ~ evaluates p).
Proof.
  unfold solve_with. destruct (zd_cases p) as [[M ->] | [[M [EV [r [fin [-> H]]]]] | [M [EV ->]]]]; cbn [bind].
  - unfold app_run.
    assert (K : forall b : bool, (b = true -> i_app s = Some (pb_id p)) ->
      exists s' r, (do s0 <- (Ok (mkI (a_code a) false (i_strat s) (i_warm s) true (i_opts s) (i_log s) (Some (pb_id p)) (Some (a_iter a, a_time a))));
         let s1 := if a_abort a then mkI Infeasible_Problem_Detected (i_zero s0) (i_strat s0) (i_warm s0) (i_before s0) (i_opts s0) (i_log s0) (i_app s0) (i_stats s0) else s0 in
         Ok (s1, solverReturnStatus (i_st s1))) = Ok (s', r) /\ solve_res warm p a s s' r).
    { intros b _. cbn [bind]. cbv zeta. do 2 eexists. split; [reflexivity|]. unfold solve_res.
      destruct (a_abort a); cbn [i_warm i_opts i_log i_zero i_before i_app i_stats i_st].
      all: split; [reflexivity|]. all: split; [reflexivity|]. all: split; [reflexivity|]. all: split; [intros _; repeat split|]. all: split; [intros N; contradiction|].
      - split; [reflexivity|discriminate].
      - split; [discriminate|]. intros _. split; [intros _; apply code_says_ok|intros N; contradiction]. }
    destruct (warm && i_before s)%bool eqn:WB; cbn [andb].
    + apply andb_prop in WB. destruct WB as [W B].
      destruct (i_app s) as [q|] eqn:A.
      * destruct (Nat.eqb q (pb_id p)) eqn:Q; cbn [negb].
        -- apply Nat.eqb_eq in Q. subst q. left. destruct (K true (fun _ => eq_refl)) as [s' [r [E1 E2]]].
           exists s', r. split; [exact E1|]. split; [exact E2|]. split; [left; exact M|]. intros. reflexivity.
        -- right. left. split; [reflexivity|]. split; [exact M|]. split; [exact W|]. split; [exact B|]. intros [= ->]. rewrite Nat.eqb_refl in Q. discriminate.
      * right. left. cbn [negb]. split; [reflexivity|]. split; [exact M|]. split; [exact W|]. split; [exact B|]. discriminate.
    + left. destruct (K false) as [s' [r [E1 E2]]]; [discriminate|]. exists s', r. split; [exact E1|]. split; [exact E2|]. split; [left; exact M|].
      intros _ W B. rewrite W, B in WB. discriminate.
  - left. cbv zeta. cbn [bind]. do 2 eexists. split; [reflexivity|].
    split; [|split; [right; exact EV|intros; contradiction]].
    destruct EV as [_ [g G]]. unfold solve_res. destruct (a_abort a); cbn.
    + repeat split; try reflexivity; try contradiction; try discriminate.
    + repeat split; try reflexivity; try contradiction; try discriminate.
      intros _ g' G'. destruct (H g' G') as [[-> C] | [-> C]]; [left|right]; split; auto; reflexivity.
  - right. right. split; [reflexivity|]. split; assumption.
Qed.

Lemma iops_app : forall l s l', iops s (l ++ l') = (do s1 <- iops s l; iops s1 l').
Proof.
  induction l as [|o l IH]; intros s l'; [reflexivity|]. cbn [iops app].
  destruct (istep s o) as [[s1 r]| | | | | | |]; cbn [bind]; try reflexivity. apply IH.
Qed.
Lemma iops_snoc s l o s' : iops s (l ++ [o]) = Ok s' -> exists s1 r, iops s l = Ok s1 /\ istep s1 o = Ok (s', r).
Proof.
  rewrite iops_app. intros H. destruct (iops s l) as [s1| | | | | | |]; cbn [bind] in H; try discriminate.
  cbn [iops] in H. destruct (istep s1 o) as [[s2 r]| | | | | | |] eqn:E; cbn [bind] in H; try discriminate. injection H as <-. eauto.
Qed.
Lemma istep_solve s p a o s' r : solves p a o -> istep s o = Ok (s', r) ->
  exists w r', r = Some r' /\ solve_with w p a s = Ok (s', r') /\ solve_res w p a s s' r'.
Proof.
  intros [-> | ->] H; cbn in H.
  - unfold OptimizeTNLP in H. destruct (solve_with (i_warm s) p a s) as [[s1 r1]| | | | | | |] eqn:E; cbn in H; try discriminate. injection H as <- <-.
    exists (i_warm s), r1. split; [reflexivity|]. split; [exact E|].
    destruct (solve_cases (i_warm s) p a s) as [[s2 [r2 [E1 [E2 _]]]] | [[E1 _] | [E1 _]]]; rewrite E in E1; try discriminate. injection E1 as <- <-. exact E2.
  - unfold ReOptimizeTNLP in H. destruct (solve_with true p a s) as [[s1 r1]| | | | | | |] eqn:E; cbn in H; try discriminate. injection H as <- <-.
    exists true, r1. split; [reflexivity|]. split; [exact E|].
    destruct (solve_cases true p a s) as [[s2 [r2 [E1 [E2 _]]]] | [[E1 _] | [E1 _]]]; rewrite E in E1; try discriminate. injection E1 as <- <-. exact E2.
Qed.
(** The state as a function of the history. *)
Definition iinv (l : list iop) (s : ipo) : Prop :=
  match last_solve l with
  | None => i_zero s = true \/ i_stats s = None
  | Some (p, a) => (moves p -> i_zero s = false /\ i_stats s = Some (a_iter a, a_time a)) /\ (~ moves p -> i_zero s = true)
  end /\
  (i_before s = true -> exists q, i_app s = Some q /\ last_run q l) /\
  (forall q, last_run q l -> i_before s = true /\ i_app s = Some q) /\
  (i_warm s = true <-> warm_on l).
Lemma last_run_snoc q l o : last_run q (l ++ [o]) <->
  (exists p a, solves p a o /\ moves p /\ pb_id p = q) \/
  (match o with ISolve p _ | IResolve p _ => ~ moves p | IClone => False | IInit _ g => g = false | _ => True end /\ last_run q l).
Proof.
  split.
  - intros (l1 & x & l2 & p & a & E & So & M & I & F). destruct l2 as [|y l2] using rev_ind.
    + apply app_inj_tail in E. destruct E as [-> <-]. left. exists p, a. auto.
    + clear IHl2. replace (l1 ++ x :: l2 ++ [y]) with ((l1 ++ x :: l2) ++ [y]) in E by (rewrite <- app_assoc; reflexivity).
      apply app_inj_tail in E. destruct E as [-> <-]. right. apply Forall_app in F. destruct F as [F1 F2]. inversion F2; subst. split; [assumption|].
      exists l1, x, l2, p, a. auto.
  - intros [(p & a & So & M & I) | [C (l1 & x & l2 & p & a & -> & So & M & I & F)]].
    + exists l, o, [], p, a. auto.
    + exists l1, x, (l2 ++ [o]), p, a. rewrite <- app_assoc. split; [reflexivity|]. repeat (split; [assumption|]). apply Forall_app. split; [exact F|]. constructor; auto.
Qed.
Lemma warm_on_snoc l o : warm_on (l ++ [o]) <-> o = IWarm true \/ (match o with IWarm _ | IClone => False | _ => True end /\ warm_on l).
Proof.
  split.
  - intros (l1 & l2 & E & F). destruct l2 as [|y l2] using rev_ind.
    + apply app_inj_tail in E. destruct E as [_ ->]. left. reflexivity.
    + clear IHl2. replace (l1 ++ IWarm true :: l2 ++ [y]) with ((l1 ++ IWarm true :: l2) ++ [y]) in E by (rewrite <- app_assoc; reflexivity).
      apply app_inj_tail in E. destruct E as [-> ->]. apply Forall_app in F. destruct F as [F1 F2]. inversion F2; subst. right. split; [assumption|]. exists l1, l2. auto.
  - intros [-> | [C (l1 & l2 & -> & F)]].
    + exists l, []. auto.
    + exists l1, (l2 ++ [o]). rewrite <- app_assoc. split; [reflexivity|]. apply Forall_app. split; [exact F|]. constructor; auto.
Qed.
Lemma last_run_nil q : ~ last_run q [].
Proof. intros (l1 & x & l2 & p & a & E & _). destruct l1; discriminate. Qed.
Lemma warm_on_nil : ~ warm_on [].
Proof. intros (l1 & l2 & E & _). destruct l1; discriminate. Qed.
Lemma iinv_solve l s w p a o s' r : solves p a o -> iinv l s -> solve_res w p a s s' r -> iinv (l ++ [o]) s'.
Proof.
  intros So (I1 & I2 & I3 & I4) (R1 & R2 & R3 & R4 & R5 & R6 & R7).
  assert (LS : last_solve (l ++ [o]) = Some (p, a)) by (unfold last_solve; rewrite fold_left_app; destruct So as [-> | ->]; reflexivity).
  unfold iinv. rewrite LS. split; [|split; [|split]].
  - split; intros M; [destruct (R4 M) as (? & ? & ? & ?); auto|destruct (R5 M) as (? & ? & ? & ?); auto].
  - intros B. destruct (movesP p) as [M|M].
    + destruct (R4 M) as (? & ? & ? & ?). exists (pb_id p). split; [assumption|]. apply last_run_snoc. left. exists p, a. auto.
    + destruct (R5 M) as (? & EB & EA & ?). rewrite EB in B. destruct (I2 B) as [q [A L]]. exists q. split; [congruence|]. apply last_run_snoc. right. split; [destruct So as [-> | ->]; exact M|exact L].
  - intros q L. apply last_run_snoc in L. destruct (movesP p) as [M|M].
    + destruct (R4 M) as (? & ? & ? & ?). split; [assumption|]. destruct L as [(p' & a' & So' & M' & <-) | [C _]].
      * destruct So as [-> | ->], So' as [E | E]; try discriminate; injection E as -> ->; assumption.
      * destruct So as [-> | ->]; contradiction.
    + destruct (R5 M) as (? & EB & EA & ?). destruct L as [(p' & a' & So' & M' & <-) | [_ L]].
      * exfalso. destruct So as [-> | ->], So' as [E | E]; try discriminate; injection E as -> ->; contradiction.
      * destruct (I3 q L). rewrite EB, EA. auto.
  - rewrite R1, I4, warm_on_snoc. split; [intros W; right; split; [destruct So as [-> | ->]; exact Logic.I|exact W]|].
    intros [E | [_ W]]; [destruct So as [-> | ->]; discriminate|exact W].
Qed.
Lemma init_fields f g s : let s' := fst (ipo_init f g s) in
  i_st s' = i_st s /\ i_zero s' = i_zero s /\ i_warm s' = i_warm s /\ i_app s' = i_app s /\ i_stats s' = i_stats s /\ i_before s' = (if g then false else i_before s).
Proof.
  cbv zeta. unfold ipo_init. destruct g; cbn [fst]; [|repeat split].
  unfold setMinlpDefaults. cbn [i_opts upd_opts]. destruct (get print_level _); repeat split.
Qed.
Lemma iinv_ok l0 : forall l s, iops (ipo_new l0) l = Ok s -> iinv l s.
Proof.
  induction l as [|o l IH] using rev_ind; intros s H.
  - injection H as <-. unfold iinv. cbn. split; [auto|]. split; [discriminate|]. split; [intros q L; destruct (last_run_nil q L)|].
    split; [discriminate|]. intros W. destruct (warm_on_nil W).
  - apply iops_snoc in H. destruct H as (s1 & r & H1 & H2). specialize (IH s1 H1).
    destruct o as [f g|p a|p a|b| |k|].
    + cbn in H2. injection H2 as <- _. destruct (init_fields f g s1) as (F1 & F2 & F3 & F4 & F5 & F6).
      destruct IH as (I1 & I2 & I3 & I4). unfold iinv. replace (last_solve (l ++ [IInit f g])) with (last_solve l) by (unfold last_solve; rewrite fold_left_app; reflexivity).
      rewrite F2, F3, F4, F5, F6. split; [exact I1|]. split; [|split].
      * intros B. destruct g; [discriminate|]. destruct (I2 B) as [q [A L]]. exists q. split; [exact A|]. apply last_run_snoc. right. auto.
      * intros q L. apply last_run_snoc in L. destruct L as [(p & a & [E | E] & _) | [-> L]]; try discriminate. apply I3, L.
      * rewrite I4, warm_on_snoc. split; [auto|]. intros [E | [_ W]]; [discriminate|exact W].
    + destruct (istep_solve s1 p a _ s r (or_introl eq_refl) H2) as (w & r' & _ & _ & R). eapply iinv_solve; eauto. left. reflexivity.
    + destruct (istep_solve s1 p a _ s r (or_intror eq_refl) H2) as (w & r' & _ & _ & R). eapply iinv_solve; eauto. right. reflexivity.
    + cbn in H2. injection H2 as <- _. destruct IH as (I1 & I2 & I3 & I4). unfold iinv. cbn [enableWarmStart i_zero i_stats i_before i_app i_warm].
      replace (last_solve (l ++ [IWarm b])) with (last_solve l) by (unfold last_solve; rewrite fold_left_app; reflexivity).
      split; [exact I1|]. split; [|split].
      * intros B. destruct (I2 B) as [q [A L]]. exists q. split; [exact A|]. apply last_run_snoc. right. auto.
      * intros q L. apply last_run_snoc in L. destruct L as [(p & a & [E | E] & _) | [_ L]]; try discriminate. apply I3, L.
      * rewrite warm_on_snoc. split; [intros ->; auto|]. intros [[= ->] | [[] _]]. reflexivity.
    + cbn in H2. injection H2 as <- _. unfold iinv. cbn [ipo_clone i_zero i_stats i_before i_app i_warm].
      replace (last_solve (l ++ [IClone])) with (@None (prob * ans)) by (unfold last_solve; rewrite fold_left_app; reflexivity).
      split; [auto|]. split; [discriminate|]. split.
      * intros q L. apply last_run_snoc in L. destruct L as [(p & a & [E | E] & _) | [[] _]]; discriminate.
      * rewrite warm_on_snoc. split; [discriminate|]. intros [E | [[] _]]. discriminate.
    + cbn in H2. injection H2 as <- _. destruct IH as (I1 & I2 & I3 & I4). unfold iinv. cbn [forceSolverOutput upd_opts i_zero i_stats i_before i_app i_warm].
      replace (last_solve (l ++ [IForce k])) with (last_solve l) by (unfold last_solve; rewrite fold_left_app; reflexivity).
      split; [exact I1|]. split; [|split].
      * intros B. destruct (I2 B) as [q [A L]]. exists q. split; [exact A|]. apply last_run_snoc. right. auto.
      * intros q L. apply last_run_snoc in L. destruct L as [(p & a & [E | E] & _) | [_ L]]; try discriminate. apply I3, L.
      * rewrite I4, warm_on_snoc. split; [auto|]. intros [E | [_ W]]; [discriminate|exact W].
    + cbn in H2. unfold setOutputToDefault in H2. destruct (i_log s1) as [k|]; cbn in H2; [|discriminate]. injection H2 as <- _.
      destruct IH as (I1 & I2 & I3 & I4). unfold iinv. cbn [upd_opts i_zero i_stats i_before i_app i_warm].
      replace (last_solve (l ++ [IDefault])) with (last_solve l) by (unfold last_solve; rewrite fold_left_app; reflexivity).
      split; [exact I1|]. split; [|split].
      * intros B. destruct (I2 B) as [q [A L]]. exists q. split; [exact A|]. apply last_run_snoc. right. auto.
      * intros q L. apply last_run_snoc in L. destruct L as [(p & a & [E | E] & _) | [_ L]]; try discriminate. apply I3, L.
      * rewrite I4, warm_on_snoc. split; [auto|]. intros [E | [_ W]]; [discriminate|exact W].
Qed.

(** ** Options over sequences *)
Lemma istep_opts s o s' r : istep s o = Ok (s', r) -> no_init o ->
  i_log s' = i_log s /\ (forall x w, protected x (i_opts s) = Some w -> protected x (i_opts s') = Some w) /\
  (forall x, x <> warm_start_init_point -> x <> print_level -> get x (i_opts s') = get x (i_opts s)) /\
  (forall v, protected print_level (i_opts s') = Some v -> protected print_level (i_opts s) = Some v).
Proof.
  intros H N.
  assert (SV : forall p a w r', solve_res w p a s s' r' -> i_log s' = i_log s /\ i_opts s' = i_opts s) by (intros p a w r' (_ & R2 & R3 & _); auto).
  assert (G : forall a v x, x <> a -> get x (set a v true (i_opts s)) = get x (i_opts s)).
  { intros a v x D. rewrite get_set. destruct (oname_eqb x a) eqn:E; [apply oname_eqb_eq in E; contradiction|reflexivity]. }
  assert (PP : forall a v w, protected print_level (set a v true (i_opts s)) = Some w -> protected print_level (i_opts s) = Some w).
  { intros a v w. unfold protected. rewrite lookup_set. destruct (oname_eqb print_level a) eqn:E; [|auto]. apply oname_eqb_eq in E. subst a.
    destruct (lookup print_level (i_opts s)) as [[x [|]]|]; intros; congruence. }
  destruct o as [f g|p a|p a|b| |k|]; [destruct N| | | | | |].
  - destruct (istep_solve s p a _ s' r (or_introl eq_refl) H) as (w & r' & _ & _ & R). destruct (SV p a w r' R) as [L O]. rewrite L, O. auto.
  - destruct (istep_solve s p a _ s' r (or_intror eq_refl) H) as (w & r' & _ & _ & R). destruct (SV p a w r' R) as [L O]. rewrite L, O. auto.
  - cbn in H. injection H as <- _. cbn [enableWarmStart i_log i_opts]. split; [reflexivity|]. split; [intros; apply protected_set; assumption|]. split; [intros; apply G; assumption|intros v; apply PP].
  - cbn in H. injection H as <- _. cbn [ipo_clone i_log i_opts]. auto.
  - cbn in H. injection H as <- _. cbn [forceSolverOutput upd_opts i_log i_opts]. split; [reflexivity|]. split; [intros; apply protected_set; assumption|]. split; [intros; apply G; assumption|intros v; apply PP].
  - cbn in H. unfold setOutputToDefault in H. destruct (i_log s) as [k|] eqn:L; cbn in H; [|discriminate]. injection H as <- _. cbn [upd_opts i_log i_opts].
    split; [exact L|]. split; [intros; apply protected_set; assumption|]. split; [intros; apply G; assumption|intros v; apply PP].
Qed.
Lemma iops_opts : forall l s s', iops s l = Ok s' -> Forall no_init l ->
  i_log s' = i_log s /\ (forall x w, protected x (i_opts s) = Some w -> protected x (i_opts s') = Some w) /\
  (forall x, x <> warm_start_init_point -> x <> print_level -> get x (i_opts s') = get x (i_opts s)) /\
  (forall v, protected print_level (i_opts s') = Some v -> protected print_level (i_opts s) = Some v).
Proof.
  induction l as [|o l IH]; intros s s' H F; [injection H as <-; auto|].
  cbn [iops] in H. destruct (istep s o) as [[s1 r]| | | | | | |] eqn:E; cbn [bind] in H; try discriminate. inversion F; subst.
  destruct (istep_opts s o s1 r E) as (A1 & A2 & A3 & A4); [assumption|]. destruct (IH s1 s' H) as (B1 & B2 & B3 & B4); [assumption|].
  split; [congruence|]. split; [auto|]. split; [|auto]. intros x D1 D2. rewrite B3, A3; auto.
Qed.
Lemma iops_protected : forall l s s' x w, iops s l = Ok s' -> protected x (i_opts s) = Some w -> protected x (i_opts s') = Some w.
Proof.
  induction l as [|o l IH]; intros s s' x w H P; [injection H as <-; exact P|].
  cbn [iops] in H. destruct (istep s o) as [[s1 r]| | | | | | |] eqn:E; cbn [bind] in H; try discriminate. apply (IH s1 s' x w H).
  destruct o as [f g|p a|p a|b| |k|]; try (eapply istep_opts; [exact E|exact Logic.I|exact P]).
  cbn in E. injection E as <- _. destruct g.
  - destruct (init_opts f s) as (_ & A & _). apply A, protected_read, P.
  - cbn. apply protected_read, P.
Qed.

(** ** SQP objects *)
Lemma pops_app : forall l s l', pops s (l ++ l') = (do s1 <- pops s l; pops s1 l').
Proof.
  induction l as [|o l IH]; intros s l'; [reflexivity|]. cbn [pops app].
  destruct (pstep s o) as [[s1 r]| | | | | | |]; cbn [bind]; try reflexivity. apply IH.
Qed.
Lemma pops_snoc s l o s' : pops s (l ++ [o]) = Ok s' -> exists s1 r, pops s l = Ok s1 /\ pstep s1 o = Ok (s', r).
Proof.
  rewrite pops_app. intros H. destruct (pops s l) as [s1| | | | | | |]; cbn [bind] in H; try discriminate.
  cbn [pops] in H. destruct (pstep s1 o) as [[s2 r]| | | | | | |] eqn:E; cbn [bind] in H; try discriminate. injection H as <-. eauto.
Qed.
Definition cnt (l : list fop) : option (option (nat * Q)) * option (nat * nat) :=
  fold_left (fun '(c, m) o => match o with
                             | FOpt p s n t => (Some (Some (n, t)), Some (p, s))
                             | FReopt _ _ n t => (Some (Some (n, t)), m)
                             | FWarm None p s => (Some None, Some (p, s))
                             | FWarm (Some _) p s => match m with None => (Some None, Some (p, s)) | Some _ => (c, m) end
                             | _ => (c, m) end) l (None, None).
Lemma cnt_made l : snd (cnt l) = made l.
Proof.
  unfold cnt, made. induction l as [|o l IH] using rev_ind; [reflexivity|]. rewrite !fold_left_app. cbn [fold_left].
  destruct (fold_left _ l (None, None)) as [c m] eqn:E. cbn [snd] in IH. subst m. destruct o; try reflexivity.
  destruct w; [|reflexivity]. destruct (fold_left _ l None); reflexivity.
Qed.
Lemma made_snoc l o : made (l ++ [o]) = match o with
  | FOpt p s _ _ | FWarm None p s => Some (p, s)
  | FWarm (Some _) p s => match made l with None => Some (p, s) | Some _ => made l end
  | _ => made l end.
Proof. unfold made. rewrite fold_left_app. reflexivity. Qed.
Lemma counted_snoc l o : counted (l ++ [o]) = match o with
  | FOpt _ _ n t | FReopt _ _ n t => Some (Some (n, t))
  | FWarm None _ _ => Some None
  | FWarm (Some _) _ _ => match made l with None => Some None | Some _ => counted l end
  | _ => counted l end.
Proof.
  rewrite <- cnt_made. unfold counted, cnt. rewrite fold_left_app. cbn [fold_left].
  destruct (fold_left _ l (None, None)) as [c m]. cbn [fst snd]. destruct o; try reflexivity. destruct w; [|reflexivity]. destruct m; reflexivity.
Qed.
Definition finv (l : list fop) (f : fsol) : Prop :=
  match f_cache f with
  | None => made l = None /\ counted l = None
  | Some c => made l = Some (fc_prob c, fc_struct c) /\ fc_use c = false /\
      (exists d, counted l = Some d /\ match d with Some (n, t) => fc_iter c = Some n /\ fc_time c = t | None => fc_iter c = None /\ fc_time c = 0%Q end) /\
      (fc_iprint c = None -> In FDefault l)
  end /\
  f_log f = (if existsb (fun o => match o with FInit => true | _ => false end) l then Some (match fo_level (f_opts f) with Some k => k | None => 1 end) else None).
Lemma existsb_snoc {A} (p : A -> bool) l a : existsb p (l ++ [a]) = (existsb p l || p a)%bool.
Proof. rewrite existsb_app. cbn. rewrite orb_false_r. reflexivity. Qed.
(** What a call does, given what the object's history says. *)
Lemma fstep_inv l f g o f' g' r : finv l f -> fstep f g o = Ok (f', g', r) ->
  finv (l ++ [o]) f' /\ f_opts f' = f_opts f /\
  g_tol g' = (match o with
              | FOpt _ _ _ _ | FWarm None _ _ => tols (f_opts f)
              | FWarm (Some _) _ _ => match made l with None => tols (f_opts f) | Some _ => g_tol g end
              | _ => g_tol g end) /\
  match o with
  | FOpt p str n t => exists ru, r = Some ru /\ r_prob ru = Some p /\ r_struct ru = str /\ r_arrays ru = str /\ r_final ru = p /\ r_tol ru = tols (f_opts f)
                        /\ r_rho ru = 10%Q /\ r_iprint ru = fo_iprint (f_opts f) /\ r_maxiter ru = fo_maxiter (f_opts f)
  | FReopt p str n t => exists ru st, r = Some ru /\ made l = Some (p, st) /\ r_prob ru = Some p /\ r_struct ru = st /\ r_arrays ru = st /\ r_final ru = p
                        /\ r_tol ru = g_tol g /\ r_rho ru = 10%Q
  | _ => r = None
  end.
Proof.
  intros [I1 I2] H. destruct o as [|p str n t|p str n t|w p str| |k|]; cbn [fstep] in H.
  - injection H as <- <- <-. split; [|auto]. split.
    + cbn [f_cache]. rewrite made_snoc, counted_snoc. destruct (f_cache f) as [c|]; [|exact I1]. destruct I1 as (A1 & A2 & A3 & A4). split; [exact A1|]. split; [exact A2|]. split; [exact A3|]. intros E. apply in_or_app. auto.
    + cbn [f_log f_opts]. rewrite existsb_snoc, orb_true_r. reflexivity.
  - assert (NU : match f_cache f with Some c => if fc_use c then (c, g) else initialize (f_opts f) p str | None => initialize (f_opts f) p str end = initialize (f_opts f) p str).
    { destruct (f_cache f) as [c|]; [|reflexivity]. destruct I1 as (_ & -> & _). reflexivity. }
    rewrite NU in H. unfold initialize in H. cbv iota beta in H.
    destruct (f_warm f) as [k|]; cbn in H; injection H as <- <- <-.
    all: split; [|split; [reflexivity|split; [reflexivity|eexists; split; [reflexivity|repeat split]]]].
    all: split; [cbn [f_cache fc_prob fc_struct fc_use fc_iter fc_time fc_iprint]; rewrite made_snoc, counted_snoc; split; [reflexivity|split; [reflexivity|split; [eexists; split; [reflexivity|split; reflexivity]|discriminate]]]
                |cbn [f_log f_opts]; rewrite existsb_snoc, orb_false_r; exact I2].
  - destruct (f_cache f) as [c|] eqn:C; [|discriminate]. destruct I1 as (A1 & A2 & A3 & A4).
    destruct (Nat.eqb p (fc_prob c)) eqn:P; cbn [negb] in H; [|discriminate]. apply Nat.eqb_eq in P. subst p.
    assert (LW : fc_prob (load_ws (f_warm f) c) = fc_prob c /\ fc_struct (load_ws (f_warm f) c) = fc_struct c /\ fc_iprint (load_ws (f_warm f) c) = fc_iprint c
                 /\ fc_maxiter (load_ws (f_warm f) c) = fc_maxiter c) by (destruct (f_warm f); repeat split).
    destruct LW as (L1 & L2 & L3 & L4). unfold callOptimizer in H. rewrite L1, L2, L3, L4 in H.
    destruct (fc_iprint c) as [ip|] eqn:IP; cbn in H; [|discriminate]. injection H as <- <- <-.
    split; [|split; [reflexivity|split; [reflexivity|]]].
    + split.
      * cbn [f_cache fc_prob fc_struct fc_use fc_iter fc_time fc_iprint]. rewrite made_snoc, counted_snoc. split; [exact A1|]. split; [reflexivity|].
        split; [eexists; split; [reflexivity|split; reflexivity]|discriminate].
      * cbn [f_log f_opts]. rewrite existsb_snoc, orb_false_r. exact I2.
    + eexists _, _. split; [reflexivity|]. split; [exact A1|]. repeat split.
  - assert (IL : forall l', (if existsb (fun o => match o with FInit => true | _ => false end) (l ++ [FWarm l' p str]) then Some match fo_level (f_opts f) with Some k => k | None => 1 end else None) = f_log f)
      by (intros l'; rewrite existsb_snoc, orb_false_r; symmetry; exact I2).
    destruct w as [v|].
    + destruct (f_cache f) as [c|] eqn:C; cbn in H; injection H as <- <- <-.
      * destruct I1 as (A1 & A2 & A3 & A4). split; [|split; [reflexivity|split; [rewrite A1; reflexivity|reflexivity]]].
        split; [|cbn [f_log f_opts]; symmetry; apply IL].
        cbn [f_cache]. rewrite made_snoc, counted_snoc, A1. split; [reflexivity|]. split; [exact A2|]. split; [exact A3|]. intros E. apply in_or_app. auto.
      * destruct I1 as (A1 & A2). split; [|split; [reflexivity|split; [rewrite A1; reflexivity|reflexivity]]].
        split; [|cbn [f_log f_opts]; symmetry; apply IL].
        cbn [f_cache fc_prob fc_struct fc_use fc_iter fc_time fc_iprint]. rewrite made_snoc, counted_snoc, A1. split; [reflexivity|]. split; [reflexivity|]. split; [eexists; split; [reflexivity|split; reflexivity]|discriminate].
    + cbn in H. injection H as <- <- <-. split; [|split; [reflexivity|split; reflexivity]].
      split; [|cbn [f_log f_opts]; symmetry; apply IL].
      cbn [f_cache fc_prob fc_struct fc_use fc_iter fc_time fc_iprint]. rewrite made_snoc, counted_snoc. split; [reflexivity|]. split; [reflexivity|]. split; [eexists; split; [reflexivity|split; reflexivity]|discriminate].
  - injection H as <- <- <-. split; [|auto]. split.
    + cbn [f_cache]. rewrite made_snoc, counted_snoc. destruct (f_cache f) as [c|]; [|exact I1]. destruct I1 as (A1 & A2 & A3 & A4). split; [exact A1|]. split; [exact A2|]. split; [exact A3|]. intros E. apply in_or_app. auto.
    + cbn [f_log f_opts]. rewrite existsb_snoc, orb_false_r. exact I2.
  - injection H as <- <- <-. unfold with_iprint. split; [|destruct (f_cache f); auto]. split.
    + rewrite made_snoc, counted_snoc. destruct (f_cache f) as [c|] eqn:C; [|rewrite C; exact I1]. cbn [f_cache fc_prob fc_struct fc_use fc_iter fc_time fc_iprint].
      destruct I1 as (A1 & A2 & A3 & A4). split; [exact A1|]. split; [exact A2|]. split; [exact A3|]. discriminate.
    + rewrite existsb_snoc, orb_false_r. destruct (f_cache f); exact I2.
  - injection H as <- <- <-. unfold with_iprint. split; [|destruct (f_cache f); auto]. split.
    + rewrite made_snoc, counted_snoc. destruct (f_cache f) as [c|] eqn:C; [|rewrite C; exact I1]. cbn [f_cache fc_prob fc_struct fc_use fc_iter fc_time fc_iprint].
      destruct I1 as (A1 & A2 & A3 & A4). split; [exact A1|]. split; [exact A2|]. split; [exact A3|]. intros _. apply in_or_app. right. left. reflexivity.
    + rewrite existsb_snoc, orb_false_r. destruct (f_cache f); exact I2.
Qed.
Lemma calls_snoc i l o : calls i (l ++ [o]) = calls i l ++ match o with PCall j c => if Nat.eqb j i then [c] else [] | _ => [] end.
Proof. unfold calls. rewrite flat_map_app. cbn. rewrite app_nil_r. reflexivity. Qed.
Definition pinv (t0 : Q * Q * Q * Q) (l : list pop) (s : proc) : Prop :=
  map f_opts (p_sol s) = opts_of l /\
  (forall i, (length (p_sol s) <= i)%nat -> calls i l = []) /\
  (forall i f, nth_error (p_sol s) i = Some f -> finv (calls i l) f) /\
  ((g_tol (p_glob s) = t0 /\ forall j, made (calls j l) = None) \/ exists j w, maker j l /\ nth_error (opts_of l) j = Some w /\ g_tol (p_glob s) = tols w).
Lemma nth_error_upd {A} i j (a : A) l : (i < length l)%nat -> nth_error (firstn i l ++ a :: skipn (S i) l) j = if Nat.eqb j i then Some a else nth_error l j.
Proof.
  revert i j; induction l as [|b l IH]; intros i j H; [simpl in H; lia|].
  destruct i as [|i]; [destruct j; reflexivity|]. destruct j as [|j]; [reflexivity|]. cbn. apply IH. cbn in H. lia.
Qed.
Lemma map_upd {A B} (h : A -> B) i (a b : A) l : nth_error l i = Some b -> h a = h b -> map h (firstn i l ++ a :: skipn (S i) l) = map h l.
Proof.
  revert i; induction l as [|c l IH]; intros [|i] N E; cbn in N; try discriminate.
  - injection N as ->. cbn. rewrite E. reflexivity.
  - cbn. f_equal. apply IH; assumption.
Qed.
Lemma opts_of_snoc l o : opts_of (l ++ [o]) = match o with
  | PNew w => opts_of l ++ [w] | PClone i => match nth_error (opts_of l) i with Some w => opts_of l ++ [w] | None => opts_of l end | _ => opts_of l end.
Proof. unfold opts_of. rewrite fold_left_app. reflexivity. Qed.
Lemma maker_keep j l o : maker j l -> (forall k c, o = PCall k c -> ~ makes (calls k l) c) -> maker j (l ++ [o]).
Proof.
  intros (l1 & x & l2 & -> & M & N) K. exists l1, x, (l2 ++ [o]). split; [rewrite <- app_assoc; reflexivity|]. split; [exact M|].
  intros a k o' b E. destruct b as [|y b] using rev_ind.
  - apply app_inj_tail in E. destruct E as [<- ->]. apply (K k o' eq_refl).
  - clear IHb. replace (a ++ PCall k o' :: b ++ [y]) with ((a ++ PCall k o' :: b) ++ [y]) in E by (rewrite <- app_assoc; reflexivity).
    apply app_inj_tail in E. destruct E as [-> _]. apply (N a k o' b eq_refl).
Qed.
Lemma maker_new j l c : makes (calls j l) c -> maker j (l ++ [PCall j c]).
Proof. intros M. exists l, c, []. split; [reflexivity|]. split; [exact M|]. intros a k o' b E. destruct a; discriminate. Qed.
Lemma makes_dec before o : {makes before o} + {~ makes before o}.
Proof. destruct o as [|p s n t|p s n t|w p s| |k|]; cbn; try (left; exact Logic.I); try (right; intros []). destruct w; [|left; exact Logic.I]. destruct (made before); [right; discriminate|left; reflexivity]. Qed.
Lemma pinv_new t0 l s w o : pinv t0 l s -> opts_of (l ++ [o]) = opts_of l ++ [w] -> (match o with PCall _ _ => False | _ => True end) ->
  forall f, f_opts f = w -> finv [] f -> pinv t0 (l ++ [o]) (mkPr (p_sol s ++ [f]) (p_glob s)).
Proof.
  intros (P1 & P2 & P3 & P4) OO NC f FO FI. unfold pinv. cbn [p_sol p_glob].
  assert (CC : forall i, calls i (l ++ [o]) = calls i l) by (intros i; rewrite calls_snoc; destruct o; try contradiction; apply app_nil_r).
  split; [rewrite map_app, OO, P1; cbn; rewrite FO; reflexivity|]. split; [|split].
  - intros i Hi. rewrite app_length in Hi. cbn in Hi. rewrite CC. apply P2. lia.
  - intros i f' N. rewrite CC. destruct (Nat.lt_ge_cases i (length (p_sol s))) as [Hi|Hi].
    + rewrite nth_error_app1 in N by exact Hi. apply P3, N.
    + rewrite nth_error_app2 in N by exact Hi. rewrite (P2 i Hi). destruct (i - length (p_sol s))%nat as [|k]; cbn in N; [injection N as <-; exact FI|]. destruct k; discriminate.
  - destruct P4 as [[T N] | (j & v & M & V & T)].
    + left. split; [exact T|]. intros j. rewrite CC. apply N.
    + right. exists j, v. split; [apply maker_keep; [exact M|intros k c ->; contradiction]|]. split; [|exact T]. rewrite OO. rewrite nth_error_app1; [exact V|]. apply nth_error_Some. congruence.
Qed.
Lemma pinv_ok t0 : forall l s, pops (proc0 t0) l = Ok s -> pinv t0 l s.
Proof.
  induction l as [|o l IH] using rev_ind; intros s H.
  - injection H as <-. unfold pinv, proc0. cbn. split; [reflexivity|]. split; [reflexivity|]. split; [intros [|i]; discriminate|]. left. split; reflexivity.
  - apply pops_snoc in H. destruct H as (s1 & r & H1 & H2). specialize (IH s1 H1). destruct o as [w|i|i c]; cbn [pstep] in H2.
    + injection H2 as <- _. apply (pinv_new t0 l s1 w); [exact IH|apply opts_of_snoc|exact Logic.I|reflexivity|]. repeat split.
    + unfold rd in H2. destruct (nth_error (p_sol s1) i) as [f|] eqn:N; cbn in H2; [|discriminate]. injection H2 as <- _.
      apply (pinv_new t0 l s1 (f_opts f)); [exact IH| |exact Logic.I|reflexivity|repeat split].
      rewrite opts_of_snoc. destruct IH as (P1 & _). rewrite <- P1, nth_error_map, N. reflexivity.
    + unfold rd in H2. destruct (nth_error (p_sol s1) i) as [f|] eqn:N; cbn in H2; [|discriminate].
      destruct (fstep f (p_glob s1) c) as [[[f' g'] r']| | | | | | |] eqn:E; cbn in H2; try discriminate.
      assert (Hi : (i < length (p_sol s1))%nat) by (apply nth_error_Some; congruence).
      rewrite (lset_ok i f' _ Hi) in H2. cbn [bind] in H2. injection H2 as <- _.
      destruct IH as (P1 & P2 & P3 & P4). destruct (fstep_inv _ _ _ _ _ _ _ (P3 i f N) E) as (F1 & F2 & F3 & _).
      assert (OI : nth_error (opts_of l) i = Some (f_opts f)) by (rewrite <- P1, nth_error_map, N; reflexivity).
      unfold pinv. cbn [p_sol p_glob]. rewrite opts_of_snoc. split; [rewrite (map_upd f_opts i f' f) by assumption; exact P1|].
      split; [|split].
      * intros j Hj. change (length (firstn i (p_sol s1) ++ f' :: skipn (S i) (p_sol s1)) <= j)%nat in Hj. rewrite upd_length in Hj by exact Hi. rewrite calls_snoc. destruct (Nat.eqb_spec i j) as [<-|]; [lia|]. rewrite (P2 j Hj). reflexivity.
      * intros j fj Nj. change (nth_error (firstn i (p_sol s1) ++ f' :: skipn (S i) (p_sol s1)) j = Some fj) in Nj. rewrite nth_error_upd in Nj by exact Hi. rewrite calls_snoc. rewrite (Nat.eqb_sym i j). destruct (Nat.eqb_spec j i) as [->|D].
        -- injection Nj as <-. exact F1.
        -- rewrite app_nil_r. apply P3, Nj.
      * destruct (makes_dec (calls i l) c) as [M|M].
        -- right. exists i, (f_opts f). split; [apply maker_new, M|]. split; [exact OI|]. rewrite F3. destruct c as [|p str n t|p str n t|w p str| |k|]; cbn in M; try destruct M; try reflexivity.
           destruct w; [|reflexivity]. rewrite M. reflexivity.
        -- assert (G : g_tol g' = g_tol (p_glob s1)).
           { rewrite F3. destruct c as [|p str n t|p str n t|w p str| |k|]; cbn in M; try reflexivity; try (destruct (M Logic.I)). destruct w; [|destruct (M Logic.I)]. destruct (made (calls i l)); [reflexivity|destruct (M eq_refl)]. }
           destruct P4 as [[T NM] | (j & v & MK & V & T)].
           ++ left. split; [congruence|]. intros j. rewrite calls_snoc. destruct (Nat.eqb_spec i j) as [<-|]; [|rewrite app_nil_r; apply NM].
              rewrite made_snoc. specialize (NM i). destruct c as [|p str n t|p str n t|w p str| |k|]; cbn in M; try exact NM; try (destruct (M Logic.I)). destruct w; [|destruct (M Logic.I)]. destruct (M NM).
           ++ right. exists j, v. split; [|split; [exact V|congruence]]. apply maker_keep; [exact MK|]. intros k c' [= <- <-]. exact M.
Qed.
Lemma pcall_inv t0 l s i c s' r : pops (proc0 t0) l = Ok s -> pstep s (PCall i c) = Ok (s', r) ->
  exists f f' g', nth_error (p_sol s) i = Some f /\ fstep f (p_glob s) c = Ok (f', g', r) /\ finv (calls i l) f /\ nth_error (opts_of l) i = Some (f_opts f) /\
    nth_error (p_sol s') i = Some f'.
Proof.
  intros H E. destruct (pinv_ok t0 l s H) as (P1 & _ & P3 & _). cbn [pstep] in E. unfold rd in E.
  destruct (nth_error (p_sol s) i) as [f|] eqn:N; cbn in E; [|discriminate].
  destruct (fstep f (p_glob s) c) as [[[f' g'] r']| | | | | | |] eqn:F; cbn in E; try discriminate.
  assert (Hi : (i < length (p_sol s))%nat) by (apply nth_error_Some; congruence).
  rewrite (lset_ok i f' _ Hi) in E. cbn [bind] in E. injection E as <- <-. exists f, f', g'. split; [reflexivity|]. split; [exact F|]. split; [apply P3, N|]. split; [rewrite <- P1, nth_error_map, N; reflexivity|].
  cbn [p_sol]. change (nth_error (firstn i (p_sol s) ++ f' :: skipn (S i) (p_sol s)) i = Some f'). rewrite nth_error_upd by exact Hi. rewrite Nat.eqb_refl. reflexivity.
Qed.
