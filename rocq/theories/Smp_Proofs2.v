(** Proofs about the solver of MILP sub-problems: results. *)
From Coq Require Import Qround Lqa.
From Verif Require Import Base Arr Smp_Model Smp_Spec Smp_Proofs.
#[local] Open Scope Q_scope.

Lemma all_rows_nil p : all_rows p [] = p.
Proof. unfold all_rows, with_rows. rewrite app_nil_r. destruct p. reflexivity. Qed.
Lemma store_fits p x s : fits s p -> length x = ncols p -> store (ncols p) x (s_sol s) = Ok (Some (map Some x)).
Proof.
  unfold fits, store. intros F L. rewrite firstn_all2 by lia.
  assert (E : ablit 0 x (match s_sol s with Some a => a | None => fresh (ncols p) end) = Ok (map Some x)).
  { pose proof (ablit0_app x (match s_sol s with Some a => a | None => fresh (ncols p) end) []) as H. rewrite !app_nil_r in H. apply H.
    destruct (s_sol s); [congruence | rewrite fresh_length; congruence]. }
  rewrite E. reflexivity.
Qed.
(** What the answer of a solver makes of the object. *)
Definition by_cbc (p : prob) (a : cbc_ans) (s s' : sub) : Prop :=
  s_low s' = a_bound a /\ s_opt s' = (a_opt a || a_inf a)%bool /\ s_nodes s' = Some (a_nodes a) /\ s_iters s' = Some (a_iters a) /\
  (if Nat.eqb (a_sols a) 0 then s_sol s' = None else store (ncols p) (a_best a) (s_sol s) = Ok (s_sol s')).
Definition by_cpx (p : prob) (b : cpx_ans) (s s' : sub) : Prop :=
  s_low s' = x_bound b /\ s_opt s' = is_optimal (x_stat b) /\ s_iters s' = Some (x_iters b) /\
  (if is_infeasible (x_stat b) then s_sol s' = None else get_mipx (ncols p) b (s_sol s) = Ok (s_sol s')).
Lemma after_cbc_by p a s s' : after_cbc (ncols p) a s = Ok s' -> by_cbc p a s s'.
Proof.
  unfold after_cbc, by_cbc. intros H. apply bind_ok in H. destruct H as (x & E & H). injection H as <-. cbn.
  destruct (a_sols a); cbn; repeat split; auto. congruence.
Qed.
Lemma after_cpx_by p n b q par k s s' : ncols q = n -> after_cpx n b p par k s = Ok s' ->
  by_cpx q b s s' /\ s_nodes s' = Some k /\ s_cpx s' = Some (p, par).
Proof.
  unfold after_cpx, by_cpx. intros <- H. apply bind_ok in H. destruct H as (x & E & H). injection H as <-. cbn.
  destruct (is_infeasible (x_stat b)); cbn; repeat split; auto. congruence.
Qed.
Section Res.
Variable nd : bool.
Variable cbc : prob -> cbc_par -> cbc_ans.
Variable cplex : nat -> prob -> list row -> cpx_par -> cpx_ans.
Variable el : nat -> Q.
Notation find := (find_good_sol cbc cplex el).
Notation opt := (optimize nd cbc cplex).
Notation slv := (solve nd cbc cplex el).
Notation stp := (step nd cbc cplex el).
Notation rn := (run nd cbc cplex el).
Lemma more_shape f : forall k p par t ty a b par', more cplex el f k p par t ty a = Ok (b, par') -> a = cplex k p [] par ->
  exists k', b = cplex k' p [] par' /\ cut_of par' = cut_of par /\ gap_of par' = gap_of par /\ k_primal par' = k_primal par /\ k_epint par' = k_epint par /\
    (is_optimal (x_stat b) = true \/ ty = true /\ b = a \/ x_stat b = SolLim \/ x_stat b = TimeLimInfeas \/ x_stat b = TimeLimFeas \/ t < el k').
Proof.
  induction f as [|f IH]; intros k p par t ty a b par' E A; cbn [more] in E; [discriminate|].
  destruct (negb (is_optimal (x_stat a)) && negb ty && match x_stat a with SolLim | TimeLimInfeas | TimeLimFeas => false | _ => true end && Qle_bool (el k) t)%bool eqn:G.
  - destruct (IH _ _ _ _ _ _ _ _ E eq_refl) as (k' & B & C & D & Pm & Ep & F). exists k'. split; [exact B|]. split; [exact C|]. split; [exact D|]. split; [exact Pm|]. split; [exact Ep|].
    destruct F as [F | [[F F'] | F]]; [auto | | auto].
    rewrite F in G. rewrite andb_false_r in G. cbn in G. discriminate.
  - injection E as <- <-. exists k. split; [exact A|]. do 4 (split; [reflexivity|]).
    apply andb_false_iff in G. destruct G as [G|G]; [apply andb_false_iff in G; destruct G as [G|G]; [apply andb_false_iff in G; destruct G as [G|G]|]|].
    + left. apply negb_false_iff in G. exact G.
    + right. left. apply negb_false_iff in G. auto.
    + right. right. destruct (x_stat a); try discriminate; auto.
    + right. right. right. right. right. destruct (Qlt_le_dec t (el k)) as [L|L]; [exact L|]. apply Qle_bool_iff in L. congruence.
Qed.
Definition cpx_find_par (c : ext) (t : Q) (s : sub) (par : cpx_par) : cpx_par :=
  mkPar (Some t) (Some (1 # 100000000)) (Some c) (Some (s_gap s)) (Some 10%Z) (Some 1000%Z) (k_primal par).
Lemma find_cases f c t s m s' p : problem_of s m p -> find f c t s m = Ok s' ->
  (s_clp s <> None /\ by_cbc p (cbc p (mkCbcPar c t true None)) s s' /\ s_cpx s' = s_cpx s) \/
  (s_clp s = None /\ exists k par, cut_of par = c /\ gap_of par = s_gap s /\ by_cpx p (cplex k p [] par) s s' /\
     s_nodes s' = Some (if is_infeasible (x_stat (cplex k p [] par)) then x_nodes (cplex k p [] par) else x_nodes (cplex k p [] par) + x_nodes (cplex k p [] par))%Z /\
     (is_optimal (x_stat (cplex k p [] par)) = true \/ x_type (cplex k p [] par) = true \/ x_stat (cplex k p [] par) = SolLim \/ x_stat (cplex k p [] par) = TimeLimInfeas \/
        x_stat (cplex k p [] par) = TimeLimFeas \/ t < el k)).
Proof.
  intros P E. unfold find_good_sol in E. unfold problem_of in P. destruct (s_clp s) as [h|] eqn:C.
  - left. split; [discriminate|]. rewrite (look_some _ _ _ P) in E. cbn [bind] in E. split; [apply after_cbc_by, E|]. unfold after_cbc in E.
    apply bind_ok in E. destruct E as (x & _ & E). injection E as <-. reflexivity.
  - right. split; [reflexivity|]. destruct P as (par & P). rewrite P in E. cbv zeta in E. apply bind_ok in E. destruct E as ([b par'] & M & E).
    destruct (more_shape _ _ _ _ _ _ _ _ _ M eq_refl) as (k & B & Cu & Ga & _ & _ & X). subst b. exists k, par'. split; [exact Cu|]. split; [exact Ga|].
    destruct (after_cpx_by p (ncols p) _ p _ _ _ _ eq_refl E) as (Y & N & _). split; [exact Y|]. split; [exact N|].
    destruct X as [X | [[X X'] | X]]; auto. right. left. rewrite X'. exact X.
Qed.
Lemma opt_cases c t s m s' p : problem_of s m p -> opt c t s m = Ok s' ->
  (s_clp s <> None /\ by_cbc p (cbc p (mkCbcPar c t false (Some (s_gap s)))) s s' /\ s_cpx s' = s_cpx s) \/
  (s_clp s = None /\ exists par, cut_of par = c /\ gap_of par = qmax 0 (s_gap s - s_gap s * (1 # 10)) /\ by_cpx p (cplex 0 p [] par) s s' /\ s_nodes s' = Some (x_nodes (cplex 0 p [] par))).
Proof.
  intros P E. unfold optimize in E. unfold problem_of in P. destruct (s_clp s) as [h|] eqn:C.
  - left. split; [discriminate|]. apply bind_ok in E. destruct E as (u & _ & E). rewrite (look_some _ _ _ P) in E. cbn [bind] in E. split; [apply after_cbc_by, E|]. unfold after_cbc in E.
    apply bind_ok in E. destruct E as (x & _ & E). injection E as <-. reflexivity.
  - right. split; [reflexivity|]. destruct P as (par & P). rewrite P in E. cbv zeta in E.
    destruct (after_cpx_by p (ncols p) _ p _ _ _ _ eq_refl E) as (Y & N & _). eexists. split; [|split; [|split; [exact Y | exact N]]]; reflexivity.
Qed.
(** Either way of solving, and whatever the solver. *)
Lemma solves_cases c t s m s' p : problem_of s m p -> solves nd cbc cplex el c t s m s' ->
  (s_clp s <> None /\ exists g, g_cutoff g = c /\ (g_gap g = None \/ g_gap g = Some (s_gap s)) /\ by_cbc p (cbc p g) s s') \/
  (s_clp s = None /\ exists k par, cut_of par = c /\ (gap_of par = s_gap s \/ gap_of par = qmax 0 (s_gap s - s_gap s * (1 # 10))) /\ by_cpx p (cplex k p [] par) s s').
Proof.
  intros P [(f & E) | E].
  - destruct (find_cases _ _ _ _ _ _ _ P E) as [(A & B & _) | (A & k & par & C & D & B & _)]; [left | right]; (split; [exact A|]).
    + eexists. split; [|split; [|exact B]]; [reflexivity | left; reflexivity].
    + exists k, par. auto.
  - destruct (opt_cases _ _ _ _ _ _ P E) as [(A & B & _) | (A & par & C & D & B & _)]; [left | right]; (split; [exact A|]).
    + eexists. split; [|split; [|exact B]]; [reflexivity | right; reflexivity].
    + exists 0%nat, par. auto.
Qed.
Lemma near_mono g g' v w : g <= g' -> near g v w -> near g' v w.
Proof.
  unfold near. intros L H. eapply Qle_trans; [exact H|]. apply Qmult_le_compat_r; [exact L|]. pose proof (Qabs_nonneg v). lra.
Qed.
Lemma gap_le g : 0 <= g -> qmax 0 (g - g * (1 # 10)) <= g.
Proof. intros L. unfold qmax. destruct (Qltb 0 (g - g * (1 # 10))); lra. Qed.
Lemma qmax0_le x g : x <= g -> 0 <= g -> qmax 0 x <= g.
Proof. intros. unfold qmax. destruct (Qltb 0 x); assumption. Qed.
Lemma cbc_sol p g s s' a : honest_cbc cbc p -> fits s p -> by_cbc p (cbc p g) s s' -> s_sol s' = Some a ->
  a_sols (cbc p g) <> 0%nat /\ a = map Some (a_best (cbc p g)) /\ wanted p (g_cutoff g) (a_best (cbc p g)).
Proof.
  intros Hb F (_ & _ & _ & _ & B) A. destruct (Nat.eqb_spec (a_sols (cbc p g)) 0) as [Z|Z]; [congruence|].
  pose proof (hb_sol cbc p Hb g Z) as W. rewrite (store_fits p _ s F) in B by (apply W). split; [exact Z|]. split; [congruence | exact W].
Qed.
Lemma cpx_sol p k par s s' x : honest_cpx cplex p [] -> fits s p -> by_cpx p (cplex k p [] par) s s' -> is_infeasible (x_stat (cplex k p [] par)) = false ->
  x_x (cplex k p [] par) = Some x -> s_sol s' = Some (map Some x) /\ wanted p (cut_of par) x.
Proof.
  intros Hx F (_ & _ & _ & B) N A. rewrite N in B. unfold get_mipx in B. rewrite A in B. pose proof (hx_wanted cplex p [] Hx k par x A) as W.
  rewrite all_rows_nil in W. rewrite (store_fits p _ s F) in B by (apply W). split; [congruence | exact W].
Qed.
Definition odd_end (s : stat) : Prop := s = Unbounded \/ s = DetTimeLimInfeas.
Lemma sol_or_not s : ~ odd_end s -> is_infeasible s = false -> has_solution s = true.
Proof. unfold odd_end. destruct s; cbn; intros; try reflexivity; try discriminate; exfalso; auto. Qed.
Lemma C238_holds c t s m p s' a : problem_of s m p -> honest_cbc cbc p -> honest_cpx cplex p [] -> fits s p ->
  (s_clp s = None -> forall k par, ~ odd_end (x_stat (cplex k p [] par))) ->
  solves nd cbc cplex el c t s m s' -> s_sol s' = Some a -> exists x, a = map Some x /\ wanted p c x.
Proof.
  intros P Hb Hx F Od E A. destruct (solves_cases _ _ _ _ _ _ P E) as [(_ & g & C & _ & B) | (N & k & par & C & _ & B)].
  - destruct (cbc_sol p g s s' a Hb F B A) as (_ & E1 & W). rewrite C in W. eauto.
  - destruct (is_infeasible (x_stat (cplex k p [] par))) eqn:I.
    + destruct B as (_ & _ & _ & B). rewrite I in B. congruence.
    + pose proof (sol_or_not _ (Od N k par) I) as S1. apply (hx_sol cplex p [] Hx) in S1. destruct S1 as (x & X).
      destruct (cpx_sol p k par s s' x Hx F B I X) as (E1 & W). rewrite C in W. exists x. split; [congruence | exact W].
Qed.
Lemma C239_holds c t s m p s' : problem_of s m p -> honest_cbc cbc p -> honest_cpx cplex p [] -> fits s p -> 0 <= s_gap s ->
  (s_clp s = None -> ~ unbounded p) ->
  solves nd cbc cplex el c t s m s' -> s_opt s' = true -> proved p c (s_gap s) s'.
Proof.
  intros P Hb Hx F G U E O. unfold proved. destruct (solves_cases _ _ _ _ _ _ P E) as [(_ & g & C & Gg & B) | (N & k & par & C & Gg & B)].
  - assert (Gle : qmax 0 (match g_gap g with Some x => x | None => 0 end) <= s_gap s) by (apply qmax0_le; [destruct Gg as [-> | ->]; lra | exact G]).
    pose proof B as (_ & Bo & _ & _ & Bs). rewrite O in Bo. symmetry in Bo. apply orb_true_iff in Bo. destruct (s_sol s') as [a|] eqn:A.
    + destruct (cbc_sol p g s s' a Hb F B A) as (Z & E1 & W). rewrite C in W. exists (a_best (cbc p g)). split; [exact E1|]. split; [exact W|].
      intros y Y. destruct Bo as [Bo | Bo].
      * destruct (hb_opt cbc p Hb g y Bo ltac:(rewrite C; exact Y)) as (_ & R). eapply near_mono; [exact Gle | exact R].
      * exfalso. apply (hb_inf cbc p Hb g y Bo). rewrite C. exact Y.
    + intros y Y. rewrite <- C in Y. destruct Bo as [Bo | Bo]; [|exact (hb_inf cbc p Hb g y Bo Y)].
      destruct (hb_opt cbc p Hb g y Bo Y) as (Z & _). destruct (Nat.eqb_spec (a_sols (cbc p g)) 0) as [Z'|Z']; [contradiction|].
      rewrite (store_fits p _ s F) in Bs by (apply (hb_sol cbc p Hb g Z)). discriminate.
  - assert (Gle : qmax 0 (gap_of par) <= s_gap s) by (apply qmax0_le; [destruct Gg as [-> | ->]; [lra | apply gap_le, G] | exact G]).
    pose proof B as (_ & Bo & _ & Bs). rewrite O in Bo. symmetry in Bo.
    destruct (is_infeasible (x_stat (cplex k p [] par))) eqn:I.
    + rewrite Bs. intros y Y. rewrite <- C in Y. rewrite <- (all_rows_nil p) in Y. destruct (x_stat (cplex k p [] par)) eqn:S1; try discriminate.
      * exact (hx_inf cplex p [] Hx k par y S1 Y).
      * destruct (hx_unb cplex p [] Hx k par S1) as [V | V]; [exact (V y Y)|]. rewrite all_rows_nil in V. exact (U N V).
    + assert (S1 : x_stat (cplex k p [] par) = Optimal \/ x_stat (cplex k p [] par) = OptimalTol) by (destruct (x_stat (cplex k p [] par)); try discriminate; auto).
      assert (Hs : has_solution (x_stat (cplex k p [] par)) = true) by (destruct S1 as [-> | ->]; reflexivity).
      apply (hx_sol cplex p [] Hx) in Hs. destruct Hs as (x & X). destruct (cpx_sol p k par s s' x Hx F B I X) as (E1 & W). rewrite E1, <- C. exists x. split; [reflexivity|].
      split; [exact W|]. intros y Y. eapply near_mono; [exact Gle|]. eapply (hx_opt cplex p [] Hx); eauto. rewrite all_rows_nil. exact Y.
Qed.
Lemma C240_holds c t s m p s' y : problem_of s m p -> honest_cbc cbc p -> honest_cpx cplex p [] ->
  solves nd cbc cplex el c t s m s' -> wanted p c y -> ext_le (s_low s') (value p y).
Proof.
  intros P Hb Hx E Y. destruct (solves_cases _ _ _ _ _ _ P E) as [(_ & g & C & _ & B) | (N & k & par & C & _ & B)].
  - destruct B as (-> & _). apply (hb_bound cbc p Hb). rewrite C. exact Y.
  - destruct B as (-> & _). apply (hx_bound cplex p [] Hx). rewrite C, all_rows_nil. exact Y.
Qed.
(** ** The loop of runs ends *)
Lemma more_ends n : forall d k p par t ty a, 0 < d -> (forall j, el j + d <= el (S j)) -> t < el k + inject_Z (Z.of_nat n) * d ->
  more cplex el (S n) k p par t ty a <> Diverges.
Proof.
  induction n as [|n IH]; intros d k p par t ty a D M T; cbn [more].
  - assert (L : Qle_bool (el k) t = false). { destruct (Qle_bool (el k) t) eqn:E; [|reflexivity]. apply Qle_bool_iff in E. change (inject_Z (Z.of_nat 0)) with 0 in T. lra. }
    rewrite L, andb_false_r. discriminate.
  - destruct (_ && _)%bool; [|discriminate]. apply (IH d); [exact D | exact M|].
    rewrite Nat2Z.inj_succ in T. unfold Z.succ in T. rewrite inject_Z_plus in T. pose proof (M k). change (inject_Z 1) with 1 in T. lra.
Qed.
Lemma runs_bound (t0 t d : Q) : 0 < d -> exists n, t < t0 + inject_Z (Z.of_nat n) * d.
Proof.
  intros D. exists (Z.to_nat (Qceiling (Qabs ((t - t0) / d)) + 1)).
  pose proof (Qle_ceiling (Qabs ((t - t0) / d))) as C. pose proof (Qabs_nonneg ((t - t0) / d)) as N.
  assert (Z0 : (0 <= Qceiling (Qabs ((t - t0) / d)))%Z). { rewrite Zle_Qle. change (inject_Z 0) with 0. lra. }
  rewrite Z2Nat.id by lia. rewrite inject_Z_plus. change (inject_Z 1) with 1. pose proof (Qle_Qabs ((t - t0) / d)) as A.
  assert (E : (t - t0) == ((t - t0) / d) * d) by (field; lra).
  assert (Lt : (t - t0) / d < inject_Z (Qceiling (Qabs ((t - t0) / d))) + 1) by lra.
  apply (Qmult_lt_compat_r _ _ d D) in Lt. lra.
Qed.
Lemma more_mono n : forall k p par t ty a r n', more cplex el n k p par t ty a = Ok r -> (n <= n')%nat -> more cplex el n' k p par t ty a = Ok r.
Proof.
  induction n as [|n IH]; intros k p par t ty a r n' E L; cbn [more] in E; [discriminate|]. destruct n' as [|n']; [lia|]. cbn [more].
  destruct (_ && _)%bool; [|exact E]. apply (IH _ _ _ _ _ _ _ _ E). lia.
Qed.
Lemma C241_ends_holds d c t s m : 0 < d -> (forall k, el k + d <= el (S k)) -> exists n, forall f, (n <= f)%nat -> find f c t s m <> Diverges.
Proof.
  intros D M. destruct (runs_bound (el 0%nat) t d D) as (n & N). exists (S n). intros f L E. unfold find_good_sol in E. destruct (s_clp s) as [h|].
  - unfold look in E. destruct (c_prob _) as [p|]; [|discriminate]. cbn [bind] in E.
    destruct (after_cbc_oc (ncols p) (cbc p (mkCbcPar c t true None)) s) as [(s' & F & _) | (F & _)]; rewrite F in E; discriminate.
  - destruct (s_cpx s) as [[p par]|]; [|discriminate]. cbv zeta in E.
    match type of E with context [more cplex el f 0%nat p ?r t ?y ?a] => pose proof (more_ends n d 0%nat p r t y a D M N) as K; destruct (more_oc cplex el (S n) 0%nat p r t y a) as [(b & par' & G) | G]; [|contradiction] end.
    rewrite (more_mono _ _ _ _ _ _ _ _ _ G L) in E. cbn [bind] in E.
    match type of E with context [after_cpx ?n ?a ?q ?r ?k s] => destruct (after_cpx_oc n a q r k s) as [(s' & F & _) | (F & _)]; rewrite F in E; discriminate end.
Qed.
Lemma C241_exit_holds f c t s m p s' : problem_of s m p -> s_clp s = None -> honest_cpx cplex p [] -> fits s p -> find f c t s m = Ok s' ->
  s_opt s' = true \/ (exists x, s_sol s' = Some (map Some x) /\ wanted p c x) \/ (exists k par, x_stat (cplex k p [] par) = TimeLimInfeas) \/ exists k, t < el k.
Proof.
  intros P N Hx F E. destruct (find_cases _ _ _ _ _ _ _ P E) as [(A & _) | (_ & k & par & C & _ & B & _ & X)]; [congruence|].
  assert (Sol : has_solution (x_stat (cplex k p [] par)) = true -> exists x, s_sol s' = Some (map Some x) /\ wanted p c x).
  { intros H. assert (I : is_infeasible (x_stat (cplex k p [] par)) = false) by (destruct (x_stat (cplex k p [] par)); try discriminate; reflexivity).
    apply (hx_sol cplex p [] Hx) in H. destruct H as (x & H). exists x. rewrite <- C. exact (cpx_sol p k par s s' x Hx F B I H). }
  destruct X as [X | [X | [X | [X | [X | X]]]]].
  - left. destruct B as (_ & -> & _). exact X.
  - right. left. apply Sol. rewrite <- (hx_type cplex p [] Hx). exact X.
  - right. left. apply Sol. rewrite X. reflexivity.
  - right. right. left. eauto.
  - right. left. apply Sol. rewrite X. reflexivity.
  - right. right. right. eauto.
Qed.
(** ** Lazy constraints *)
Definition one_sided (r : row) : Prop := w_up r = PInf \/ w_lo r = MInf.
Lemma as_lazy_one r : one_sided r -> as_lazy r = r.
Proof. unfold one_sided, as_lazy, lazy_row. destruct r as [co lo up]. cbn. intros [-> | ->]; cbn; [reflexivity|]. destruct up; reflexivity. Qed.
Lemma as_lazy_all cuts : Forall one_sided cuts -> map as_lazy cuts = cuts.
Proof. induction 1 as [|r l H _ IH]; cbn; [reflexivity|]. rewrite IH, as_lazy_one by exact H. reflexivity. Qed.
Lemma lazy_core (base cuts : list row) : firstn (length (base ++ cuts) - length cuts) (base ++ cuts) = base.
Proof. rewrite app_length, Nat.add_sub, firstn_app, Nat.sub_diag, firstn_all. cbn. apply app_nil_r. Qed.
Lemma lazy_shape c t cuts base s m p par s' : s_clp s = None -> s_cpx s = Some (p, par) -> p_rows p = base ++ cuts -> optimize_lazy nd cbc cplex c t cuts s m = Ok s' ->
  exists par', cut_of par' = c /\ gap_of par' = s_gap s /\ s_cpx s' = Some (with_rows p (base ++ map as_lazy cuts), par') /\
    by_cpx p (cplex 0 (with_rows p base) (map as_lazy cuts) par') s s' /\ s_nodes s' = Some (x_nodes (cplex 0 (with_rows p base) (map as_lazy cuts) par')).
Proof.
  intros C X R E. unfold optimize_lazy in E. rewrite C, X in E. cbv zeta in E. rewrite R, lazy_core in E. cbn [p_rows with_rows] in E.
  destruct (after_cpx_by _ _ _ p _ _ _ _ eq_refl E) as (B & N & K). eexists. split; [|split; [|split; [exact K | split; [exact B | exact N]]]]; reflexivity.
Qed.
Lemma C243_holds c t cuts base s m p par s' : s_clp s = None -> s_cpx s = Some (p, par) -> p_rows p = base ++ cuts -> Forall one_sided cuts ->
  optimize_lazy nd cbc cplex c t cuts s m = Ok s' ->
  (exists par', s_cpx s' = Some (p, par')) /\
  (honest_cpx cplex (with_rows p base) cuts -> fits s p -> 0 <= s_gap s -> ~ unbounded p -> s_opt s' = true -> proved p c (s_gap s) s') /\
  (honest_cpx cplex (with_rows p base) cuts -> forall y, wanted p c y -> ext_le (s_low s') (value p y)).
Proof.
  intros C X R O E. destruct (lazy_shape _ _ _ _ _ _ _ _ _ C X R E) as (par' & Cu & Ga & K & B & _). rewrite (as_lazy_all cuts O) in *.
  assert (Rp : with_rows p (base ++ cuts) = p) by (rewrite <- R; destruct p; reflexivity).
  assert (Ra : all_rows (with_rows p base) cuts = p) by (unfold all_rows; cbn [p_rows with_rows]; rewrite <- R; destruct p; reflexivity).
  rewrite Rp in K. set (b := cplex 0 (with_rows p base) cuts par') in *. split; [eauto|]. split.
  - intros Hx F G U Op. unfold proved. pose proof B as (_ & Bo & _ & Bs). rewrite Op in Bo. symmetry in Bo.
    destruct (is_infeasible (x_stat b)) eqn:I.
    + rewrite Bs. intros y Y. rewrite <- Cu, <- Ra in Y. destruct (x_stat b) eqn:S1; try discriminate.
      * exact (hx_inf _ _ _ Hx 0%nat par' y S1 Y).
      * destruct (hx_unb _ _ _ Hx 0%nat par' S1) as [V | V]; [exact (V y Y)|]. rewrite Ra in V. exact (U V).
    + assert (S1 : x_stat b = Optimal \/ x_stat b = OptimalTol) by (destruct (x_stat b); try discriminate; auto).
      assert (Hs : has_solution (x_stat b) = true) by (destruct S1 as [-> | ->]; reflexivity).
      apply (hx_sol _ _ _ Hx) in Hs. destruct Hs as (x & Xx). pose proof (hx_wanted _ _ _ Hx _ _ _ Xx) as W. rewrite Ra, Cu in W.
      unfold get_mipx in Bs. fold b in Xx. rewrite Xx in Bs. rewrite (store_fits p _ s F) in Bs by (apply W). injection Bs as <-. exists x. split; [reflexivity|]. split; [exact W|].
      intros y Y. apply (near_mono (qmax 0 (gap_of par'))); [rewrite Ga; apply qmax0_le; [lra | exact G]|]. eapply (hx_opt _ _ _ Hx 0%nat par' y x S1); [rewrite Ra, Cu; exact Y | exact Xx].
  - intros Hx y Y. destruct B as (-> & _). apply (hx_bound _ _ _ Hx 0%nat par' y). rewrite Ra, Cu. exact Y.
Qed.
(** ** Parameters *)
Definition par_of (s : sub) : option cpx_par := match s_cpx s with Some (_, par) => Some par | None => None end.
Definition clean (s : sub) : Prop := forall par, par_of s = Some par -> k_primal par = false.
Definition untouched (s : sub) : Prop := forall par, par_of s = Some par -> s_plan s = GetOptimum -> k_epint par = None /\ k_sols par = None /\ k_nodes par = None.
Lemma find_forget f c t s m : clean s -> s_clp s = None -> find f c t s m = find f c t (forget s) m.
Proof.
  intros C N. unfold find_good_sol, forget. cbn [s_clp s_cpx s_gap]. rewrite N. destruct (s_cpx s) as [[p par]|] eqn:X; [|reflexivity]. cbv zeta.
  rewrite (C par) by (unfold par_of; rewrite X; reflexivity). cbn [k_primal no_par]. destruct (more _ _ _ _ _ _ _ _ _) as [[b par']| | | | | | |]; try reflexivity.
  cbn [bind]. unfold after_cpx. cbn. rewrite N. reflexivity.
Qed.
Lemma opt_forget c t s m : clean s -> untouched s -> s_plan s = GetOptimum -> s_clp s = None -> opt c t s m = opt c t (forget s) m.
Proof.
  intros C U Pl N. unfold optimize, forget. cbn [s_clp s_cpx s_gap]. rewrite N. destruct (s_cpx s) as [[p par]|] eqn:X; [|reflexivity]. cbv zeta.
  rewrite (C par) by (unfold par_of; rewrite X; reflexivity). destruct (U par ltac:(unfold par_of; rewrite X; reflexivity) Pl) as (-> & -> & ->). unfold after_cpx. cbn. rewrite N. reflexivity.
Qed.
Lemma forget_id s : s_cpx s = None -> forget s = s.
Proof. intros X. unfold forget. rewrite X. destruct s. cbn in *. congruence. Qed.
Lemma alike_refl a : alike a a.
Proof. destruct a; cbn; try reflexivity. unfold same_results. auto. Qed.
Lemma clean_find f c t s m s' : find f c t s m = Ok s' -> clean s -> clean s'.
Proof.
  intros E C par' P. unfold find_good_sol in E. destruct (s_clp s) as [h|].
  - apply bind_ok in E. destruct E as (p & _ & E). unfold after_cbc in E. apply bind_ok in E. destruct E as (x & _ & E). injection E as <-. apply C. exact P.
  - destruct (s_cpx s) as [[p par]|] eqn:X; [|discriminate]. cbv zeta in E. apply bind_ok in E. destruct E as ([b par2] & M & E).
    destruct (more_shape _ _ _ _ _ _ _ _ _ M eq_refl) as (_ & _ & _ & _ & Pm & _).
    destruct (after_cpx_by _ _ _ p _ _ _ _ eq_refl E) as (_ & _ & K). unfold par_of in P. rewrite K in P. injection P as <-. rewrite Pm. cbn. apply C. unfold par_of. rewrite X. reflexivity.
Qed.
Lemma clean_opt c t s m s' : opt c t s m = Ok s' -> (clean s -> clean s') /\ (s_plan s = GetOptimum -> untouched s -> untouched s').
Proof.
  intros E. pose proof (kept_opt _ _ _ _ _ _ _ _ E) as (_ & _ & _ & _ & Pl & _). unfold optimize in E. destruct (s_clp s) as [h|].
  - apply bind_ok in E. destruct E as (u & _ & E). apply bind_ok in E. destruct E as (p & _ & E). unfold after_cbc in E. apply bind_ok in E. destruct E as (x & _ & E). injection E as <-.
    split; [intros C par P; apply C; exact P | intros _ U par P; apply U; exact P].
  - destruct (s_cpx s) as [[p par]|] eqn:X; [|discriminate]. cbv zeta in E.
    destruct (after_cpx_by _ _ _ p _ _ _ _ eq_refl E) as (_ & _ & K). split.
    + intros C par' P. unfold par_of in P. rewrite K in P. injection P as <-. cbn. apply C. unfold par_of. rewrite X. reflexivity.
    + intros G U par' P _. unfold par_of in P. rewrite K in P. injection P as <-. cbn. apply (U par); [unfold par_of; rewrite X; reflexivity | exact G].
Qed.
Definition pars (b : bool) (w : world) : Prop := forall i s, obj_at w i s -> clean s /\ (b = true -> untouched s).
Lemma pars_step b w o w' : pars b w -> (b = true -> only_solves [o]) -> stp w o = Ok w' -> pars b w'.
Proof.
  intros I On E.
  assert (Put : forall m i s', (clean s' /\ (b = true -> untouched s')) -> pars b (mkWorld m (put i (Some s') (subs w)))).
  { intros m i s' C j t J. apply obj_put in J. destruct J as [[-> ->] | [_ J]]; [exact C | exact (I j t J)]. }
  assert (Add : forall m s', (clean s' /\ (b = true -> untouched s')) -> pars b (mkWorld m (subs w ++ [Some s']))).
  { intros m s' C j t J. apply obj_snoc in J. destruct J as [[_ ->] | J]; [exact C | exact (I j t J)]. }
  assert (Sm : forall s s', par_of s' = par_of s \/ par_of s' = Some no_par \/ par_of s' = None -> s_plan s' = s_plan s -> clean s /\ (b = true -> untouched s) -> clean s' /\ (b = true -> untouched s')).
  { intros s s' P Pl (C & U). split.
    - intros par Q1. destruct P as [P | [P | P]]; rewrite P in Q1; [apply C, Q1 | injection Q1 as <-; reflexivity | discriminate].
    - intros B par Q1 Q2. destruct P as [P | [P | P]]; rewrite P in Q1; [apply (U B); congruence | injection Q1 as <-; auto | discriminate]. }
  assert (St : forall lp s m s', set_lp nd lp s (heap w) = Ok (m, s') -> clean s /\ (b = true -> untouched s) -> clean s' /\ (b = true -> untouched s')).
  { intros lp s m s' X. unfold set_lp in X. destruct (s_cpx s) as [[q par]|] eqn:Y.
    - destruct lp; [|discriminate]. apply bind_ok in X. destruct X as (p & _ & X). injection X as _ <-. apply Sm; [|reflexivity]. left. unfold par_of. rewrite Y. reflexivity.
    - apply bind_ok in X. destruct X as (m1 & _ & X). destruct lp.
      + apply bind_ok in X. destruct X as (p & _ & X). injection X as _ <-. apply Sm; [|reflexivity]. auto.
      + destruct nd; [|discriminate]. injection X as _ <-. apply Sm; [|reflexivity]. auto. }
  destruct o as [p|h p|h|cpx pl gap|i|i|i lp|i p|i f c t|i f c t|i c t]; cbn [step] in E.
  - injection E as <-. exact I.
  - destruct (nth h (heap w) dcell) as [[q|] [|]]; injection E as <-; exact I.
  - destruct (nth h (heap w) dcell) as [[q|] [|]]; injection E as <-; exact I.
  - destruct cpx; cbn in E; injection E as <-; apply Add; split; try (intros par P; cbn in P; first [discriminate | injection P as <-; reflexivity]);
      intros _ par P; cbn in P; first [discriminate | injection P as <-; auto].
  - apply on_ok in E. destruct E as [[_ ->] | (s & H & E)]; [exact I|]. apply bind_ok in E. destruct E as ([m s'] & E & F). injection F as <-. apply Add.
    apply (Sm s); [| |exact (I i s H)]; unfold copy in E; (destruct (s_clp s); [destruct (s_own s)|]; [apply bind_ok in E; destruct E as (p & _ & E)| |]; injection E as _ <-);
      cbn; try reflexivity; unfold par_of; cbn; destruct (s_cpx s) as [[q par]|]; auto.
  - apply on_ok in E. destruct E as [[_ ->] | (s & H & E)]; [exact I|]. apply bind_ok in E. destruct E as (m & E & F). injection F as <-.
    intros j u J. apply obj_del in J. apply (I j u). apply J.
  - destruct lp as [h|].
    + destruct (nth h (heap w) dcell) as [[q|] [|]]; try (injection E as <-; exact I).
      apply on_ok in E. destruct E as [[_ ->] | (s & H & E)]; [exact I|]. apply bind_ok in E. destruct E as ([m s'] & E & F). injection F as <-. apply Put. eapply St; [exact E | exact (I i s H)].
    + apply on_ok in E. destruct E as [[_ ->] | (s & H & E)]; [exact I|]. apply bind_ok in E. destruct E as ([m s'] & E & F). injection F as <-. apply Put. eapply St; [exact E | exact (I i s H)].
  - apply on_ok in E. destruct E as [[_ ->] | (s & H & E)]; [exact I|]. destruct (s_clp s) as [h|].
    + apply bind_ok in E. destruct E as (q & _ & E). injection E as <-. exact I.
    + destruct (s_cpx s) as [[q par]|] eqn:X; [|discriminate]. injection E as <-. apply Put. apply (Sm s); [left; unfold par_of; cbn; rewrite X; reflexivity | reflexivity | exact (I i s H)].
  - apply on_ok in E. destruct E as [[_ ->] | (s & H & E)]; [exact I|]. apply bind_ok in E. destruct E as (s' & E & F). injection F as <-. apply Put.
    destruct (I i s H) as (C & U). unfold solve in E. destruct (s_plan s) eqn:Pl.
    + split; [eapply clean_find; eauto|]. intros _ par _ G. apply kept_find in E. destruct E as (_ & _ & _ & _ & K & _). congruence.
    + destruct (clean_opt _ _ _ _ _ E) as (K1 & K2). split; [auto | intros B; apply K2; auto].
  - apply on_ok in E. destruct E as [[_ ->] | (s & H & E)]; [exact I|]. apply bind_ok in E. destruct E as (s' & E & F). injection F as <-. apply Put.
    destruct (I i s H) as (C & U). split; [eapply clean_find; eauto|]. intros B. destruct (On B _ (or_introl eq_refl)).
  - apply on_ok in E. destruct E as [[_ ->] | (s & H & E)]; [exact I|]. apply bind_ok in E. destruct E as (s' & E & F). injection F as <-. apply Put.
    destruct (I i s H) as (C & U). split; [apply (clean_opt _ _ _ _ _ E); exact C|]. intros B. destruct (On B _ (or_introl eq_refl)).
Qed.
Lemma pars_run b ops : forall w w', pars b w -> (b = true -> only_solves ops) -> rn ops w = Ok w' -> pars b w'.
Proof.
  induction ops as [|o r IH]; intros w w' I On E; cbn [run] in E; [injection E as <-; exact I|].
  apply bind_ok in E. destruct E as (w1 & S1 & E). eapply IH; [| |exact E].
  - eapply pars_step; eauto. intros B x [<- | []]. apply (On B). left. reflexivity.
  - intros B x X. apply (On B). right. exact X.
Qed.
Lemma pars_start b : pars b start.
Proof. intros [|i] s H; discriminate. Qed.
Lemma C244_holds ops w i s f c t : rn ops start = Ok w -> obj_at w i s ->
  alike (find f c t s (heap w)) (find f c t (forget s) (heap w)) /\
  (s_clp s <> None -> alike (opt c t s (heap w)) (opt c t (forget s) (heap w))) /\
  (only_solves ops -> alike (slv f c t s (heap w)) (slv f c t (forget s) (heap w))).
Proof.
  intros R H. pose proof (inv_run _ _ _ _ _ _ _ inv_start R) as I.
  assert (Id : s_clp s <> None -> forget s = s). { intros N. apply forget_id. destruct (s_clp s) as [h|] eqn:C; [|congruence]. apply (i_ptr w I i s h H C). }
  assert (Cl : clean s). { apply (pars_run false ops start w (pars_start _) ltac:(discriminate) R i s H). }
  assert (Fi : alike (find f c t s (heap w)) (find f c t (forget s) (heap w))).
  { destruct (s_clp s) as [h|] eqn:C; [rewrite Id by congruence; apply alike_refl|]. rewrite <- find_forget by assumption. apply alike_refl. }
  split; [exact Fi|]. split; [intros N; rewrite (Id N); apply alike_refl|].
  intros On. unfold solve. change (s_plan (forget s)) with (s_plan s). destruct (s_plan s) eqn:Pl; [exact Fi|].
  destruct (s_clp s) as [h|] eqn:C; [rewrite Id by congruence; apply alike_refl|].
  assert (U : untouched s). { apply (pars_run true ops start w (pars_start _) (fun _ => On) R i s H). reflexivity. }
  rewrite <- opt_forget by assumption. apply alike_refl.
Qed.
(** ** A new LP *)
Definition results (s : sub) : ext * bool * option (arr Q) := (s_low s, s_opt s, s_sol s).
Lemma C245_set_holds ops w i h p s w' : rn ops start = Ok w -> obj_at w i s -> of_client w h -> c_prob (nth h (heap w) dcell) = Some p -> stp w (OSet i (Some h)) = Ok w' ->
  exists s', obj_at w' i s' /\ problem_of s' (heap w') p /\ results s' = (MInf, false, None) /\ s_own s' = false.
Proof.
  intros R H C P E. pose proof (inv_run _ _ _ _ _ _ _ inv_start R) as I. cbn [step] in E.
  assert (N : nth h (heap w) dcell = mkCell (Some p) true). { unfold of_client in C. destruct (nth h (heap w) dcell) as [a b]. cbn in *. congruence. }
  rewrite N in E. unfold on in E. unfold obj_at in H. rewrite H in E. apply bind_ok in E. destruct E as ([m s'] & E & F). injection F as <-. exists s'. split; [eapply obj_put_same; exact H|]. cbn [heap].
  unfold set_lp in E. destruct (s_cpx s) as [[q par]|] eqn:X.
  - rewrite (look_some h (heap w) p P) in E. cbn [bind] in E. injection E as <- <-. split; [unfold problem_of; cbn; eauto|]. split; [reflexivity|]. cbn.
    destruct (s_own s) eqn:O; [|reflexivity]. destruct (i_own w I i s H O) as (k & K & _). destruct (i_ptr w I i s k H K) as (_ & _ & Y). congruence.
  - apply bind_ok in E. destruct E as (m1 & F & E). apply bind_ok in E. destruct E as (q & L & E). injection E as <- <-. split; [|auto].
    unfold problem_of. cbn. apply look_ok in L. rewrite L. destruct (s_own s) eqn:O; [|injection F as <-; congruence].
    destruct (i_own w I i s H O) as (k & K & _). rewrite K in F. apply free_ok in F. destruct F as (-> & _). rewrite put_other in L; [congruence|].
    intros <-. destruct (i_ptr w I i s h H K) as (_ & G & _). rewrite N, O in G. discriminate.
Qed.
Definition touches (o : op) (i : nat) : Prop :=
  match o with ODestroy j | OSet j _ | OSolve j _ _ _ | OFind j _ _ _ | OOpt j _ _ => j = i | _ => False end.
Lemma C245_frame_holds w o w' i s : stp w o = Ok w' -> obj_at w i s -> ~ touches o i -> exists s', obj_at w' i s' /\ results s' = results s /\ s_nodes s' = s_nodes s /\ s_clp s' = s_clp s.
Proof.
  intros E H T. assert (Id : exists s', obj_at w i s' /\ results s' = results s /\ s_nodes s' = s_nodes s /\ s_clp s' = s_clp s) by (exists s; auto).
  assert (Oth : forall m j v, j <> i -> exists s', obj_at (mkWorld m (put j v (subs w))) i s' /\ results s' = results s /\ s_nodes s' = s_nodes s /\ s_clp s' = s_clp s).
  { intros m j v N. exists s. split; [apply obj_put_other; auto | auto]. }
  assert (Ap : forall m v, exists s', obj_at (mkWorld m (subs w ++ [v])) i s' /\ results s' = results s /\ s_nodes s' = s_nodes s /\ s_clp s' = s_clp s).
  { intros m v. exists s. split; [apply obj_snoc_old; auto | auto]. }
  assert (Hp : forall m, exists s', obj_at (mkWorld m (subs w)) i s' /\ results s' = results s /\ s_nodes s' = s_nodes s /\ s_clp s' = s_clp s) by (intros m; exists s; auto).
  destruct o as [p|h p|h|cpx pl gap|j|j|j lp|j p|j f c t|j f c t|j c t]; cbn [step touches] in E, T.
  - injection E as <-. apply Hp.
  - destruct (nth h (heap w) dcell) as [[q|] [|]]; injection E as <-; auto.
  - destruct (nth h (heap w) dcell) as [[q|] [|]]; injection E as <-; auto.
  - destruct cpx; cbn in E; injection E as <-; apply Ap.
  - apply on_ok in E. destruct E as [[_ ->] | (u & J & E)]; [exact Id|]. apply bind_ok in E. destruct E as ([m s'] & E & F). injection F as <-. apply Ap.
  - apply on_ok in E. destruct E as [[_ ->] | (u & J & E)]; [exact Id|]. apply bind_ok in E. destruct E as (m & E & F). injection F as <-. apply Oth, T.
  - destruct lp as [h|].
    + destruct (nth h (heap w) dcell) as [[q|] [|]]; try (injection E as <-; exact Id).
      apply on_ok in E. destruct E as [[_ ->] | (u & J & E)]; [exact Id|]. apply bind_ok in E. destruct E as ([m s'] & E & F). injection F as <-. apply Oth, T.
    + apply on_ok in E. destruct E as [[_ ->] | (u & J & E)]; [exact Id|]. apply bind_ok in E. destruct E as ([m s'] & E & F). injection F as <-. apply Oth, T.
  - apply on_ok in E. destruct E as [[_ ->] | (u & J & E)]; [exact Id|]. destruct (s_clp u) as [h|] eqn:C.
    + apply bind_ok in E. destruct E as (q & _ & E). injection E as <-. apply Hp.
    + destruct (s_cpx u) as [[q par]|] eqn:X; [|discriminate]. injection E as <-. destruct (Nat.eq_dec j i) as [-> | N]; [|apply Oth, N].
      assert (u = s) by (unfold obj_at in *; congruence). subst u. eexists. split; [eapply obj_put_same, H|]. cbn. auto.
  - apply on_ok in E. destruct E as [[_ ->] | (u & J & E)]; [exact Id|]. apply bind_ok in E. destruct E as (s' & E & F). injection F as <-. apply Oth, T.
  - apply on_ok in E. destruct E as [[_ ->] | (u & J & E)]; [exact Id|]. apply bind_ok in E. destruct E as (s' & E & F). injection F as <-. apply Oth, T.
  - apply on_ok in E. destruct E as [[_ ->] | (u & J & E)]; [exact Id|]. apply bind_ok in E. destruct E as (s' & E & F). injection F as <-. apply Oth, T.
Qed.
End Res.
