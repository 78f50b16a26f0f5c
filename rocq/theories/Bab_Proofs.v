(** Lemmas about the reports of branch-and-bound and the failure counters. *)
From Verif Require Import Base Arr Oad_Model Oad_Proofs2 Itf_Model Itf_Spec Itf_Proofs Bab_Model Bab_Spec.
#[local] Open Scope Q_scope.

Lemma second_fresh r b : r_fresh r = true -> second r b = match r_new2 r with Some (y, v) => (y, Fin v) | None => ([], PInf) end.
Proof. intros F. unfold second. rewrite F. destruct (r_new2 r) as [[y v]|]; reflexivity. Qed.

(** The solution a run contributes. *)
Definition own (r : run) : option (list Q) :=
  match r_new2 r with Some (y, _) => Some y | None => match r_sol r with Some x => Some (firstn (r_ncols r) x) | None => None end end.
Lemma is_opt_iff s : is_opt s = true <-> s = solvedOptimal \/ s = solvedOptimalTol.
Proof. destruct s; cbv; intuition congruence. Qed.
Lemma bab_run_ok r b : run_ok r -> r_fresh r = true -> exists x, bab_run r b = Ok x.
Proof.
  intros (R1 & R2 & R3) F. unfold bab_run. rewrite second_fresh by exact F.
  assert (exists q, (match r_new2 r with Some (y, v) => (y, Fin v) | None => ([], PInf) end) = q) as [[x2 o2] E] by eauto. rewrite E.
  destruct (r_unsolved r); [eauto|]. destruct (Nat.eqb (r_nobj r) 0).
  - destruct (negb _); [|eauto]. destruct (st_eqb _ _); [eauto|]. destruct (st_eqb _ _); eauto.
  - assert (exists so, (match x2 with
       | _ :: _ => if Nat.eqb (length x2) (r_ncols r) then Ok (Some x2, o2) else AssertFail
       | [] => match r_sol r with
               | Some x => if Nat.ltb (length x) (r_ncols r) then OutOfBounds else Ok (Some (firstn (r_ncols r) x), r_obj r)
               | None => Ok (b_sol b, r_obj r)
               end
       end) = Ok so) as [so ->].
    { destruct (r_new2 r) as [[y v]|] eqn:N; injection E as <- <-.
      - rewrite (R2 _ _ eq_refl), Nat.eqb_refl. specialize (R2 _ _ eq_refl). destruct y; [simpl in R2; lia|eauto].
      - destruct (r_sol r) as [x|] eqn:S; [|eauto]. specialize (R1 _ eq_refl). destruct (Nat.ltb_spec (length x) (r_ncols r)); [lia|eauto]. }
    cbn [bind]. destruct (r_timeout r); [eauto|]. destruct (Z.eqb _ 0); [destruct (r_unbounded r); [eauto|]; destruct (fst so); eauto|].
    destruct (_ || _)%bool; [eauto|]. destruct (Z.eqb _ 2); eauto.
Qed.

Ltac fin_sound :=
  repeat split; cbn [p_sol p_st p_obj fst snd] in *; try discriminate; try congruence; try lia.

(** What a run without throw reports, in the branch with objects. *)
Lemma bab_run_objs r b t p b' : run_ok r -> r_fresh r = true -> r_unsolved r = false -> r_nobj r <> 0%nat -> bab_run r b = Ok (t, p, b') ->
  t = false /\ p_sol p = b_sol b' /\
  (b_sol b' = match own r with Some x => Some x | None => b_sol b end) /\
  (p_obj p = match r_new2 r with Some (_, v) => Fin v | None => r_obj r end) /\
  p_st p = (if r_timeout r then LIMIT_EXCEEDED else
            if Z.eqb (r_status r) 0 then if r_unbounded r then CONTINUOUS_UNBOUNDED else match b_sol b' with Some _ => SUCCESS | None => INFEASIBLE end
            else if Z.eqb (r_status r) 1 then LIMIT_EXCEEDED else if Z.eqb (r_status r) 5 then USER_INTERRUPT
            else if Z.eqb (r_status r) 2 then MINLP_ERROR else if r_abort r then USER_INTERRUPT else MINLP_ERROR) /\
  (b_mip b' = if (r_timeout r || Z.eqb (r_status r) 0 || Z.eqb (r_status r) 1 || Z.eqb (r_status r) 5)%bool then
                match p_st p with
                | SUCCESS => FeasibleOptimal | INFEASIBLE => ProvenInfeasible | CONTINUOUS_UNBOUNDED => UnboundedOrInfeasible
                | _ => match p_sol p with Some _ => Feasible | None => NoSolutionKnown end end
              else b_mip b).
Proof.
  intros (R1 & R2 & R3) F U N H. unfold bab_run in H. rewrite second_fresh in H by exact F. unfold own.
  assert (exists q, (match r_new2 r with Some (y, v) => (y, Fin v) | None => ([], PInf) end) = q) as [[x2 o2] E] by eauto. rewrite E in H.
  rewrite U in H. destruct (Nat.eqb_spec (r_nobj r) 0) as [N0|_]; [contradiction|].
  apply bind_ok in H. destruct H as (so & ES & H).
  assert (SO : fst so = match r_new2 r with Some (y, _) => Some y | None => match r_sol r with Some x => Some (firstn (r_ncols r) x) | None => b_sol b end end /\
               snd so = match r_new2 r with Some (_, v) => Fin v | None => r_obj r end).
  { destruct (r_new2 r) as [[y v]|] eqn:NN; injection E as <- <-.
    - specialize (R2 _ _ eq_refl). destruct y as [|a y]; [simpl in R2; lia|]. rewrite R2, Nat.eqb_refl in ES. injection ES as <-. split; reflexivity.
    - destruct (r_sol r) as [x|] eqn:S; [|injection ES as <-; split; reflexivity].
      destruct (Nat.ltb _ _); [discriminate|]. injection ES as <-. split; reflexivity. }
  destruct SO as [S1 S2].
  assert (OW : forall s : option (list Q), match (match r_new2 r with Some (y, _) => Some y | None => match r_sol r with Some x => Some (firstn (r_ncols r) x) | None => None end end) with Some x => Some x | None => s end
      = match r_new2 r with Some (y, _) => Some y | None => match r_sol r with Some x => Some (firstn (r_ncols r) x) | None => s end end).
  { intros s. destruct (r_new2 r) as [[y v]|]; [reflexivity|]. destruct (r_sol r); reflexivity. }
  rewrite OW. rewrite <- S1, <- S2. clear OW S1 S2 ES E.
  destruct (r_timeout r) eqn:T; [injection H as <- <- <-; cbn; repeat split; destruct (fst so); reflexivity|].
  destruct (Z.eqb_spec (r_status r) 0) as [Z0|Z0].
  - destruct (r_unbounded r); [injection H as <- <- <-; cbn; repeat split; reflexivity|].
    destruct (fst so) eqn:SO; injection H as <- <- <-; cbn; rewrite ?SO; repeat split; reflexivity.
  - destruct (Z.eqb_spec (r_status r) 1) as [Z1|Z1]; [injection H as <- <- <-; cbn; repeat split; destruct (fst so); reflexivity|].
    destruct (Z.eqb_spec (r_status r) 5) as [Z5|Z5]; cbn [orb] in H; [injection H as <- <- <-; cbn; repeat split; destruct (fst so); reflexivity|].
    destruct (Z.eqb_spec (r_status r) 2) as [Z2|Z2]; injection H as <- <- <-; cbn; repeat split; reflexivity.
Qed.
Lemma own_found r x o : r_nobj r <> 0%nat -> own r = None -> ~ found r x o.
Proof.
  intros N O [(N0 & _)|(_ & [(v & E & _)|(y & E & _)])]; [contradiction| |]; unfold own in O.
  - rewrite E in O. discriminate.
  - destruct (r_new2 r) as [[? ?]|]; [discriminate|]. rewrite E in O. discriminate.
Qed.
(** A first run, or any run when the object holds no solution. *)
Lemma first_sound r b t p b' : run_ok r -> r_fresh r = true -> (b_sol b = None \/ r_nobj r = 0%nat) -> r_abort r = false -> bab_run r b = Ok (t, p, b') -> sound_report r p.
Proof.
  intros RO F B AB H. destruct (r_unsolved r) eqn:U.
  { unfold bab_run in H. rewrite U in H. destruct (second r b). injection H as <- <- <-. fin_sound. }
  destruct (Nat.eq_dec (r_nobj r) 0) as [N|N].
  - unfold bab_run in H. rewrite U in H. destruct (second r b) as [x2 o2]. rewrite N in H. cbn [Nat.eqb] in H.
    destruct (is_opt (r_rst r)) eqn:O; cbn [negb] in H.
    + injection H as <- <- <-. apply is_opt_iff in O. fin_sound. intros x E. injection E as <-. left. auto.
    + assert (NF : forall x o, ~ found r x o). { intros x o [(_ & S & _)|(C & _)]; [apply is_opt_iff in S; congruence|congruence]. }
      destruct (st_eqb (r_rst r) provenInfeasible) eqn:I.
      { injection H as <- <- <-. apply st_eqb_eq in I. split; [cbn; discriminate|]. split; [cbn; discriminate|]. split; [intros _; split; [exact NF|]; unfold exhausted; rewrite N; cbn; auto|]. split; intros; congruence. }
      destruct (st_eqb (r_rst r) sUnbounded); injection H as <- <- <-; rewrite ?AB; fin_sound.
  - destruct B as [B|B]; [|contradiction].
    destruct (bab_run_objs _ _ _ _ _ RO F U N H) as (T & E1 & E2 & E3 & E4 & _). rewrite B in E2.
    assert (E2' : b_sol b' = own r) by (rewrite E2; destruct (own r); reflexivity). clear E2. rewrite E2' in E1, E4.
    split; [|split; [|split; [|split]]].
    + intros x E. rewrite E1 in E. right. split; [exact N|]. unfold own in E. rewrite E3. destruct (r_new2 r) as [[y v]|]; [injection E as <-; left; eauto|].
      destruct (r_sol r) as [y|]; [injection E as <-; right; eauto|discriminate].
    + intros S C. rewrite E1 in C. rewrite E4, C in S.
      destruct (r_timeout r); [discriminate|]. destruct (Z.eqb _ 0); [destruct (r_unbounded r); discriminate|]. destruct (Z.eqb _ 1); [discriminate|]. destruct (Z.eqb _ 5); [discriminate|].
      destruct (Z.eqb _ 2); [discriminate|]. destruct (r_abort r); discriminate.
    + intros S. rewrite E4 in S. destruct (r_timeout r) eqn:TO; [discriminate|]. destruct (Z.eqb_spec (r_status r) 0) as [Z0|Z0].
      * destruct (r_unbounded r); [discriminate|]. destruct (own r) eqn:O; [discriminate|]. split; [intros x o; apply own_found; auto|].
        unfold exhausted. destruct (Nat.eqb_spec (r_nobj r) 0); [contradiction|]. auto.
      * destruct (Z.eqb _ 1); [discriminate|]. destruct (Z.eqb _ 5); [discriminate|]. destruct (Z.eqb _ 2); [discriminate|]. destruct (r_abort r); discriminate.
    + intros _ _ [T1|T1]; rewrite E4; [rewrite T1; reflexivity|]. rewrite T1. destruct (r_timeout r); reflexivity.
    + intros _ _ T1 T2. rewrite E4, T1, T2. reflexivity.
Qed.

(** The solution after any sequence of runs with objects is the last one found. *)
Definition last_found (rs : list run) (s0 : option (list Q)) : option (list Q) :=
  fold_left (fun acc r => match own r with Some x => Some x | None => acc end) rs s0.
Lemma runs_last : forall rs b ps b', Forall (fun r => run_ok r /\ r_fresh r = true /\ r_unsolved r = false /\ r_nobj r <> 0%nat) rs -> bab_runs rs b = Ok (ps, b') ->
  b_sol b' = last_found rs (b_sol b).
Proof.
  induction rs as [|r rs IH]; intros b ps b' F H; [injection H as _ <-; reflexivity|].
  inversion F as [|? ? (R1 & R2 & R3 & R4) F']; subst. cbn [bab_runs] in H. apply bind_ok in H. destruct H as ([[t p] b1] & E & H). apply bind_ok in H. destruct H as ([ps' b2] & E2 & H).
  injection H as _ <-. cbn [snd] in *. apply IH in E2; [|exact F']. rewrite E2. destruct (bab_run_objs _ _ _ _ _ R1 R2 R3 R4 E) as (_ & _ & S & _). rewrite S. reflexivity.
Qed.
Lemma runs_report rs : forall b ps p b', Forall (fun r => run_ok r /\ r_fresh r = true /\ r_unsolved r = false /\ r_nobj r <> 0%nat) rs -> bab_runs rs b = Ok (ps ++ [p], b') ->
  p_sol p = b_sol b'.
Proof.
  induction rs as [|r rs IH]; intros b ps p b' F H; [injection H as H _; destruct ps; discriminate|].
  inversion F as [|? ? (R1 & R2 & R3 & R4) F']; subst. cbn [bab_runs] in H. apply bind_ok in H. destruct H as ([[t q] b1] & E & H). apply bind_ok in H. destruct H as ([ps' b2] & E2 & H).
  injection H as H <-. cbn [snd fst] in *. destruct ps as [|p0 ps].
  - cbn in H. injection H as -> H. destruct rs as [|r' rs']; [injection E2 as <- <-; exact (proj1 (proj2 (bab_run_objs _ _ _ _ _ R1 R2 R3 R4 E)))|].
    cbn [bab_runs] in E2. apply bind_ok in E2. destruct E2 as (z & _ & E2). apply bind_ok in E2. destruct E2 as (z' & _ & E2). injection E2 as E2 _. congruence.
  - cbn in H. injection H as -> H. subst ps'. exact (IH _ _ _ _ F' E2).
Qed.

(** ** Counters *)
Lemma leading_app {A} (f : A -> bool) a l : leading f (l ++ [a]) = if forallb f l then (if f a then S (length l) else length l) else leading f l.
Proof. induction l as [|b l IH]; cbn; [destruct (f a); reflexivity|]. destruct (f b); cbn; [rewrite IH; destruct (forallb f l), (f a); reflexivity|reflexivity]. Qed.
Lemma trailing_snoc {A} (f : A -> bool) a l : trailing f (l ++ [a]) = if f a then S (trailing f l) else 0%nat.
Proof. unfold trailing. rewrite rev_app_distr. reflexivity. Qed.
Lemma path_info_snoc : forall l n s, path_info n (l ++ [s]) = part_make (path_info n l) s.
Proof. induction l as [|a l IH]; intros n s; [reflexivity|]. cbn. apply IH. Qed.
Lemma inf_node s : infeasible_node s = isProvenPrimalInfeasible s.
Proof. unfold infeasible_node, isProvenPrimalInfeasible. destruct (o_st s); reflexivity. Qed.
Definition unsolved_node (s : itf) : bool := (isAbandoned s || isIterationLimitReached s)%bool.
Lemma counters l : n_inf (path_info NRoot l) = trailing infeasible_node l /\ n_uns (path_info NRoot l) = trailing unsolved_node l.
Proof.
  induction l as [|s l IH] using rev_ind; [split; reflexivity|]. rewrite path_info_snoc, !trailing_snoc. destruct IH as [I1 I2]. unfold part_make. cbn [n_inf n_uns]. rewrite I1, I2, inf_node. unfold unsolved_node. split; reflexivity.
Qed.
Lemma path_part l s : exists i u, path_info NRoot (l ++ [s]) = NPart i u.
Proof. rewrite path_info_snoc. unfold part_make. eauto. Qed.
Lemma path_nonempty l : l <> [] -> exists i u, path_info NRoot l = NPart i u /\ i = trailing infeasible_node l /\ u = trailing unsolved_node l.
Proof.
  intros N. destruct (exists_last N) as (l' & s & ->). destruct (path_part l' s) as (i & u & E). exists i, u. split; [exact E|].
  destruct (counters (l' ++ [s])) as [C1 C2]. rewrite E in C1, C2. auto.
Qed.
Lemma ab_inf s : isAbandoned s = true -> isProvenPrimalInfeasible s = false.
Proof. unfold isAbandoned, isProvenPrimalInfeasible. destruct (o_pret s); [discriminate|]. apply abandoned_not_inf. Qed.
Lemma verdict_exact t l s : l <> [] ->
  strat_status t (path_info NRoot l) s =
    if isAbandoned s then
      if Nat.leb (S (trailing unsolved_node l)) (t_maxFail t) then Ok (TreatAsOptimal, Branchable, false)
      else if t_pretend t then Ok (TreatAsInfeasible, Infeasible, true) else Thrown
    else if infeasible_node s then
      if Nat.ltb (S (trailing infeasible_node l)) (t_maxInf t) then Ok (TreatAsOptimal, Branchable, false) else Ok (NoEffect, Unforced, false)
    else Ok (NoEffect, Unforced, false).
Proof.
  intros N. destruct (path_nonempty l N) as (i & u & E & -> & ->). rewrite E. cbn [strat_status]. rewrite inf_node.
  destruct (isAbandoned s) eqn:A.
  - rewrite (ab_inf _ A). cbn [negb andb orb]. rewrite andb_false_r. cbn [andb].
    destruct (Nat.leb_spec (S (trailing unsolved_node l)) (t_maxFail t)) as [L|L].
    + destruct (Nat.ltb_spec (t_maxFail t) (S (trailing unsolved_node l))); [lia|reflexivity].
    + destruct (Nat.ltb_spec (t_maxFail t) (S (trailing unsolved_node l))); [reflexivity|lia].
  - cbn [negb andb orb]. destruct (isProvenPrimalInfeasible s); cbn [negb andb orb]; [rewrite !andb_true_r; destruct (Nat.ltb _ _); reflexivity|]. rewrite andb_false_r. reflexivity.
Qed.
(** After any solve that returns, uninterrupted, no failure is left to count. *)
Lemma never_abandoned ans p o s s' : istep ans p o s = Ok s' -> o_abort s' = false -> isAbandoned s' = false.
Proof.
  intros H A. destruct (istep_spec _ _ _ _ _ H A) as [[E N]|(_ & E & _)]; unfold isAbandoned.
  - destruct (o_pret s') eqn:P; [reflexivity|]. apply N. congruence.
  - rewrite E. reflexivity.
Qed.
