(** Lemmas for the candidate list (consequences), random choice and pseudo-costs. *)
From Verif Require Import Base Arr Itf_Model Oad_Model Oad_Proofs2 Brc_Model Brc_Spec Brc_Proofs Brc_Proofs2.
#[local] Open Scope Q_scope.

(** ** Sorting by insertion *)
Section Ins.
Context {A B : Type} (leb : A -> A -> bool) (le : A -> A -> Prop).
Hypothesis leb_le : forall a b, leb a b = true -> le a b.
Hypothesis leb_gt : forall a b, leb a b = false -> le b a.
Hypothesis le_tr : forall a b c, le a b -> le b c -> le a c.
Fixpoint ins (x : A * B) (l : list (A * B)) : list (A * B) :=
  match l with [] => [x] | y :: l' => if leb (fst x) (fst y) then x :: l else y :: ins x l' end.
Fixpoint insort (l : list (A * B)) : list (A * B) := match l with [] => [] | x :: l' => ins x (insort l') end.
Lemma ins_perm x l : Permutation (x :: l) (ins x l).
Proof.
  induction l as [|y l IH]; cbn [ins]; [reflexivity|]. destruct (leb _ _); [reflexivity|].
  eapply Permutation_trans; [apply perm_swap|]. apply perm_skip, IH.
Qed.
Lemma ins_sorted x l : sorted_by le l -> sorted_by le (ins x l).
Proof.
  induction 1 as [|y l H S IH]; cbn [ins]; [constructor; constructor|]. destruct (leb (fst x) (fst y)) eqn:E.
  - constructor; [|constructor; assumption]. constructor; [apply leb_le, E|]. eapply Forall_impl; [|exact H]. intros z Hz. eapply le_tr; [apply leb_le, E|exact Hz].
  - constructor; [|exact IH]. apply Forall_forall. intros z Iz. apply (Permutation_in _ (Permutation_sym (ins_perm x l))) in Iz.
    destruct Iz as [<-|Iz]; [apply leb_gt, E|]. rewrite Forall_forall in H. exact (H z Iz).
Qed.
Lemma insort_ok l : Permutation l (insort l) /\ sorted_by le (insort l).
Proof.
  induction l as [|x l (P & S)]; cbn [insort]; [split; [reflexivity|constructor]|]. split.
  - eapply Permutation_trans; [apply perm_skip, P|]. apply ins_perm.
  - apply ins_sorted, S.
Qed.
End Ins.
Definition cell_leb (a b : cell) : bool := match a, b with None, _ => true | Some _, None => false | Some x, Some y => Nat.leb x y end.
Definition inssort : sorters := {| sI := insort cell_leb; sQ := insort Qle_bool |}.
Lemma inssort_ok : sorters_ok inssort.
Proof.
  split; intros l; apply insort_ok.
  - intros [a|] [b|]; cbn; try discriminate; try reflexivity; auto. apply Nat.leb_le.
  - intros [a|] [b|]; cbn; try discriminate; try reflexivity; auto. intros H. apply Nat.leb_gt in H. lia.
  - intros [a|] [b|] [c|]; cbn; auto; try contradiction. lia.
  - intros a b. apply Qle_bool_iff.
  - intros a b H. destruct (Qlt_le_dec b a) as [L|L]; [apply Qlt_le_weak, L|]. apply Qle_bool_iff in L. congruence.
  - intros a b c. apply Qle_trans.
Qed.

(** ** Consequences for the list *)
Lemma unsat_lt os x : unsat os x -> (x < length os)%nat.
Proof. intros (o & N & _). apply nth_error_Some. congruence. Qed.
Lemma length_unsat os : (length (unsat_from 0 os) <= length os)%nat.
Proof. generalize O. induction os as [|o os IH]; intros i; cbn [unsat_from length]; [lia|]. specialize (IH (S i)). destruct (Qltb 0 (o_inf o)); cbn [length]; lia. Qed.
Lemma all_best os (F : list nat) : NoDup F -> (forall x, In x F -> In x (unsat_from 0 os) /\ prio os x = bp os) -> length F = number_best os ->
  forall x, In x (unsat_from 0 os) -> prio os x = bp os -> In x F.
Proof.
  intros N H E x Ix Px. unfold number_best in E.
  set (K := filter (fun i => Z.eqb (prio os i) (bp os)) (unsat_from 0 os)) in *.
  assert (IK : incl F K) by (intros y Iy; destruct (H y Iy) as (A & B); apply filter_In; split; [exact A|apply Z.eqb_eq, B]).
  assert (IX : In x K) by (apply filter_In; split; [exact Ix|apply Z.eqb_eq, Px]).
  assert (LK : (length K <= length F)%nat) by lia. exact (NoDup_length_incl N LK IK x IX).
Qed.
Lemma some_best os (F : list nat) : NoDup F -> (forall x, In x F -> In x (unsat_from 0 os) /\ prio os x = bp os) -> (length F <= number_best os)%nat.
Proof.
  intros N H. unfold number_best. apply NoDup_incl_length; [exact N|]. intros y Iy. destruct (H y Iy) as (A & B). apply filter_In. split; [exact A|apply Z.eqb_eq, B].
Qed.
Lemma best_le os (F : list nat) : (forall x, In x (unsat_from 0 os) -> prio os x = bp os -> In x F) -> (number_best os <= length F)%nat.
Proof.
  intros H. unfold number_best. apply NoDup_incl_length; [apply NoDup_filter, unsat_from_nodup|]. intros y Iy. apply filter_In in Iy. destruct Iy as (A & B).
  apply H; [exact A|apply Z.eqb_eq, B].
Qed.
Lemma best_iff os x : Forall (fun x => (bp os <= prio os x)%Z) (unsat_from 0 os) -> (exists y, In y (unsat_from 0 os) /\ prio os y = bp os) ->
  (best os x <-> In x (unsat_from 0 os) /\ prio os x = bp os).
Proof.
  intros H (y & Iy & Py). rewrite Forall_forall in H. split.
  - intros (U & M). apply unsat_from_0 in U. split; [exact U|]. pose proof (H x U) as H1. cbn beta in H1. pose proof (M y (proj1 (unsat_from_0 os y) Iy)) as H2. lia.
  - intros (U & E). split; [apply unsat_from_0, U|]. intros j Uj. rewrite E. apply H, unsat_from_0, Uj.
Qed.

Lemma list_ok S q cap pc os : setup_pre S q cap pc os ->
  exists r pc', setupList S q true cap pc os = Ok (r, pc') /\ (r_uns r = (-1)%Z <-> hopeless os) /\
    (~ hopeless os -> r_uns r = Z.of_nat (length (unsat_from 0 os)) /\
      (Nat.max (s_strong q) (s_root q) <> O ->
         exists l, length l = length (unsat_from 0 os) /\ firstn (length l) (r_list r) = map Some l /\ Forall (unsat os) l /\
           Forall (best os) (firstn (r_nol r) l) /\ (unsat_from 0 os <> [] -> (0 < r_nol r)%nat) /\ (r_nol r <= ms_of q os)%nat /\
           (s_frac q == 0 \/ (r_nol r < ms_of q os /\ length l < length os)%nat \/ r_nol r = number_best os -> Permutation l (unsat_from 0 os))) /\
      (Nat.max (s_strong q) (s_root q) = O -> r_nol r = O /\ (unsat_from 0 os <> [] -> exists x, nth_error (r_list r) 0 = Some (Some x) /\ best os x))).
Proof.
  intros HP. destruct (setup_ok S q cap pc os HP) as (r & pc' & uf & E & _ & _ & D). exists r, pc'. split; [exact E|].
  destruct D as [(H & U)|(NH & D1 & D2)]; [split; [tauto|intros X; contradiction]|].
  assert (U : r_uns r = Z.of_nat (length (unsat_from 0 os))).
  { destruct (Nat.eq_dec (Nat.max (s_strong q) (s_root q)) 0) as [M|M]; [apply (D2 M)|].
    destruct (D1 M) as (F & B & Y & Z & A). exact (a_uns _ _ _ _ _ _ _ _ _ _ _ A). }
  split; [rewrite U; split; [lia|intros X; contradiction]|]. intros _. split; [exact U|]. split.
  - intros M. destruct (D1 M) as (F & B & Y & Z & A). destruct A as [Au Ap An Ab Al Alf Am Ano Af Aln Alz AY AZ Apl Aso].
    assert (LP : length (unsat_from 0 os) = (length F + length B)%nat) by (rewrite <- (Permutation_length Ap); apply app_length).
    assert (LYZ : length (Y ++ Z) = length (unsat_from 0 os)) by (rewrite app_length; lia).
    exists (Y ++ Z). split; [exact LYZ|]. split; [rewrite LYZ; exact Af|]. split.
    { apply Forall_app. split; [eapply Forall_impl; [|exact AY]; intros x (X & _); apply unsat_from_0, X|eapply Forall_impl; [|exact AZ]; intros x X; apply unsat_from_0, X]. }
    split.
    { rewrite Ano, <- Aln, firstn_app, Nat.sub_diag, firstn_O, app_nil_r, firstn_all. apply Forall_forall. intros x Ix.
      rewrite Forall_forall in AY. destruct (AY x Ix) as (X1 & X2). apply best_iff; [exact Al| |auto]. exists x. auto. }
    split; [intros NP; specialize (An NP); rewrite Ano; destruct F; [congruence|cbn [length]; lia]|]. split; [rewrite Ano; exact Am|].
    assert (NF : NoDup F).
    { assert (ND : NoDup (F ++ B)) by (eapply Permutation_NoDup; [apply Permutation_sym, Ap|apply unsat_from_nodup]).
      clear -ND. induction F; [constructor|]. inversion ND; subst. constructor; [intros X; apply H1, in_app_iff; left; exact X|auto]. }
    assert (BF : forall x, In x F -> In x (unsat_from 0 os) /\ prio os x = bp os).
    { intros x Ix. split; [apply (Permutation_in _ Ap), in_app_iff; left; exact Ix|]. rewrite Forall_forall in Ab. exact (Ab x Ix). }
    intros C. destruct Apl as (P1 & ->).
    { destruct C as [C|[C|C]].
      - left. unfold most_fra. replace (Qltb 0 (s_frac q)) with false; [reflexivity|]. symmetry. apply Qltb_ge. lra.
      - right. left. lia.
      - right. right. apply (all_best os F NF BF). congruence. }
    eapply Permutation_trans; [|exact Ap]. apply Permutation_app_tail, Permutation_sym, P1.
  - intros M. apply (D2 M).
Qed.

(** Sorting by infeasibility. *)
Lemma by_key S q cap pc os key : setup_pre S q cap pc os -> ~ hopeless os -> s_frac q == 0 -> (0 < Nat.max (s_strong q) (s_root q))%nat ->
  (forall uf, (ps_crit (s_crit q) = false -> forall i o, nth_error os i = Some o -> uf i = o_inf o) -> (ps_crit (s_crit q) = false -> forall i, 0 <= uf i) ->
     (forall i, uf i = ufn os q (fst (multipliers (pc_used pc os))) (snd (multipliers (pc_used pc os))) (pc_used pc os) i) ->
     (forall i, 0 <= uf i) /\ forall i, unsat os i -> uf i == key i /\ 0 < key i) ->
  exists r, setupList S q true cap pc os = Ok (r, pc_used pc os) /\
    list_holds_by key os Qle (if odd_crit (s_crit q) then Qge' else Qle) (Nat.max (s_strong q) (s_root q)) r.
Proof.
  intros HP NH F0 K KEY. destruct (setup_ok_uf S q cap pc os HP) as (r & pc' & uf & E & (PU & UF) & V & V0 & D). subst pc'. exists r. split; [exact E|].
  destruct D as [(H & _)|(_ & D1 & _)]; [contradiction|]. destruct D1 as (F & B & Y & Z & A); [lia|].
  destruct A as [Au Ap An Ab Al Alf Am Ano Af Aln Alz AY AZ Apl Aso].
  assert (M0 : most_fra q (ms_of q os) = O).
  { unfold most_fra. replace (Qltb 0 (s_frac q)) with false; [reflexivity|]. symmetry. apply Qltb_ge. lra. }
  destruct (Apl (or_introl M0)) as (P1 & ->). specialize (Aso M0).
  specialize (UF NH). destruct (KEY uf V V0 UF) as (V0' & VK).
  assert (VI : forall x, In x (unsat_from 0 os) -> uf x == key x /\ 0 < key x) by (intros x Ix; apply VK, unsat_from_0, Ix).
  assert (LP : length (unsat_from 0 os) = (length F + length B)%nat) by (rewrite <- (Permutation_length Ap); apply app_length).
  assert (ND : NoDup (F ++ B)) by (eapply Permutation_NoDup; [apply Permutation_sym, Ap|apply unsat_from_nodup]).
  assert (NF : NoDup F) by (clear -ND; induction F; [constructor|]; inversion ND; subst; constructor; [intros X; apply H1, in_app_iff; left; exact X|auto]).
  assert (BF : forall x, In x F -> In x (unsat_from 0 os) /\ prio os x = bp os).
  { intros x Ix. split; [apply (Permutation_in _ Ap), in_app_iff; left; exact Ix|]. rewrite Forall_forall in Ab. exact (Ab x Ix). }
  assert (YF : forall x, In x Y <-> In x F) by (intros x; split; intros X; [exact (Permutation_in _ (Permutation_sym P1) X)|exact (Permutation_in _ P1 X)]).
  assert (Rest : forall b, In b (unsat_from 0 os) -> ~ In b F -> In b B).
  { intros b Ib Nb. apply (Permutation_in _ (Permutation_sym Ap)) in Ib. apply in_app_iff in Ib. tauto. }
  destruct Alf as (Lf1 & Lf2).
  assert (Hms : (0 < ms_of q os)%nat).
  { unfold ms_of. destruct HP. destruct os; [congruence|cbn [length]; lia]. }
  exists Y. split.
  { rewrite Ano. assert (X : firstn (length F) (firstn (length (unsat_from 0 os)) (r_list r)) = firstn (length F) (map Some (Y ++ B))) by (rewrite Af; reflexivity).
    rewrite firstn_firstn in X. replace (Nat.min (length F) (length (unsat_from 0 os))) with (length F) in X by lia. rewrite X.
    rewrite map_app, firstn_app, map_length, Aln, Nat.sub_diag, firstn_O, app_nil_r. rewrite <- Aln, <- (map_length Some Y). apply firstn_all. }
  split; [congruence|]. split; [eapply Permutation_NoDup; eassumption|].
  assert (ExB : forall x, In x F -> exists y, In y (unsat_from 0 os) /\ prio os y = bp os) by (intros x Ix; exists x; auto).
  split.
  { apply Forall_forall. intros x Ix. apply YF in Ix. apply best_iff; [exact Al|eauto|auto]. }
  split.
  { rewrite Ano. pose proof (some_best os F NF BF) as Lo.
    destruct (Nat.lt_ge_cases (length F) (ms_of q os)) as [Lt|Ge].
    - assert (Hi : (number_best os <= length F)%nat).
      { apply best_le. intros x Ix Px. destruct (in_dec Nat.eq_dec x F) as [I|I]; [exact I|]. exfalso.
        destruct (VI x Ix) as (X1 & X2). pose proof (Lf2 Lt x (Rest x Ix I) Px) as X3. rewrite X1 in X3. lra. }
      unfold ms_of in Lt. lia.
    - assert (number_best os <= length os)%nat.
      { unfold number_best. eapply Nat.le_trans; [|apply length_unsat]. clear. induction (unsat_from 0 os); cbn [filter length]; [lia|]. destruct (Z.eqb _ _); cbn [length]; lia. }
      unfold ms_of in *. lia. }
  split.
  - intros a b Ia Bb Nb. apply YF in Ia. assert (Nb' : ~ In b F) by (intros X; apply Nb, YF, X).
    apply best_iff in Bb; [|exact Al|eauto]. destruct Bb as (B1 & B2).
    pose proof (Lf1 Hms V0' b (Rest b B1 Nb') B2 a Ia) as X. rewrite (proj1 (VI b B1)), (proj1 (VI a (proj1 (BF a Ia)))) in X. exact X.
  - intros i j a b Lt Na Nb. pose proof (Aso i j a b Lt Na Nb) as X.
    assert (Ia : In a (unsat_from 0 os)) by (apply BF, YF; exact (nth_error_In _ _ Na)).
    assert (Ib : In b (unsat_from 0 os)) by (apply BF, YF; exact (nth_error_In _ _ Nb)).
    destruct (VI a Ia) as (XA & _), (VI b Ib) as (XB & _). destruct (odd_crit (s_crit q)); unfold Qge'; lra.
Qed.
Lemma by_infeas S q cap pc os : setup_pre S q cap pc os -> ~ hopeless os -> s_frac q == 0 -> (0 < Nat.max (s_strong q) (s_root q))%nat ->
  ps_crit (s_crit q) = false ->
  exists r pc', setupList S q true cap pc os = Ok (r, pc') /\
    list_holds os Qle (if odd_crit (s_crit q) then Qge' else Qle) (Nat.max (s_strong q) (s_root q)) r.
Proof.
  intros HP NH F0 K C. destruct (by_key S q cap pc os (infeas os) HP NH F0 K) as (r & E & H).
  - intros uf V V0 _. split; [exact (V0 C)|]. intros x (o & N & Q0). unfold infeas. rewrite N. split; [rewrite (V C x o N); reflexivity|exact Q0].
  - exists r, (pc_used pc os). split; [exact E|exact H].
Qed.

(** ** Random choice *)
Lemma nonimp_snoc key l x : nonimproving key l -> (l <> [] -> (key (last l O) <= key x)%Z) -> nonimproving key (l ++ [x]).
Proof.
  induction l as [|a l IH]; intros H L; [exact Logic.I|]. destruct l as [|b l].
  - cbn. split; [apply L; discriminate|exact Logic.I].
  - destruct H as (H1 & H2). change ((a :: b :: l) ++ [x]) with (a :: b :: (l ++ [x])). split; [exact H1|]. apply IH; [exact H2|].
    intros _. apply L. discriminate.
Qed.
Lemma rscan_run os : forall rest pre b L P, os = pre ++ rest -> final_run (rprio os) P L ->
  ((P = [] /\ L = [] /\ b = INT_MAX) \/ (P <> [] /\ b = rprio os (last L O))) -> Forall (fun o => (ro_prio o <= 2147483647)%Z) os ->
  final_run (rprio os) (P ++ runsat_from (length pre) (reach rest)) (rscan (length pre) rest b L).
Proof.
  induction rest as [|o rest IH]; intros pre b L P E FR D INT.
  - cbn. rewrite app_nil_r. exact FR.
  - cbn [rscan reach]. destruct (ro_inf o) as [v|] eqn:Ev; [|cbn [runsat_from]; rewrite app_nil_r; exact FR].
    cbn [runsat_from]. rewrite Ev.
    assert (E' : os = (pre ++ [o]) ++ rest) by (rewrite <- app_assoc; exact E).
    assert (L' : length (pre ++ [o]) = S (length pre)) by (rewrite app_length; cbn [length]; lia).
    destruct (Qltb 0 v) eqn:Q0; rewrite <- L'; [|apply IH; assumption].
    replace (P ++ length pre :: runsat_from (length (pre ++ [o])) (reach rest)) with ((P ++ [length pre]) ++ runsat_from (length (pre ++ [o])) (reach rest)) by (rewrite <- app_assoc; reflexivity).
    assert (Ko : rprio os (length pre) = ro_prio o) by (unfold rprio; rewrite E, nth_error_app2, Nat.sub_diag by lia; reflexivity).
    apply IH; [exact E'| | |exact INT].
    + destruct FR as (N & NE & p & Ep & Dp). destruct (Z.ltb_spec (ro_prio o) b) as [Lt|Ge].
      * destruct D as [(-> & -> & ->)|(NP & Eb)].
        -- split; [exact Logic.I|]. split; [discriminate|]. exists []. split; [reflexivity|left; reflexivity].
        -- split; [exact Logic.I|]. split; [discriminate|]. exists P. split; [reflexivity|]. right.
           destruct (exists_last (NE NP)) as (L0 & a & EL). exists (p ++ L0), a, (length pre), []. split; [rewrite Ep, EL, app_assoc; reflexivity|]. split; [reflexivity|].
           rewrite Ko. rewrite Eb, EL, last_last in Lt. exact Lt.
      * split.
        -- apply nonimp_snoc; [exact N|]. intros NL. rewrite Ko. destruct D as [(_ & -> & _)|(_ & Eb)]; [congruence|]. rewrite <- Eb. exact Ge.
        -- split; [destruct L; discriminate|]. exists p. split; [rewrite Ep, app_assoc; reflexivity|].
           destruct Dp as [Dp|(p' & a & b' & r' & D1 & D2 & D3)]; [left; exact Dp|]. right. exists p', a, b', (r' ++ [length pre]). rewrite D2. repeat split; assumption.
    + right. split; [destruct P; discriminate|]. destruct (Z.ltb (ro_prio o) b); [cbn; symmetry; exact Ko|rewrite last_last; symmetry; exact Ko].
Qed.
Lemma rsetup_ok os : os <> [] -> Forall (fun o => (ro_prio o <= 2147483647)%Z) os ->
  exists L, rsetup os = Ok L /\ final_run (rprio os) (runsat_from 0 (reach os)) L.
Proof.
  intros NE INT. exists (rscan 0 os INT_MAX []). split; [unfold rsetup; destruct os; [congruence|reflexivity]|].
  apply (rscan_run os os [] INT_MAX [] [] eq_refl); [|left; auto|exact INT].
  split; [exact Logic.I|]. split; [congruence|]. exists []. split; [reflexivity|left; reflexivity].
Qed.
Lemma rchoose_ok d L : 0 <= d -> d < 1 -> L <> [] -> exists i, rchoose d L = Ok (Some i) /\ In i L.
Proof.
  intros D0 D1 NL. unfold rchoose. destruct L as [|a L]; [congruence|]. set (M := a :: L) in *.
  assert (Lt : (Z.to_nat (Qfloor (d * qnat (length M))) < length M)%nat).
  { assert (0 < qnat (length M)) by (unfold qnat, M; cbn [length]; change 0 with (inject_Z 0); rewrite <- Zlt_Qlt; lia).
    assert (Up : d * qnat (length M) < qnat (length M)) by nra.
    pose proof (Qfloor_le (d * qnat (length M))) as Fl. assert (X : (Qfloor (d * qnat (length M)) < Z.of_nat (length M))%Z).
    { rewrite Zlt_Qlt. unfold qnat in *. lra. }
    assert (P : (0 < length M)%nat) by (unfold M; cbn [length]; lia). lia. }
  destruct (rd_lt _ _ Lt) as (x & E & N). rewrite E. cbn [bind]. exists x. split; [reflexivity|exact (nth_error_In _ _ N)].
Qed.
Lemma runsat_from_in os : forall k x, In x (runsat_from k os) <-> exists j, x = (k + j)%nat /\ runsat os j.
Proof.
  induction os as [|o os IH]; intros k x; cbn [runsat_from].
  - split; [intros []|]. intros (j & _ & o & N & _). destruct j; discriminate.
  - assert (Tl : In x (runsat_from (S k) os) <-> exists j, x = (k + S j)%nat /\ runsat os j).
    { rewrite IH. split; intros (j & E & R); exists j; (split; [lia|exact R]). }
    assert (Hd : runsat (o :: os) 0 <-> match ro_inf o with None => True | Some v => 0 < v end).
    { split; [intros (o' & N & R); cbn in N; injection N as <-; exact R|intros R; exists o; split; [reflexivity|exact R]]. }
    assert (Sp : (exists j, x = (k + j)%nat /\ runsat (o :: os) j) <-> (x = k /\ runsat (o :: os) 0) \/ exists j, x = (k + S j)%nat /\ runsat os j).
    { split.
      - intros ([|j] & E & R); [left; split; [lia|exact R]|right; exists j; auto].
      - intros [(E & R)|(j & R)]; [exists O; split; [lia|exact R]|exists (S j); exact R]. }
    rewrite Sp, Hd. destruct (ro_inf o) as [v|].
    + destruct (Qltb 0 v) eqn:Q0.
      * apply Qltb_lt in Q0. cbn [In]. rewrite Tl. intuition congruence.
      * apply Qltb_ge in Q0. rewrite Tl. split; [tauto|]. intros [(_ & X)|X]; [exfalso; lra|exact X].
    + cbn [In]. rewrite Tl. intuition congruence.
Qed.
Lemma runsat_from_lt os : forall k x, In x (runsat_from k os) -> (k <= x)%nat.
Proof. intros k x H. apply runsat_from_in in H. destruct H as (j & -> & _). lia. Qed.
(** The unsatisfied objects in increasing order. *)
Lemma runsat_from_asc os : forall k, asc (runsat_from k os).
Proof.
  induction os as [|o os IH]; intros k; cbn [runsat_from]; [constructor|].
  assert (C : asc (k :: runsat_from (S k) os)) by (constructor; [apply Forall_forall; intros x Ix; apply runsat_from_lt in Ix; lia|apply IH]).
  destruct (ro_inf o) as [v|]; [destruct (Qltb 0 v); [exact C|apply IH]|exact C].
Qed.
Lemma reach_nth os j o : nth_error (reach os) j = Some o -> nth_error os j = Some o.
Proof.
  revert j. induction os as [|a os IH]; intros j H; cbn [reach] in H; [destruct j; discriminate|].
  destruct (ro_inf a); [|destruct j; discriminate]. destruct j; [exact H|]. apply IH. exact H.
Qed.
Lemma reach_all os : Forall (fun o => ro_inf o <> None) os -> reach os = os.
Proof. induction 1 as [|o os H _ IH]; cbn [reach]; [reflexivity|]. destruct (ro_inf o); [f_equal; exact IH|congruence]. Qed.

Lemma asc_app_r a b : asc (a ++ b) -> asc b /\ forall x y, In x a -> In y b -> (x < y)%nat.
Proof.
  induction a as [|z a IH]; cbn [app]; intros H; [split; [exact H|intros x y []]|]. inversion H as [|? ? H1 H2]; subst. destruct (IH H2) as (A & B).
  split; [exact A|]. intros x y [<-|Ix] Iy; [|auto]. rewrite Forall_forall in H1. apply H1, in_app_iff. right. exact Iy.
Qed.
(** Along an increasing list whose keys never worsen, the final run has the best key. *)
Lemma run_best key (l r : list nat) : asc l -> (forall x y, In x l -> In y l -> (x < y)%nat -> (key y <= key x)%Z) -> final_run key l r ->
  forall x y, In x r -> In y l -> (key x <= key y)%Z.
Proof.
  intros A M (N & _ & p & E & _) x y Ix Iy. rewrite E in A. destruct (asc_app_r _ _ A) as (Ar & Lt).
  assert (Mr : forall a b, In a r -> In b r -> (a < b)%nat -> (key b <= key a)%Z) by (intros a b Ia Ib; apply M; rewrite E; apply in_app_iff; right; assumption).
  assert (Eq : forall a b, In a r -> In b r -> key a = key b).
  { clear -Ar Mr N. induction r as [|c r IH]; intros a b Ia Ib; [destruct Ia|].
    inversion Ar as [|? ? A1 A2]; subst. destruct r as [|d r]; [destruct Ia as [<-|[]], Ib as [<-|[]]; reflexivity|].
    destruct N as (N1 & N2).
    assert (I : forall a b, In a (d :: r) -> In b (d :: r) -> key a = key b) by (apply IH; [exact N2|exact A2|intros a' b' X Y; apply Mr; right; assumption]).
    assert (Cd : key c = key d).
    { rewrite Forall_forall in A1. pose proof (A1 d (or_introl eq_refl)) as X. pose proof (Mr c d (or_introl eq_refl) (or_intror (or_introl eq_refl)) X). lia. }
    assert (K : forall e, In e (c :: d :: r) -> key e = key d) by (intros e [<-|Ie]; [exact Cd|apply I; [exact Ie|left; reflexivity]]).
    rewrite (K a Ia), (K b Ib). reflexivity. }
  rewrite E in Iy. apply in_app_iff in Iy. destruct Iy as [Iy|Iy]; [|rewrite (Eq x y Ix Iy); lia].
  apply M; [rewrite E; apply in_app_iff; left; exact Iy|rewrite E; apply in_app_iff; right; exact Ix|apply Lt; assumption].
Qed.
Lemma final_run_in key l r x : final_run key l r -> In x r -> In x l.
Proof. intros (_ & _ & p & E & _) I. rewrite E. apply in_app_iff. right. exact I. Qed.
Lemma random_ok os d : os <> [] -> Forall (fun o => (ro_prio o <= 2147483647)%Z) os -> 0 <= d -> d < 1 ->
  exists r L, choose_random os d = Ok r /\ final_run (rprio os) (runsat_from 0 (reach os)) L /\
    (r = None <-> runsat_from 0 (reach os) = []) /\ (forall i, r = Some i -> In i L /\ runsat os i) /\
    (Forall (fun o => ro_inf o <> None) os ->
     (forall i j, (i < j)%nat -> runsat os i -> runsat os j -> (rprio os j <= rprio os i)%Z) -> forall i, r = Some i -> rbest os i).
Proof.
  intros NE INT D0 D1. destruct (rsetup_ok os NE INT) as (L & E & FR). unfold choose_random. rewrite E. cbn [bind].
  assert (RU : forall i, In i (runsat_from 0 (reach os)) -> runsat os i).
  { intros i Ii. apply runsat_from_in in Ii. destruct Ii as (j & -> & o & N & R). exists o. split; [apply reach_nth; exact N|exact R]. }
  destruct L as [|a L'].
  - exists None, []. split; [reflexivity|]. split; [exact FR|]. split.
    + split; [|reflexivity]. intros _. destruct (runsat_from 0 (reach os)) eqn:X; [reflexivity|]. destruct FR as (_ & N & _). exfalso. apply N; [discriminate|reflexivity].
    + split; [discriminate|]. intros _ _ i X. discriminate.
  - destruct (rchoose_ok d (a :: L') D0 D1) as (i & -> & Ii); [discriminate|]. exists (Some i), (a :: L'). split; [reflexivity|]. split; [exact FR|]. split.
    + split; [discriminate|]. intros X. pose proof (final_run_in _ _ _ a FR (or_introl eq_refl)) as Y. rewrite X in Y. destruct Y.
    + split.
      * intros i' X. injection X as <-. split; [exact Ii|]. apply RU, (final_run_in _ _ _ i FR Ii).
      * intros NN M i' X. injection X as <-. pose proof (final_run_in _ _ _ i FR Ii) as Il. split; [apply RU, Il|]. intros j Rj.
        rewrite (reach_all _ NN) in *. apply (run_best (rprio os) (runsat_from 0 os) (a :: L')); [apply runsat_from_asc| |exact FR|exact Ii|apply runsat_from_in; exists j; auto].
        intros x y Ix Iy Lt. apply M; [exact Lt|apply RU, Ix|apply RU, Iy].
Qed.
