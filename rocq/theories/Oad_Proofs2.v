(** Proofs for the decomposition loop (C59, C60). *)
From Verif Require Import Base Arr Oad_Model Oad_Spec Oad_Proofs.
#[local] Open Scope Q_scope.

Ltac eord := repeat match goal with
  | H : ext_ltb _ _ = true |- _ => revert H
  | H : ext_ltb _ _ = false |- _ => revert H end;
  unfold ext_ltb; intros;
  repeat match goal with
  | H : Qltb _ _ = true |- _ => apply Qltb_lt in H
  | H : Qltb _ _ = false |- _ => apply Qltb_ge in H end;
  try reflexivity; try discriminate; try (apply Qltb_lt; lra); try (apply Qltb_ge; lra); try lra.
Lemma ext_lt_trans a b c : ext_ltb a b = true -> ext_ltb b c = true -> ext_ltb a c = true.
Proof. destruct a, b, c; eord. Qed.
Lemma ext_lt_le a b c : ext_ltb a b = true -> ext_ltb c b = false -> ext_ltb a c = true.
Proof. destruct a, b, c; eord. Qed.
Lemma ext_le_lt a b c : ext_ltb b a = false -> ext_ltb b c = true -> ext_ltb a c = true.
Proof. destruct a, b, c; eord. Qed.
Lemma ext_le_le a b c : ext_ltb b a = false -> ext_ltb c b = false -> ext_ltb c a = false.
Proof. destruct a, b, c; eord. Qed.
Lemma ext_lt_asym a b : ext_ltb a b = true -> ext_ltb b a = false.
Proof. destruct a, b; eord. Qed.
Lemma ext_irr a : ext_ltb a a = false.
Proof. destruct a; eord. Qed.
Lemma emax_ge f a b : ext_ltb f a = false -> ext_ltb f b = false -> ext_ltb f (emax a b) = false.
Proof. unfold emax. destruct (ext_ltb a b); auto. Qed.
Lemma pt_eqb_refl a : pt_eqb a a = true.
Proof. unfold pt_eqb. destruct (list_eq_dec Z.eq_dec a a); congruence. Qed.
Lemma pt_eqb_eq a b : pt_eqb a b = true -> a = b.
Proof. unfold pt_eqb. destruct (list_eq_dec Z.eq_dec a b); congruence. Qed.

Lemma closed_mono val c c' p : closed val c p -> ext_ltb c c' = false -> closed val c' p.
Proof. unfold closed. destruct (val p) as [f|]; [|auto]. intros A B. eapply ext_le_le; eassumption. Qed.

(** A small gap leaves nothing much better. *)
Lemma gap_ok gap ub mb f : gap_small ub mb gap = true -> ext_ltb (Fin f) mb = false -> ~ much_better gap ub f.
Proof.
  unfold gap_small, much_better. destruct ub as [|u|]; try discriminate. destruct mb as [|m|]; try discriminate.
  intros G F. cbn [ext_ltb] in F. apply Qltb_ge in F. destruct (Qeq_bool u 0) eqn:E.
  - apply Qltb_lt in G. assert (HH : - m / (1 # 10000000000) == - m * 10000000000) by (unfold Qdiv; reflexivity).
    rewrite HH in G. intros B. assert (10000000000 * f <= - gap) by lra. lra.
  - apply Qltb_lt in G. assert (NZ : ~ u == 0) by (intros Z; apply Qeq_eq_bool in Z; congruence).
    assert (P : 0 < Qabs u).
    { destruct (Qlt_le_dec 0 u) as [L|L]; [rewrite Qabs_pos by lra; exact L|]. rewrite Qabs_neg by exact L.
      destruct (Qlt_le_dec u 0); [lra|]. exfalso. apply NZ. lra. }
    intros B. assert (HH : u - m < gap * Qabs u).
    { assert (E2 : u - m == (u - m) / Qabs u * Qabs u) by (field; lra). rewrite E2. apply Qmult_lt_r; assumption. }
    lra.
Qed.

Section Run.
Context (val : problem) (O : oracle) (q : params) (c0 : ext) (SO : sound val O).
(** mb is a lower bound on every value below the cutoff. *)
Definition bound_ok (s : oast) := forall p f, val p = Some f -> ext_ltb (Fin f) (a_cut s) = true -> ext_ltb (Fin f) (a_mb s) = false.
Definition inc_ok (vis : list point) (ub cut : ext) : Prop :=
  (ub = c0 /\ cut = c0) \/
  exists p f, In p vis /\ val p = Some f /\ ub = Fin f /\ ext_ltb (Fin f) c0 = true /\
              cut = Fin (new_cutoff f (q_decr q)) /\ new_cutoff f (q_decr q) < f.
Definition inv (s : oast) : Prop :=
  inc_ok (a_vis s) (a_ub s) (a_cut s) /\ (forall p, In p (a_vis s) -> closed val (a_cut s) p) /\
  (bound_ok s \/ a_feas s = false /\
     forall p f, val p = Some f -> ext_ltb (Fin f) (a_cut s) = true -> ~ much_better (q_gap q) (a_ub s) f) /\
  (a_int s = true -> a_feas s = true -> exists a, a_last s = Some a).
Lemma inc_le vis ub cut : inc_ok vis ub cut -> ext_ltb ub cut = false /\ ext_ltb c0 cut = false.
Proof.
  intros [[-> ->]|(p & f & _ & _ & -> & L & -> & M)]; [split; apply ext_irr|].
  assert (A : ext_ltb (Fin f) (Fin (new_cutoff f (q_decr q))) = false) by (cbn [ext_ltb]; apply Qltb_ge; lra).
  split; [exact A|]. apply ext_lt_asym in L. eapply ext_le_le; eassumption.
Qed.
(** The first part of a pass: new upper bound and cutoff. *)
Definition upd (a : point) (s : oast) : outcome (ext * ext * nat) :=
  match o_nlp O a with
  | Some f =>
      if ext_ltb (Fin f) (a_cut s) then
        match emin (Fin f) (a_ub s) with
        | Fin u => let c := new_cutoff u (q_decr q) in do _ <- chk (Qltb c u); Ok (Fin u, Fin c, S (a_sols s))
        | _ => AssertFail
        end
      else Ok (a_ub s, a_cut s, a_sols s)
  | None => Ok (a_ub s, a_cut s, a_sols s)
  end.
Lemma upd_spec a s ub cut sols : inv s -> upd a s = Ok (ub, cut, sols) ->
  inc_ok (a :: a_vis s) ub cut /\ (forall p, In p (a :: a_vis s) -> closed val cut p) /\ ext_ltb (a_cut s) cut = false /\
  (sols = a_sols s \/ sols = S (a_sols s)).
Proof.
  intros (I1 & I2 & _ & _) H. unfold upd in H. rewrite (so_nlp _ _ SO) in H.
  assert (KEEP : inc_ok (a :: a_vis s) (a_ub s) (a_cut s)).
  { destruct I1 as [I1|(p & f & I & R)]; [left; exact I1|right]. exists p, f. split; [right; exact I|exact R]. }
  destruct (val a) as [f|] eqn:V.
  - destruct (ext_ltb (Fin f) (a_cut s)) eqn:B.
    + destruct (inc_le _ _ _ I1) as [L1 L2].
      assert (FU : ext_ltb (Fin f) (a_ub s) = true) by (eapply ext_lt_le; [exact B|exact L1]).
      assert (EM : emin (Fin f) (a_ub s) = Fin f).
      { unfold emin. rewrite (ext_lt_asym _ _ FU). reflexivity. }
      rewrite EM in H. cbv zeta in H. apply bind_ok in H. destruct H as (w & CK & H). injection H as <- <- <-.
      unfold chk in CK. destruct (Qltb (new_cutoff f (q_decr q)) f) eqn:LT; [|discriminate]. apply Qltb_lt in LT.
      assert (DEC : ext_ltb (a_cut s) (Fin (new_cutoff f (q_decr q))) = false).
      { apply ext_lt_asym. apply (ext_lt_trans _ (Fin f)); [cbn [ext_ltb]; apply Qltb_lt; exact LT|exact B]. }
      split; [right; exists a, f; split; [left; reflexivity|]; split; [exact V|]; split; [reflexivity|];
              split; [eapply ext_lt_le; [exact B|exact L2]|]; split; [reflexivity|exact LT]|].
      split; [|split; [exact DEC|right; reflexivity]].
      intros p [<-|I]; [|exact (closed_mono _ _ _ _ (I2 p I) DEC)].
      unfold closed. rewrite V. cbn [ext_ltb]. apply Qltb_ge. lra.
    + injection H as <- <- <-. split; [exact KEEP|]. split; [|split; [apply ext_irr|left; reflexivity]].
      intros p [<-|I]; [unfold closed; rewrite V; exact B|exact (I2 p I)].
  - injection H as <- <- <-. split; [exact KEEP|]. split; [|split; [apply ext_irr|left; reflexivity]].
    intros p [<-|I]; [unfold closed; rewrite V; exact Logic.I|exact (I2 p I)].
Qed.

Lemma start_inv sols local : inv (oa_start O c0 sols local).
Proof.
  unfold inv, oa_start. cbn [a_vis a_ub a_cut a_mb a_last a_int a_feas]. split; [left; split; reflexivity|].
  split; [intros p []|]. split.
  - left. unfold bound_ok. cbn [a_cut a_mb]. intros p f V L. apply emax_ge; [reflexivity|]. exact (so_low _ _ SO [] c0 p f V L).
  - intros I _. destruct (s_sol (o_sub O [] c0)); [eauto|discriminate].
Qed.

(** What a pass does, given the invariant: everything the two theorems need. *)
Definition go_on (s s' : oast) (a : point) : Prop :=
  a_vis s' = a :: a_vis s /\ (a_sols s' <= S (a_sols s))%nat /\ (a_sols s <= a_sols s')%nat /\
  (a_int s' = true -> a_feas s' = true ->
     (a_local s' = S (a_local s) /\ exists b, a_last s' = Some b /\ ~ In b (a_vis s')) \/
     (a_local s' = a_local s /\ (q_maxLocal q <= a_local s \/ q_maxSols q <= a_sols s')%nat)).
Lemma pass_spec s a p : inv s -> a_int s = true -> a_feas s = true -> a_last s = Some a -> oa_pass O q s = Ok p ->
  exists s', inv s' /\ a_vis s' = a :: a_vis s /\ (p = Break s' \/ p = Next s' /\ go_on s s' a).
Proof.
  intros IV AI AF AL H. unfold oa_pass in H. rewrite AL in H. fold (upd a s) in H.
  assert (U : exists r, upd a s = Ok r /\
     (let '(ub, cut, sols) := r in
      do _ <- chk (negb (Nat.eqb (o_cuts O (a :: a_vis s)) 0));
      let l := o_lp O (a :: a_vis s) cut in
      let feas := (l_opt l && negb (l_lim l) && ext_ltb (Fin (l_obj l)) cut)%bool in
      let changed := if feas then negb (match l_int l with Some b => pt_eqb b a | None => false end) else true in
      let isint := if changed then match l_int l with Some _ => true | None => false end else false in
      let mb := if changed then a_mb s else big2 in
      let pass := S (a_pass s) in
      if o_late O pass then Ok (Break (mkOa (a :: a_vis s) ub cut mb (a_local s) sols (a_last s) isint feas pass))
      else
        let stop := gap_small ub mb (q_gap q) in
        let mb := if stop then big1 else mb in
        let feas := if stop then false else feas in
        if (feas && Nat.ltb (a_local s) (q_maxLocal q) && Nat.ltb sols (q_maxSols q))%bool then
          let stop := gap_small ub mb (q_gap q) in
          let mb := if stop then big1 else mb in
          let r := o_sub O (a :: a_vis s) cut in
          let mb := emax mb (s_low r) in
          let isint := match s_sol r with Some _ => true | None => false end in
          let feas := ext_ltb mb cut in
          let same := (feas && match s_sol r with Some b => pt_eqb b a | None => false end)%bool in
          let mb := if same then big1 else mb in
          let feas := if same then false else feas in
          let low := ext_ltb mb cut in
          let mb := if low then mb else big1 in
          let feas := if low then feas else false in
          Ok (Next (mkOa (a :: a_vis s) ub cut mb (S (a_local s)) sols (s_sol r) isint feas pass))
        else Ok (Next (mkOa (a :: a_vis s) ub cut mb (a_local s) sols (a_last s) isint feas pass))) = Ok p).
  { rewrite AL. unfold upd.
    unfold upd in H. destruct (o_nlp O a) as [f|]; [destruct (ext_ltb (Fin f) (a_cut s))|]; cbv zeta in H;
      apply bind_ok in H; destruct H as (r & E & H); exists r; (split; [exact E|]); destruct r as [[ub cut] sols]; exact H. }
  clear H. destruct U as ([[ub cut] sols] & UP & H). pose proof (upd_spec _ _ _ _ _ IV UP) as (J1 & J2 & J3 & J4).
  apply bind_ok in H. destruct H as (w & _ & H). cbv zeta in H.
  set (l := o_lp O (a :: a_vis s) cut) in *.
  set (feas := (l_opt l && negb (l_lim l) && ext_ltb (Fin (l_obj l)) cut)%bool) in *.
  assert (CH : (if feas then negb (match l_int l with Some b => pt_eqb b a | None => false end) else true) = true).
  { destruct feas eqn:F; [|reflexivity]. unfold feas in F. apply andb_prop in F. destruct F as [F F3]. apply andb_prop in F. destruct F as [F1 F2].
    apply negb_true_iff in F2. destruct (l_int l) as [b|] eqn:LI; [|reflexivity].
    destruct (pt_eqb b a) eqn:PE; [|reflexivity]. exfalso. apply pt_eqb_eq in PE. subst b.
    apply (so_lp _ _ SO (a :: a_vis s) cut a F1 F2 F3 LI); [left; reflexivity|]. apply J2. left. reflexivity. }
  rewrite CH in H. cbv iota in H.
  (* bound after the cutoff update *)
  destruct IV as (_ & _ & [BO|[FF _]] & _); [|congruence].
  assert (BO' : forall p f, val p = Some f -> ext_ltb (Fin f) cut = true -> ext_ltb (Fin f) (a_mb s) = false).
  { intros p' f V L. apply (BO p' f V). eapply ext_lt_le; [exact L|exact J3]. }
  assert (SB : (sols <= S (a_sols s))%nat /\ (a_sols s <= sols)%nat) by lia. destruct SB as [SB1 SB2].
  destruct (o_late O (S (a_pass s))) eqn:LATE.
  { (* break; the state is not continued *)
    injection H as <-. eexists. split; [|split; [|left; reflexivity]; reflexivity].
    split; [exact J1|]. split; [exact J2|]. split; [left; exact BO'|]. intros _ _. eauto. }
  destruct (gap_small ub (a_mb s) (q_gap q)) eqn:GS.
  { cbn [andb] in H. injection H as <-. eexists. split; [|split; [|right; split; [reflexivity|]]; [reflexivity|]].
    - split; [exact J1|]. split; [exact J2|]. split; [|intros _; discriminate]. right. split; [reflexivity|].
      intros p' f V L. exact (gap_ok _ _ _ _ GS (BO' p' f V L)).
    - split; [reflexivity|]. split; [exact SB1|]. split; [exact SB2|]. intros _. discriminate. }
  rewrite GS in H. cbv iota in H.
  destruct (feas && Nat.ltb (a_local s) (q_maxLocal q) && Nat.ltb sols (q_maxSols q))%bool eqn:LS.
  - (* local search *)
    set (r := o_sub O (a :: a_vis s) cut) in *.
    assert (B2 : forall p f, val p = Some f -> ext_ltb (Fin f) cut = true -> ext_ltb (Fin f) (emax (a_mb s) (s_low r)) = false).
    { intros p' f V L. apply emax_ge; [exact (BO' p' f V L)|]. exact (so_low _ _ SO _ _ p' f V L). }
    assert (SM : match s_sol r with Some b => pt_eqb b a | None => false end = false).
    { destruct (s_sol r) as [b|] eqn:E; [|reflexivity]. destruct (pt_eqb b a) eqn:PE; [|reflexivity]. exfalso.
      apply pt_eqb_eq in PE. subst b. apply (so_sub _ _ SO _ _ a E); [left; reflexivity|]. apply J2. left. reflexivity. }
    rewrite SM, andb_false_r in H. cbv iota in H. injection H as <-.
    eexists. split; [|split; [|right; split; [reflexivity|]]; [reflexivity|]].
    + split; [exact J1|]. split; [exact J2|]. cbn [a_last a_int a_feas a_cut a_mb a_ub]. split.
      * destruct (ext_ltb (emax (a_mb s) (s_low r)) cut) eqn:LOW.
        -- left. unfold bound_ok. cbn [a_cut a_mb]. rewrite ?LOW. exact B2.
        -- right. split; [reflexivity|]. intros p' f V L. exfalso. pose proof (B2 p' f V L) as C.
           rewrite (ext_lt_le _ _ _ L LOW) in C. discriminate.
      * intros I _. destruct (s_sol r); [eauto|discriminate].
    + split; [reflexivity|]. split; [exact SB1|]. split; [exact SB2|]. cbn [a_last a_int a_feas a_local a_vis]. intros I _.
      left. split; [reflexivity|]. destruct (s_sol r) as [b|] eqn:E; [|discriminate]. exists b. split; [reflexivity|].
      intros IB. apply (so_sub _ _ SO _ _ b E IB). apply J2. exact IB.
  - injection H as <-. eexists. split; [|split; [|right; split; [reflexivity|]]; [reflexivity|]].
    + split; [exact J1|]. split; [exact J2|]. split; [left; exact BO'|]. intros _ _. eauto.
    + split; [reflexivity|]. split; [exact SB1|]. split; [exact SB2|]. cbn [a_int a_feas a_local a_sols]. intros _ F.
      right. split; [reflexivity|]. rewrite F in LS. cbn [andb] in LS. apply andb_false_iff in LS.
      destruct LS as [LS|LS]; [left|right]; apply Nat.ltb_ge in LS; exact LS.
Qed.

Lemma inv_right s : inv s -> oa_right val q c0 s.
Proof.
  intros (I1 & I2 & I3 & _). split; [exact I1|]. split; [exact I2|]. intros LB p f V L.
  destruct I3 as [BO|[_ T]]; [|exact (T p f V L)]. exfalso. pose proof (BO p f V L) as C.
  rewrite (ext_lt_le _ _ _ L LB) in C. discriminate.
Qed.
Lemma loop_right : forall fuel s s', inv s -> oa_loop fuel O q s = Ok s' -> oa_right val q c0 s'.
Proof.
  induction fuel as [|fuel IH]; intros s s' IV H; cbn [oa_loop] in H;
    (destruct (a_int s && a_feas s)%bool eqn:G; [|injection H as <-; exact (inv_right _ IV)]).
  - discriminate.
  - apply andb_prop in G. destruct G as [G1 G2]. apply bind_ok in H. destruct H as (p & E & H).
    destruct (proj2 (proj2 (proj2 IV)) G1 G2) as (a & AL).
    destruct (pass_spec s a p IV G1 G2 AL E) as (s1 & IV1 & _ & [->|[-> _]]).
    + injection H as <-. exact (inv_right _ IV1).
    + exact (IH s1 s' IV1 H).
Qed.
Lemma run_right fuel sols local s : performOa fuel O q c0 sols local = Ok s -> oa_right val q c0 s.
Proof. apply loop_right, start_inv. Qed.

(** No null solution is dereferenced, so the only failures are the two assertions. *)
Lemma pass_fail s a : a_last s = Some a -> oa_pass O q s = AssertFail \/ exists p, oa_pass O q s = Ok p.
Proof.
  intros AL. unfold oa_pass. rewrite AL.
  assert (G : forall (x : outcome (ext * ext * nat)) (k : ext * ext * nat -> outcome pass), (x = AssertFail \/ exists r, x = Ok r) ->
     (forall r, k r = AssertFail \/ exists p, k r = Ok p) -> bind x k = AssertFail \/ exists p, bind x k = Ok p).
  { intros x k [->|(r & ->)] K; [left; reflexivity|exact (K r)]. }
  apply G.
  - destruct (o_nlp O a) as [f|]; [|eauto]. destruct (ext_ltb (Fin f) (a_cut s)); [|eauto].
    destruct (emin (Fin f) (a_ub s)) as [|u|]; [auto| |auto]. cbv zeta. unfold chk.
    destruct (Qltb (new_cutoff u (q_decr q)) u); cbn [bind]; [eauto|auto].
  - intros [[ub cut] sols]. unfold chk. destruct (negb _); cbn [bind]; [|auto]. cbv zeta.
    destruct (o_late O _); [eauto|]. match goal with |- context [if ?b then Ok (Next _) else _] => destruct b end; eauto.
Qed.
Lemma loop_fail : forall fuel s, inv s -> oa_loop fuel O q s = AssertFail \/ oa_loop fuel O q s = Diverges \/ exists s', oa_loop fuel O q s = Ok s'.
Proof.
  induction fuel as [|fuel IH]; intros s IV; cbn [oa_loop]; (destruct (a_int s && a_feas s)%bool eqn:G; [|eauto]); [auto|].
  apply andb_prop in G. destruct G as [G1 G2]. destruct (proj2 (proj2 (proj2 IV)) G1 G2) as (a & AL).
  destruct (pass_fail s a AL) as [E|(p & E)]; rewrite E; cbn [bind]; [auto|].
  destruct (pass_spec s a p IV G1 G2 AL E) as (s1 & IV1 & _ & [->|[-> _]]); [eauto|exact (IH s1 IV1)].
Qed.

(** The assertions hold when every point gives a cut and no value is zero. *)
Lemma pass_no_assert s a : inv s -> 0 < q_decr q -> (forall vis, o_cuts O vis <> 0%nat) -> (forall p f, val p = Some f -> ~ f == 0) ->
  a_last s = Some a -> oa_pass O q s <> AssertFail.
Proof.
  intros IV DP CU NZ AL. unfold oa_pass. rewrite AL.
  assert (G : forall (x : outcome (ext * ext * nat)) (k : ext * ext * nat -> outcome pass), (exists r, x = Ok r) ->
     (forall r, k r <> AssertFail) -> bind x k <> AssertFail).
  { intros x k (r & ->) K. exact (K r). }
  apply G.
  - rewrite (so_nlp _ _ SO). destruct (val a) as [f|] eqn:V; [|eauto]. destruct (ext_ltb (Fin f) (a_cut s)) eqn:B; [|eauto].
    destruct (inc_le _ _ _ (proj1 IV)) as [L1 _].
    assert (FU : ext_ltb (Fin f) (a_ub s) = true) by (eapply ext_lt_le; [exact B|exact L1]).
    assert (EM : emin (Fin f) (a_ub s) = Fin f) by (unfold emin; rewrite (ext_lt_asym _ _ FU); reflexivity).
    rewrite EM. cbv zeta. unfold chk.
    assert (LT : Qltb (new_cutoff f (q_decr q)) f = true) by (apply Qltb_lt, new_cutoff_lt; split; [exact DP|exact (NZ a f V)]).
    rewrite LT. cbn [bind]. eauto.
  - intros [[ub cut] sols]. pose proof (CU (a :: a_vis s)) as C. apply Nat.eqb_neq in C. unfold chk. rewrite C. cbn [negb bind].
    cbv zeta. destruct (o_late O _); [discriminate|].
    match goal with |- (if ?b then Ok (Next _) else _) <> _ => destruct b end; discriminate.
Qed.
Lemma run_no_assert fuel sols local : 0 < q_decr q -> (forall vis, o_cuts O vis <> 0%nat) -> (forall p f, val p = Some f -> ~ f == 0) ->
  performOa fuel O q c0 sols local <> AssertFail.
Proof.
  intros DP CU NZ. unfold performOa. generalize (start_inv sols local). generalize (oa_start O c0 sols local).
  induction fuel as [|fuel IH]; intros s IV; cbn [oa_loop]; (destruct (a_int s && a_feas s)%bool eqn:G; [|discriminate]); [discriminate|].
  apply andb_prop in G. destruct G as [G1 G2]. destruct (proj2 (proj2 (proj2 IV)) G1 G2) as (a & AL).
  destruct (pass_fail s a AL) as [E|(p & E)]; [exfalso; exact (pass_no_assert s a IV DP CU NZ AL E)|]. rewrite E. cbn [bind].
  destruct (pass_spec s a p IV G1 G2 AL E) as (s1 & IV1 & _ & [->|[-> _]]); [discriminate|exact (IH s1 IV1)].
Qed.

(** ** Progress *)
Section Finite.
Context (U : list point) (HU : forall vis c p, s_sol (o_sub O vis c) = Some p -> In p U).
Definition prog (s : oast) (lo so : nat) : Prop :=
  NoDup (a_vis s) /\ incl (a_vis s) U /\
  (a_int s = true -> a_feas s = true -> exists a, a_last s = Some a /\ ~ In a (a_vis s) /\ In a U) /\
  (a_local s = (lo + length (a_vis s))%nat) /\ (a_sols s <= so + length (a_vis s))%nat.
Lemma last_in_U s p s' a b : inv s -> a_int s = true -> a_feas s = true -> a_last s = Some a -> oa_pass O q s = Ok p -> p = Next s' ->
  a_local s' = S (a_local s) -> a_last s' = Some b -> In b U.
Proof.
  intros IV AI AF AL H -> LO LB. unfold oa_pass in H. rewrite AL in H.
  assert (G : forall (x : outcome (ext * ext * nat)) (k : ext * ext * nat -> outcome pass), bind x k = Ok (Next s') ->
     (forall r, k r = Ok (Next s') -> In b U) -> In b U).
  { intros x k E K. apply bind_ok in E. destruct E as (r & _ & E). exact (K r E). }
  cbv zeta in H. eapply G; [exact H|]. clear H. intros [[ub cut] sols] H. cbv beta iota in H.
  apply bind_ok in H. destruct H as (w & _ & H). destruct (o_late O _); [discriminate|].
  match type of H with (if ?c then _ else _) = _ => destruct c eqn:LS end.
  - injection H as <-. cbn [a_last] in LB. exact (HU _ _ _ LB).
  - injection H as <-. cbn [a_local] in LO. lia.
Qed.
Lemma loop_ends lo so : (lo + length U <= q_maxLocal q)%nat -> (so + length U < q_maxSols q)%nat ->
  forall fuel s, inv s -> prog s lo so -> (length U < fuel + length (a_vis s))%nat -> oa_loop fuel O q s <> Diverges.
Proof.
  intros ML MS. induction fuel as [|fuel IH]; intros s IV (P1 & P2 & P3 & P4 & P5) FU; cbn [oa_loop];
    (destruct (a_int s && a_feas s)%bool eqn:G; [|discriminate]);
    apply andb_prop in G; destruct G as [G1 G2]; destruct (P3 G1 G2) as (a & AL & NI & IU).
  - exfalso. pose proof (NoDup_incl_length P1 P2). lia.
  - destruct (pass_fail s a AL) as [E|(p & E)]; rewrite E; cbn [bind]; [discriminate|].
    destruct (pass_spec s a p IV G1 G2 AL E) as (s1 & IV1 & EV & [->|[EP GO]]); [discriminate|]. subst p.
    destruct GO as (_ & GS & GS' & GO).
    assert (N1 : NoDup (a :: a_vis s)) by (constructor; assumption).
    assert (I1 : incl (a :: a_vis s) U) by (intros z [<-|Z]; [exact IU|exact (P2 z Z)]).
    pose proof (NoDup_incl_length N1 I1) as LE. simpl in LE.
    destruct (a_int s1 && a_feas s1)%bool eqn:G3.
    + apply andb_prop in G3. destruct G3 as [G3 G4]. destruct (GO G3 G4) as [(LO & b & LB & NB)|(LO & LIM)].
      * apply (IH s1 IV1).
        -- split; [rewrite EV; exact N1|]. split; [rewrite EV; exact I1|]. split; [|rewrite EV; simpl; split; lia].
           intros _ _. exists b. split; [exact LB|]. split; [exact NB|].
           exact (last_in_U s (Next s1) s1 a b IV G1 G2 AL E eq_refl LO LB).
        -- rewrite EV. simpl. lia.
      * exfalso. destruct LIM; lia.
    + destruct fuel; cbn [oa_loop]; rewrite G3; discriminate.
Qed.
Lemma run_ends sols local fuel : (S local + length U <= q_maxLocal q)%nat -> (sols + length U < q_maxSols q)%nat -> (length U < fuel)%nat ->
  performOa fuel O q c0 sols local <> Diverges.
Proof.
  intros ML MS F. unfold performOa. apply (loop_ends (S local) sols ML MS); [apply start_inv| |cbn; lia].
  unfold prog, oa_start. cbn [a_vis a_int a_feas a_last a_local a_sols length]. split; [constructor|]. split; [intros z []|].
  split; [|split; lia]. intros I _. destruct (s_sol (o_sub O [] c0)) as [b|] eqn:E; [|discriminate]. exists b. split; [reflexivity|].
  split; [intros []|exact (HU _ _ _ E)].
Qed.
End Finite.
End Run.

(** ** The feasibility checker *)
Section Fc.
Context (val : problem) (O : oracle) (decr : Q) (c0 : ext) (SO : sound val O) (DP : 0 <= decr).
Context (U : list point) (HU : forall vis c p, l_int (o_lp O vis c) = Some p -> In p U).
Definition fci (s : fcst) : Prop := fc_right val decr c0 s.
Lemma fc_ends : forall fuel a s, fci s -> NoDup (a :: f_vis s) -> incl (a :: f_vis s) U -> (length U < fuel + length (f_vis s))%nat ->
  exists s', fc_loop fuel O decr a s = Ok s' /\ fci s' /\ NoDup (f_vis s') /\ incl (f_vis s') U.
Proof.
  induction fuel as [|fuel IH]; intros a s (I1 & I2 & I3) ND IN FU.
  { exfalso. pose proof (NoDup_incl_length ND IN) as L. simpl in L. lia. }
  cbn [fc_loop]. rewrite (so_nlp _ _ SO).
  set (uc := match val a with Some f => if ext_ltb (Fin f) (f_cut s) then (Fin f, Fin (new_cutoff f decr)) else (f_ub s, f_cut s) | None => (f_ub s, f_cut s) end).
  assert (CB : ext_ltb c0 (f_cut s) = false).
  { destruct I1 as [[_ ->]|(p & f & _ & _ & _ & L & ->)]; [apply ext_irr|].
    apply ext_lt_asym in L. eapply ext_le_le; [|exact L]. cbn [ext_ltb]. apply Qltb_ge. apply new_cutoff_le, DP. }
  assert (S1 : fc_right val decr c0 (mkFc (a :: f_vis s) (snd uc) (f_mb s) (fst uc))).
  { unfold fc_right. cbn [f_ub f_cut f_vis f_mb].
    assert (KEEP : (f_ub s = c0 /\ f_cut s = c0) \/ (exists p f, In p (a :: f_vis s) /\ val p = Some f /\ f_ub s = Fin f /\ ext_ltb (Fin f) c0 = true /\ f_cut s = Fin (new_cutoff f decr))).
    { destruct I1 as [I1|(p & f & I & R)]; [left; exact I1|right; exists p, f; split; [right; exact I|exact R]]. }
    unfold uc. destruct (val a) as [f|] eqn:V; [destruct (ext_ltb (Fin f) (f_cut s)) eqn:B|]; cbn [fst snd].
    - split; [right; exists a, f; split; [left; reflexivity|]; split; [exact V|]; split; [reflexivity|]; split; [eapply ext_lt_le; eassumption|reflexivity]|].
      split; [|exact I3].
      assert (DEC : ext_ltb (f_cut s) (Fin (new_cutoff f decr)) = false).
      { apply ext_lt_asym. eapply ext_le_lt; [|exact B]. cbn [ext_ltb]. apply Qltb_ge. apply new_cutoff_le, DP. }
      intros p [<-|I]; [unfold closed; rewrite V; cbn [ext_ltb]; apply Qltb_ge, new_cutoff_le, DP|exact (closed_mono _ _ _ _ (I2 p I) DEC)].
    - split; [exact KEEP|]. split; [|exact I3]. intros p [<-|I]; [unfold closed; rewrite V; exact B|exact (I2 p I)].
    - split; [exact KEEP|]. split; [|exact I3]. intros p [<-|I]; [unfold closed; rewrite V; exact Logic.I|exact (I2 p I)]. }
  set (l := o_lp O (a :: f_vis s) (snd uc)).
  set (feas := (l_opt l && negb (l_lim l) && ext_ltb (Fin (l_obj l)) (snd uc))%bool).
  assert (NEW : forall b, feas = true -> l_int l = Some b -> ~ In b (a :: f_vis s)).
  { intros b F LI IB. unfold feas in F. apply andb_prop in F. destruct F as [F F3]. apply andb_prop in F. destruct F as [F1 F2].
    apply negb_true_iff in F2. apply (so_lp _ _ SO (a :: f_vis s) (snd uc) b F1 F2 F3 LI IB). apply (proj1 (proj2 S1)). exact IB. }
  assert (CH : (if feas then negb (match l_int l with Some b => pt_eqb b a | None => false end) else true) = true).
  { destruct feas eqn:F; [|reflexivity]. destruct (l_int l) as [b|] eqn:LI; [|reflexivity]. destruct (pt_eqb b a) eqn:PE; [|reflexivity].
    exfalso. apply pt_eqb_eq in PE. subst b. apply (NEW a eq_refl eq_refl). left. reflexivity. }
  rewrite CH. cbn [andb]. destruct feas eqn:F; [destruct (l_int l) as [b|] eqn:LI|].
  - apply IH; [exact S1| | |cbn [f_vis length]; lia].
    + cbn [f_vis]. constructor; [exact (NEW b eq_refl eq_refl)|exact ND].
    + cbn [f_vis]. intros z [<-|Z]; [exact (HU _ _ _ LI)|exact (IN z Z)].
  - eexists. split; [reflexivity|]. split; [exact S1|]. split; assumption.
  - eexists. split; [reflexivity|]. split; [exact S1|]. split; assumption.
Qed.
End Fc.
