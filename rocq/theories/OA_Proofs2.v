(** Proofs about outer-approximation cuts, continued: validity, exactness,
    filtering, the objective cut. *)
From Verif Require Import Base Arr Nlp OA_Model OA_Spec OA_Proofs.
#[local] Open Scope Q_scope.

Lemma init_up P e i g : let s := oa_init (glow P i) (gup P i) g (nth i (e_duals e) 0) in
  (uses_up P e i /\ c_ub s = eadd (gup P i) (- g)) \/ (~ uses_up P e i /\ c_ub s = PInf).
Proof.
  unfold oa_init, uses_up. destruct (gup P i) as [|u|] eqn:U; destruct (glow P i) as [|l|] eqn:L; cbn [gtm ltp andb c_ub eadd];
    try (left; split; [split; [congruence|auto]|reflexivity]);
    try (right; split; [intros [A B]; congruence|];
         destruct (Qle_bool (nth i (e_duals e) 0) 0); reflexivity);
    try (right; split; [intros [A B]; congruence|reflexivity]);
    (destruct (Qle_bool (nth i (e_duals e) 0) 0) eqn:D;
      [apply Qleb_le in D; right; split; [intros [_ [B|B]]; [congruence|lra]|reflexivity]
      |apply Qleb_gt in D; left; split; [split; [congruence|right; exact D]|reflexivity]]).
Qed.
Lemma init_lo P e i g : let s := oa_init (glow P i) (gup P i) g (nth i (e_duals e) 0) in
  (uses_lo P e i /\ c_lb s = eadd (glow P i) (- g)) \/ (~ uses_lo P e i /\ c_lb s = MInf).
Proof.
  unfold oa_init, uses_lo. destruct (gup P i) as [|u|] eqn:U; destruct (glow P i) as [|l|] eqn:L; cbn [gtm ltp andb c_lb eadd];
    try (left; split; [split; [congruence|auto]|reflexivity]);
    try (right; split; [intros [A B]; congruence|reflexivity]);
    (destruct (Qle_bool 0 (nth i (e_duals e) 0)) eqn:D;
      [apply Qleb_le in D; right; split; [intros [_ [B|B]]; [congruence|lra]|reflexivity]
      |apply Qleb_gt in D; left; split; [split; [congruence|right; exact D]|reflexivity]]).
Qed.
Lemma init_row rl ru g d : c_row (oa_init rl ru g d) = [].
Proof. unfold oa_init. destruct (gtm rl && ltp ru)%bool; reflexivity. Qed.
Lemma init_upNot P e i g : ltp (gup P i) = false -> c_ub (oa_init (glow P i) (gup P i) g (nth i (e_duals e) 0)) = PInf.
Proof. intros H. destruct (init_up P e i g) as [[[U _] _]|[_ E]]; [|exact E]. destruct (gup P i); try discriminate; congruence. Qed.
Lemma init_loNot P e i g : gtm (glow P i) = false -> c_lb (oa_init (glow P i) (gup P i) g (nth i (e_duals e) 0)) = MInf.
Proof. intros H. destruct (init_lo P e i g) as [[[U _] _]|[_ E]]; [|exact E]. destruct (glow P i); try discriminate; congruence. Qed.

Lemma relax_ge relax u v : 0 <= relax -> up_ok u v -> up_ok (relax_ub relax u) v.
Proof.
  intros R. destruct u; cbn; auto. intros H. assert (1 <= qmax (Qabs q) 1).
  { unfold qmax. destruct (Qltb (Qabs q) 1) eqn:E; [lra|]. apply Qltb_ge in E. exact E. }
  nra.
Qed.
Lemma relax_zero relax u v : relax == 0 -> (up_ok (relax_ub relax u) v <-> up_ok u v).
Proof. intros R. destruct u; cbn; try tauto. rewrite R. split; intros; lra. Qed.

(** What a finished cut says, in terms of the corners. *)
Lemma row_cut_up P e x i s y : row_cut P e x i s ->
  shifted (c_ub (oa_init (glow P i) (gup P i) (gi P i x) (nth i (e_duals e) 0))) (c_ub s)
    (lhs (c_row s) y - dsum (e_tiny e) (e_vtiny e) (glow P i) (gup P i) (e_cl e) (e_cu e) x y (row_entries P x i)).
Proof.
  intros H. pose proof (fold_up _ _ _ _ _ _ _ y _ _ _ H (init_upNot P e i _)) as S. rewrite init_row in S.
  eapply shifted_trans; [exact S| |]; [apply shifted_refl; reflexivity|]. unfold lhs at 3. cbn [map qsum]. ring.
Qed.
Lemma row_cut_lo P e x i s y : row_cut P e x i s ->
  shifted (c_lb (oa_init (glow P i) (gup P i) (gi P i x) (nth i (e_duals e) 0))) (c_lb s)
    (lhs (c_row s) y - dsum (e_tiny e) (e_vtiny e) (glow P i) (gup P i) (e_cl e) (e_cu e) x y (row_entries P x i)).
Proof.
  intros H. pose proof (fold_lo _ _ _ _ _ _ _ y _ _ _ H (init_loNot P e i _)) as S. rewrite init_row in S.
  eapply shifted_trans; [exact S| |]; [apply shifted_refl; reflexivity|]. unfold lhs at 3. cbn [map qsum]. ring.
Qed.
Lemma box_entries P e x i y : nlp_ok P -> env_ok P e -> in_bounds (e_cl e) (e_cu e) y ->
  forall p, In p (row_entries P x i) ->
    lo_ok (nth (fst p) (e_cl e) MInf) (nth (fst p) y 0) /\ up_ok (nth (fst p) (e_cu e) PInf) (nth (fst p) y 0).
Proof.
  intros OK EN [B1 B2] [c v] I. apply (entries_col P x i c v OK) in I. cbn [fst].
  pose proof (Forall2_len _ _ _ B1) as L. rewrite (en_cl _ _ EN) in L.
  split; [apply (nth_bounds _ _ _ MInf B1)|apply (nth_bounds _ _ _ PInf B2)]; rewrite <- L; exact I.
Qed.

Theorem row_cut_valid P e x i s : nlp_ok P -> env_ok P e -> row_cut P e x i s -> valid_oa P e x i (oa_finish e s).
Proof.
  intros OK EN H y BOX [RL RU] [CU CL]. unfold cut_holds, holds, oa_finish. cbn [c_row c_lb c_ub].
  pose proof (box_entries P e x i y OK EN BOX) as BE.
  pose proof (row_cut_up P e x i s y H) as SU. pose proof (row_cut_lo P e x i s y H) as SL.
  pose proof (rowlin_entries P x i y OK) as RE. pose proof (negl_entries P (e_vtiny e) x i y) as NE.
  set (D := dsum _ _ _ _ _ _ _ _ _) in *. set (N := negligible P (e_vtiny e) x i y) in *.
  split.
  - destruct (init_lo P e i (gi P i x)) as [[US E]|[_ E]]; rewrite E in SL.
    + assert (G : gtm (glow P i) = true) by (destruct US as [A _]; destruct (glow P i); try reflexivity; congruence).
      pose proof (dsum_lo (e_tiny e) (e_vtiny e) (glow P i) (gup P i) (e_cl e) (e_cu e) x y _ G BE) as DL. fold D in DL.
      rewrite <- RE, <- NE in DL. specialize (CL US). unfold over in CL.
      rewrite (shifted_lo _ _ _ (lhs (c_row s) y + N) (D + N) SL) by ring.
      rewrite lo_ok_eadd. eapply lo_ok_le; [exact RL|]. lra.
    + cbn in SL. rewrite SL. exact Logic.I.
  - apply relax_ge; [apply (en_rel _ _ EN)|].
    destruct (init_up P e i (gi P i x)) as [[US E]|[_ E]]; rewrite E in SU.
    + assert (G : ltp (gup P i) = true) by (destruct US as [A _]; destruct (gup P i); try reflexivity; congruence).
      pose proof (dsum_up (e_tiny e) (e_vtiny e) (glow P i) (gup P i) (e_cl e) (e_cu e) x y _ G BE) as DL. fold D in DL.
      rewrite <- RE, <- NE in DL. specialize (CU US). unfold under in CU.
      rewrite (shifted_up _ _ _ (lhs (c_row s) y - N) (D - N) SU) by ring.
      rewrite up_ok_eadd. eapply up_ok_le; [exact RU|]. lra.
    + cbn in SU. rewrite SU. exact Logic.I.
Qed.

Lemma corner_moved P e x i y p : moved e x y (fst p) (snd p)
  (corner (e_tiny e) (e_vtiny e) (glow P i) (gup P i) (e_cl e) (e_cu e) x y p).
Proof.
  destruct p as [c v]. unfold moved, corner. cbn [fst snd].
  destruct (Qle_bool (e_tiny e) (Qabs v)) eqn:T.
  { apply Qleb_le in T. split; [reflexivity|]. split; [intros; lra|]. left; reflexivity. }
  apply Qleb_gt in T. destruct (Qltb (Qabs v) (e_vtiny e)) eqn:V.
  { split; [intros; lra|]. split; [reflexivity|]. right; left; reflexivity. }
  apply Qltb_ge in V.
  split; [intros; lra|]. split; [intros; lra|].
  destruct (nth c (e_cu e) PInf) as [|u|]; destruct (nth c (e_cl e) MInf) as [|l|];
   repeat match goal with |- context [if ?b then _ else _] => destruct b end;
   first [left; reflexivity | right; right; left; reflexivity | right; right; right; reflexivity].
Qed.
Lemma dsum_combine tiny vt rl ru cl cu x y es :
  qsum (map (fun p => snd (fst p) * (snd p - nth (fst (fst p)) x 0))
         (combine es (map (corner tiny vt rl ru cl cu x y) es))) == dsum tiny vt rl ru cl cu x y es.
Proof. unfold dsum. induction es as [|p es IH]; [reflexivity|]. cbn [map combine qsum]. cbn [fst snd]. rewrite IH. reflexivity. Qed.
Theorem row_cut_tight P e x i s : row_cut P e x i s -> tight_oa P e x i (oa_finish e s).
Proof.
  intros H R y LY.
  exists (map (corner (e_tiny e) (e_vtiny e) (glow P i) (gup P i) (e_cl e) (e_cu e) x y) (row_entries P x i)).
  split.
  { induction (row_entries P x i); constructor; [apply corner_moved|assumption]. }
  cbv zeta. unfold oa_finish. cbn [c_row c_lb c_ub].
  pose proof (row_cut_up P e x i s y H) as SU. pose proof (row_cut_lo P e x i s y H) as SL.
  pose proof (dsum_combine (e_tiny e) (e_vtiny e) (glow P i) (gup P i) (e_cl e) (e_cu e) x y (row_entries P x i)) as DC.
  set (D := dsum _ _ _ _ _ _ _ _ _) in *. split; intros US.
  - rewrite (relax_zero _ _ _ R). destruct (init_up P e i (gi P i x)) as [[_ E]|[N _]]; [|contradiction].
    rewrite E in SU. rewrite (shifted_up _ _ _ (lhs (c_row s) y) D SU) by ring. rewrite up_ok_eadd.
    apply up_ok_eq. rewrite DC. ring.
  - destruct (init_lo P e i (gi P i x)) as [[_ E]|[N _]]; [|contradiction].
    rewrite E in SL. rewrite (shifted_lo _ _ _ (lhs (c_row s) y) D SL) by ring. rewrite lo_ok_eadd.
    apply lo_ok_eq. rewrite DC. ring.
Qed.
Lemma in_entries P x i c v : nlp_ok P -> In (c, v) (row_entries P x i) ->
  exists c', In ((i + p_off P, c')%nat, v) (combine (p_jst P) (p_jv P x)).
Proof.
  intros OK I. apply in_map_iff in I. destruct I as ([[r c'] v'] & E & I). apply filter_In in I. destruct I as [I S].
  cbn [fst snd] in *. apply Nat.eqb_eq in S. subst r. injection E as _ <-. exists c'. exact I.
Qed.
Theorem row_cut_exact P e x i s : nlp_ok P -> row_cut P e x i s -> exact_oa P e x i (oa_finish e s).
Proof.
  intros OK H NS R y LY. unfold oa_finish. cbn [c_row c_lb c_ub].
  pose proof (row_cut_up P e x i s y H) as SU. pose proof (row_cut_lo P e x i s y H) as SL.
  assert (DE : dsum (e_tiny e) (e_vtiny e) (glow P i) (gup P i) (e_cl e) (e_cu e) x y (row_entries P x i) == rowlin P x i y).
  { rewrite (rowlin_entries P x i y OK). unfold dsum. apply qsum_ext. intros [c v] I. cbn [fst snd].
    destruct (in_entries P x i c v OK I) as (c' & I'). apply NS in I'. unfold corner.
    apply Qleb_le in I'. rewrite I'. reflexivity. }
  set (D := dsum _ _ _ _ _ _ _ _ _) in *. split; [|split; [|split]].
  - intros US. rewrite (relax_zero _ _ _ R). destruct (init_up P e i (gi P i x)) as [[_ E]|[N _]]; [|contradiction].
    rewrite E in SU. rewrite (shifted_up _ _ _ (lhs (c_row s) y) D SU) by ring. rewrite up_ok_eadd.
    apply up_ok_eq. rewrite DE. ring.
  - intros US. destruct (init_lo P e i (gi P i x)) as [[_ E]|[N _]]; [|contradiction].
    rewrite E in SL. rewrite (shifted_lo _ _ _ (lhs (c_row s) y) D SL) by ring. rewrite lo_ok_eadd.
    apply lo_ok_eq. rewrite DE. ring.
  - intros NU. destruct (init_up P e i (gi P i x)) as [[U _]|[_ E]]; [contradiction|]. rewrite E in SU. cbn in SU.
    rewrite SU. reflexivity.
  - intros NU. destruct (init_lo P e i (gi P i x)) as [[U _]|[_ E]]; [contradiction|]. rewrite E in SL. cbn in SL. exact SL.
Qed.

(** ** Filtering *)
Lemma filter_none e theta ss : oa_filter e None theta ss = Ok (map (oa_finish e) ss).
Proof. induction ss as [|s ss IH]; [reflexivity|]. cbn [oa_filter bind map]. rewrite IH. reflexivity. Qed.
Lemma filter_sub e x2 theta ss : forall cs, oa_filter e x2 theta ss = Ok cs ->
  forall c, In c cs -> exists s, In s ss /\ c = oa_finish e s.
Proof.
  induction ss as [|s ss IH]; intros cs H c I; cbn [oa_filter] in H.
  - injection H as <-. destruct I.
  - apply bind_ok in H. destruct H as (sk & _ & H). apply bind_ok in H. destruct H as (r & E & H). injection H as <-.
    destruct sk.
    + destruct (IH _ E c I) as (s' & I' & E'). exists s'. split; [right; exact I'|exact E'].
    + destruct I as [<-|I]; [exists s; split; [left; reflexivity|reflexivity]|].
      destruct (IH _ E c I) as (s' & I' & E'). exists s'. split; [right; exact I'|exact E'].
Qed.
Lemma Forall2_in_r {A B} (R : A -> B -> Prop) l l' b : Forall2 R l l' -> In b l' -> exists a, In a l /\ R a b.
Proof.
  induction 1; intros I; [destruct I|]. destruct I as [<-|I]; [exists x; split; [left; reflexivity|assumption]|].
  destruct (IHForall2 I) as (a & Ia & Ra). exists a. split; [right; exact Ia|exact Ra].
Qed.

(** ** The objective cut *)
Definition obj_entries (i : nat) (gf : list Q) : list (nat * Q) := combine (seq i (length gf)) gf.
Lemma obj_loop_cfs tiny vt e x n gf : length (e_cl e) = n -> length (e_cu e) = n -> length x = n ->
  forall i s, (i + length gf <= n)%nat ->
  obj_loop tiny vt i gf e x s = foldM (cfs tiny vt MInf (Fin 0) (e_cl e) (e_cu e) x) (obj_entries i gf) s.
Proof.
  intros L1 L2 L3. induction gf as [|v gf IH]; intros i s B; [reflexivity|]. cbn [length] in B.
  cbn [obj_loop]. unfold obj_entries. cbn [length seq combine foldM].
  rewrite (rd_nth i (e_cl e) MInf) by lia. cbn [bind].
  rewrite (rd_nth i (e_cu e) PInf) by lia. cbn [bind].
  rewrite (rd_nth i x 0) by lia. cbn [bind].
  unfold cfs at 1. cbn [fst snd]. destruct (oa_coef _ _ _ _ _ _ _ _ _ _); cbn [bind]; try reflexivity.
  apply IH. lia.
Qed.
Lemma obj_entries_nodup i gf : NoDup (map fst (obj_entries i gf)).
Proof.
  unfold obj_entries. replace (map fst (combine (seq i (length gf)) gf)) with (seq i (length gf)); [apply seq_NoDup|].
  revert i. induction gf as [|v gf IH]; intros i; [reflexivity|]. cbn. f_equal. apply IH.
Qed.
Lemma obj_entries_in i gf c : In c (map fst (obj_entries i gf)) -> (i <= c < i + length gf)%nat.
Proof.
  intros I. apply in_map_iff in I. destruct I as ([c' v] & E & I). cbn in E. subst c'. apply in_combine_l in I.
  apply in_seq in I. exact I.
Qed.
Lemma obj_sum gf (f : nat -> Q) : forall i,
  qsum (map (fun j => nth (j - i) gf 0 * f j) (seq i (length gf))) ==
  qsum (map (fun p => snd p * f (fst p)) (obj_entries i gf)).
Proof.
  induction gf as [|v gf IH]; intros i; [reflexivity|]. unfold obj_entries. cbn [length seq combine map qsum fst snd].
  rewrite Nat.sub_diag. cbn [nth]. apply Qplus_comp; [reflexivity|]. fold (obj_entries (S i) gf). rewrite <- IH.
  apply qsum_ext. intros j Hj. apply in_seq in Hj. replace (j - i)%nat with (S (j - S i)) by lia. reflexivity.
Qed.
Lemma objlin_entries P x y : nlp_ok P -> length x = p_n P ->
  objlin P x y == qsum (map (fun p => snd p * (nth (fst p) y 0 - nth (fst p) x 0)) (obj_entries 0 (p_gf P x))).
Proof.
  intros OK LX. unfold objlin. rewrite <- (obj_sum (p_gf P x) (fun j => nth j y 0 - nth j x 0) 0).
  rewrite (ok_gf _ OK x LX). apply qsum_ext. intros j _. rewrite Nat.sub_0_r. reflexivity.
Qed.
Lemma lhs_ext p y y' : (forall e, In e p -> nth (fst e) y 0 = nth (fst e) y' 0) -> lhs p y == lhs p y'.
Proof. intros H. unfold lhs. apply qsum_ext. intros e I. rewrite (H e I). reflexivity. Qed.
Lemma obj_run P e x tiny vt lb0 : nlp_ok P -> env_ok P e -> length x = p_n P ->
  exists s row, obj_loop tiny vt 0 (p_gf P x) e x (mkCut [] lb0 (Fin (- p_f P x))) = Ok s /\
    pv_insert (p_n P) (-(1)) (c_row s) = Ok row /\
    (forall y a, length y = p_n P -> lhs row (y ++ [a]) == lhs (c_row s) y - a) /\
    (forall y, shifted (Fin (- p_f P x)) (c_ub s)
       (lhs (c_row s) y - dsum tiny vt MInf (Fin 0) (e_cl e) (e_cu e) x y (obj_entries 0 (p_gf P x)))) /\
    (lb0 = MInf -> c_lb s = MInf).
Proof.
  intros OK EN LX. pose proof (ok_gf _ OK x LX) as LG.
  rewrite (obj_loop_cfs tiny vt e x (p_n P)); [|apply (en_cl _ _ EN)|apply (en_cu _ _ EN)|exact LX|lia].
  destruct (fold_total tiny vt MInf (Fin 0) (e_cl e) (e_cu e) x (obj_entries 0 (p_gf P x)) (mkCut [] lb0 (Fin (- p_f P x))))
    as (s & E & INC).
  { apply obj_entries_nodup. } { intros c _ []. }
  assert (COLS : forall en, In en (c_row s) -> (fst en < p_n P)%nat).
  { intros en I. apply (in_map fst) in I. apply INC in I. cbn [c_row map] in I. rewrite app_nil_r in I.
    apply obj_entries_in in I. lia. }
  exists s, (c_row s ++ [(p_n P, -(1))]). split; [exact E|]. split.
  { apply pv_insert_fresh. intros I. apply in_map_iff in I. destruct I as (en & E1 & I). apply COLS in I. lia. }
  split; [|split].
  - intros y a LY. rewrite lhs_app, lhs_one. rewrite app_nth2 by lia. rewrite LY, Nat.sub_diag. cbn [nth].
    rewrite (lhs_ext (c_row s) (y ++ [a]) y); [ring|]. intros en I. apply app_nth1. rewrite LY. apply COLS. exact I.
  - intros y. pose proof (fold_up tiny vt MInf (Fin 0) (e_cl e) (e_cu e) x y _ _ _ E) as S. cbn [c_ub c_row] in S.
    eapply shifted_trans; [apply S; discriminate|apply shifted_refl; reflexivity|]. unfold lhs at 3. cbn [map qsum]. ring.
  - intros ->. pose proof (fold_lo tiny vt MInf (Fin 0) (e_cl e) (e_cu e) x x _ _ _ E) as S. cbn [c_lb] in S. apply S. reflexivity.
Qed.
Lemma obj_negl_entries P vt x y : nlp_ok P -> length x = p_n P ->
  obj_negligible P vt x y == qsum (map (negl1 vt x y) (obj_entries 0 (p_gf P x))).
Proof.
  intros OK LX. unfold obj_negligible. rewrite <- (ok_gf _ OK x LX).
  assert (G : forall gf i, qsum (map (fun j => if Qltb (Qabs (nth (j - i) gf 0)) vt
                      then Qabs (nth (j - i) gf 0) * Qabs (nth j y 0 - nth j x 0) else 0) (seq i (length gf))) ==
              qsum (map (negl1 vt x y) (obj_entries i gf))).
  { induction gf as [|v gf IH]; intros i; [reflexivity|]. unfold obj_entries. cbn [length seq combine map qsum].
    rewrite Nat.sub_diag. cbn [nth]. apply Qplus_comp; [reflexivity|]. fold (obj_entries (S i) gf). rewrite <- IH.
    apply qsum_ext. intros j Hj. apply in_seq in Hj. replace (j - i)%nat with (S (j - S i)) by lia. reflexivity. }
  rewrite <- G. apply qsum_ext. intros j _. rewrite Nat.sub_0_r. reflexivity.
Qed.
Ltac use_abs v :=
  repeat match goal with
  | |- context [Qabs ?d] =>
      match d with v => fail 1 | _ => idtac end;
      let A := fresh "A" in let B := fresh "B" in let C := fresh "C" in
      pose proof (abs_mul v d) as [A B];
      assert (C : 0 <= Qabs v * Qabs d) by (apply Qmult_le_0_compat; apply Qabs_nonneg);
      let q := fresh "q" in set (q := Qabs d) in *; clearbody q
  end.
Theorem obj_valid P e x tiny vt lb0 s row : nlp_ok P -> env_ok P e -> length x = p_n P ->
  obj_loop tiny vt 0 (p_gf P x) e x (mkCut [] lb0 (Fin (- p_f P x))) = Ok s ->
  pv_insert (p_n P) (-(1)) (c_row s) = Ok row ->
  valid_obj P e vt x row MInf (c_ub s) /\ exact_obj P tiny x row MInf (c_ub s) /\
  (vt <= tiny -> tight_obj P e tiny x row (c_ub s)).
Proof.
  intros OK EN LX E R. destruct (obj_run P e x tiny vt lb0 OK EN LX) as (s1 & row1 & E1 & R1 & LH & SH & _).
  rewrite E in E1. injection E1 as <-. rewrite R in R1. injection R1 as <-.
  split; [|split].
  - intros y alpha BOX UN AL. pose proof (Forall2_len _ _ _ (proj1 BOX)) as LY. rewrite (en_cl _ _ EN) in LY. symmetry in LY.
    split; [exact Logic.I|]. specialize (SH y).
    set (D := dsum _ _ _ _ _ _ _ _ _) in *.
    assert (DL : D - obj_negligible P vt x y <= objlin P x y).
    { rewrite (objlin_entries P x y OK LX), (obj_negl_entries P vt x y OK LX). apply dsum_up; [reflexivity|].
      intros [c v] I. apply (in_map fst) in I. apply obj_entries_in in I. rewrite (ok_gf _ OK x LX) in I. cbn [fst] in *.
      destruct BOX as [B1 B2]. split; [apply (nth_bounds _ _ _ MInf B1)|apply (nth_bounds _ _ _ PInf B2)]; lia. }
    set (N := obj_negligible P vt x y) in *. unfold obj_under in UN.
    rewrite (up_ok_eq _ _ (lhs (c_row s) y - alpha - N)) by (rewrite (LH y alpha LY); reflexivity).
    rewrite (shifted_up _ _ _ (lhs (c_row s) y - alpha - N) (D - alpha - N) SH) by ring. cbn. lra.
  - split; [reflexivity|]. intros NS y alpha LY. specialize (SH y).
    assert (DE : dsum tiny vt MInf (Fin 0) (e_cl e) (e_cu e) x y (obj_entries 0 (p_gf P x)) == objlin P x y).
    { rewrite (objlin_entries P x y OK LX). unfold dsum. apply qsum_ext. intros [c v] I. cbn [fst snd].
      assert (V : tiny <= Qabs v).
      { unfold obj_entries in I. destruct (In_nth _ _ (0%nat, 0) I) as (k & Hk & Ek).
        rewrite combine_length, seq_length, Nat.min_id in Hk. rewrite combine_nth in Ek by apply seq_length.
        injection Ek as _ E2. rewrite <- E2. apply NS. rewrite <- (ok_gf _ OK x LX). exact Hk. }
      unfold corner. apply Qleb_le in V. rewrite V. reflexivity. }
    set (D := dsum _ _ _ _ _ _ _ _ _) in *.
    rewrite (up_ok_eq _ _ (lhs (c_row s) y - alpha)) by (rewrite (LH y alpha LY); reflexivity).
    rewrite (shifted_up _ _ _ (lhs (c_row s) y - alpha) (D - alpha) SH) by ring. cbn. rewrite DE. split; intros; lra.
  - intros VT alpha UP. specialize (SH x).
    rewrite (up_ok_eq _ _ (lhs (c_row s) x - alpha)) in UP by (rewrite (LH x alpha LX); reflexivity).
    set (D := dsum _ _ _ _ _ _ _ _ _) in *.
    rewrite (shifted_up _ _ _ (lhs (c_row s) x - alpha) (D - alpha) SH) in UP by ring. cbn in UP.
    assert (DB : - D <= qsum (map (fun j => if Qltb (Qabs (nth j (p_gf P x) 0)) tiny
                                  then room e x j (nth j (p_gf P x) 0) else 0) (seq 0 (p_n P)))).
    { unfold D, dsum.
      assert (G : forall gf i, - qsum (map (fun p => snd p * (corner tiny vt MInf (Fin 0) (e_cl e) (e_cu e) x x p - nth (fst p) x 0)) (obj_entries i gf)) <=
         qsum (map (fun j => if Qltb (Qabs (nth (j - i) gf 0)) tiny then room e x j (nth (j - i) gf 0) else 0) (seq i (length gf)))).
      { induction gf as [|v gf IH]; intros i; [cbn; lra|]. unfold obj_entries. cbn [length seq combine map qsum fst snd].
        rewrite Nat.sub_diag. cbn [nth]. fold (obj_entries (S i) gf). specialize (IH (S i)).
        assert (ONE : - (v * (corner tiny vt MInf (Fin 0) (e_cl e) (e_cu e) x x (i, v) - nth i x 0)) <=
                      (if Qltb (Qabs v) tiny then room e x i v else 0)).
        { unfold corner, room. destruct (Qle_bool tiny (Qabs v)) eqn:T.
          - assert (X : Qltb (Qabs v) tiny = false) by (apply Qltb_ge, Qleb_le; exact T). rewrite X. lra.
          - assert (X : Qltb (Qabs v) tiny = true) by (apply Qltb_lt, Qleb_gt; exact T). rewrite X.
            destruct (Qltb (Qabs v) vt) eqn:V.
            { destruct (nth i (e_cl e) MInf) as [|l|], (nth i (e_cu e) PInf) as [|u|]; use_abs v; lra. }
            destruct (Qltb 0 v); cbn [ltp gtm negb andb orb]; cbv iota;
            destruct (nth i (e_cl e) MInf) as [|l|], (nth i (e_cu e) PInf) as [|u|]; use_abs v; lra. }
        assert (EQ : qsum (map (fun j => if Qltb (Qabs (nth (j - i) (v :: gf) 0)) tiny then room e x j (nth (j - i) (v :: gf) 0) else 0) (seq (S i) (length gf)))
                  == qsum (map (fun j => if Qltb (Qabs (nth (j - S i) gf 0)) tiny then room e x j (nth (j - S i) gf 0) else 0) (seq (S i) (length gf)))).
        { apply qsum_ext. intros j Hj. apply in_seq in Hj. replace (j - i)%nat with (S (j - S i)) by lia. reflexivity. }
        rewrite EQ. lra. }
      pose proof (G (p_gf P x) 0%nat) as G0. rewrite (ok_gf _ OK x LX) in G0.
      eapply Qle_trans; [exact G0|]. apply Qle_lteq; right. apply qsum_ext. intros j _. rewrite Nat.sub_0_r. reflexivity. }
    lra.
Qed.
