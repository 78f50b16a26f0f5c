From Verif Require Import Base Arr Nlp LinObj_Model LinObj_Spec.
#[local] Open Scope Q_scope.

Section L.
Variable P : nlp.
Hypothesis OK : nlp_ok P.

Lemma inner_app x eta : length x = p_n P -> inner P (x ++ [eta]) = x.
Proof. intros L. unfold inner. rewrite <- L, firstn_app, Nat.sub_diag, firstn_all. simpl. apply app_nil_r. Qed.
Lemma rd_last x (eta : Q) : length x = p_n P -> rd (lo_n P - 1) (x ++ [eta]) = Ok eta.
Proof.
  intros L. unfold rd, lo_n. replace (p_n P + 1 - 1)%nat with (length x) by lia.
  rewrite nth_error_app2 by lia. rewrite Nat.sub_diag. reflexivity.
Qed.
Lemma last_of (y : list Q) : length y = (p_n P + 1)%nat ->
  exists x eta, y = x ++ [eta] /\ length x = p_n P.
Proof.
  intros L. exists (firstn (p_n P) y). destruct (skipn (p_n P) y) as [|e [|e' r]] eqn:E.
  - apply (f_equal (@length Q)) in E. rewrite skipn_length in E. simpl in E. lia.
  - exists e. split; [rewrite <- E; symmetry; apply firstn_skipn|]. rewrite firstn_length. lia.
  - apply (f_equal (@length Q)) in E. rewrite skipn_length in E. simpl in E. lia.
Qed.

Lemma blit_then_last {A} (l : list A) (v : A) n : length l = n ->
  (do a1 <- ablit 0 l (fresh (n + 1)); aset n v a1) = Ok (map Some (l ++ [v])).
Proof.
  intros L. rewrite fresh_app. rewrite ablit0_app by (rewrite fresh_length; congruence). cbn [bind].
  replace n with (length (map Some l)) by (rewrite map_length; exact L).
  change (@fresh A 1) with (@None A :: nil). rewrite aset_app, map_app. reflexivity.
Qed.
Lemma last_then_blit {A} (l : list A) (v : A) n : length l = n ->
  (do a1 <- aset n v (fresh (n + 1)); ablit 0 l a1) = Ok (map Some (l ++ [v])).
Proof.
  intros L. rewrite fresh_app.
  assert (E : aset n v (fresh n ++ fresh 1) = Ok (fresh n ++ [Some v])).
  { pose proof (aset_app (fresh n) None [] v) as H. rewrite fresh_length in H. exact H. }
  rewrite E. cbn [bind]. rewrite ablit0_app by (rewrite fresh_length; congruence). rewrite map_app. reflexivity.
Qed.
Lemma first_then_blit {A} (l : list A) (v : A) n : length l = n ->
  (do a1 <- aset 0 v (fresh (n + 1)); ablit 1 l a1) = Ok (map Some (v :: l)).
Proof.
  intros L. replace (n + 1)%nat with (1 + n)%nat by lia. rewrite fresh_app. change (@fresh A 1) with (@None A :: nil). cbn [app aset bind].
  change (Some v :: fresh n) with ([Some v] ++ @fresh A n).
  rewrite ablit_tail by (reflexivity || (rewrite fresh_length; congruence)). reflexivity.
Qed.

Lemma eval_g_ok x eta : length x = p_n P ->
  lo_eval_g P (x ++ [eta]) (fresh (lo_m P)) = Ok (map Some ((p_f P x - eta) :: p_g P x)).
Proof.
  intros L. unfold lo_eval_g. rewrite inner_app by exact L. rewrite rd_last by exact L.
  unfold lo_m. replace (p_m P + 1)%nat with (S (p_m P)) by lia.
  pose proof (first_then_blit (p_g P x) (p_f P x - eta) (p_m P) (ok_g P OK x L)) as H.
  replace (p_m P + 1)%nat with (S (p_m P)) in H by lia. change (@fresh Q (S (p_m P))) with (@None Q :: fresh (p_m P)) in *. cbn [aset bind] in H |- *.
  unfold aget. cbn [nth_error bind]. exact H.
Qed.
Lemma bounds_ok : lo_bounds P (fresh (lo_n P)) (fresh (lo_n P)) (fresh (lo_m P)) (fresh (lo_m P))
  = Ok (map Some (p_xl P ++ [MInf]), map Some (p_xu P ++ [PInf]),
        map Some (MInf :: p_gl P), map Some (Fin 0 :: p_gu P)).
Proof.
  unfold lo_bounds, lo_n, lo_m. replace (p_n P + 1 - 1)%nat with (p_n P) by lia.
  pose proof (last_then_blit (p_xl P) MInf _ (ok_xl P OK)) as H1.
  pose proof (last_then_blit (p_xu P) PInf _ (ok_xu P OK)) as H2.
  pose proof (first_then_blit (p_gl P) MInf _ (ok_gl P OK)) as H3.
  pose proof (first_then_blit (p_gu P) (Fin 0) _ (ok_gu P OK)) as H4.
  apply bind_ok in H1. destruct H1 as (a1 & -> & E1). apply bind_ok in H2. destruct H2 as (a2 & -> & E2).
  apply bind_ok in H3. destruct H3 as (a3 & -> & E3). apply bind_ok in H4. destruct H4 as (a4 & -> & E4).
  cbn [bind]. rewrite E1, E2, E3, E4. reflexivity.
Qed.

Lemma Forall2_snoc {A B} (R : A -> B -> Prop) la a lb b : length la = length lb ->
  (Forall2 R (la ++ [a]) (lb ++ [b]) <-> Forall2 R la lb /\ R a b).
Proof.
  revert lb; induction la as [|x la IH]; intros [|y lb] L; simpl in *; try discriminate.
  - split; [intros H; inversion H; auto|]. intros (_ & H). constructor; [exact H|constructor].
  - split; intros H.
    + inversion H; subst. apply IH in H5; [|lia]. destruct H5. split; [constructor|]; assumption.
    + destruct H as (H & H'). inversion H; subst. constructor; [assumption|]. apply IH; [lia|]. auto.
Qed.
Lemma equiv x eta : length x = p_n P ->
  (in_bounds (p_xl P ++ [MInf]) (p_xu P ++ [PInf]) (x ++ [eta]) /\
   in_bounds (MInf :: p_gl P) (Fin 0 :: p_gu P) ((p_f P x - eta) :: p_g P x)) <->
  (feasible P x /\ p_f P x <= eta).
Proof.
  intros L. unfold feasible, in_bounds.
  rewrite !Forall2_snoc by (rewrite ?(ok_xl P OK), ?(ok_xu P OK); lia). simpl lo_ok; simpl up_ok.
  split.
  - intros (((A & _) & (B & _)) & (C & D)). inversion C; subst. inversion D; subst. simpl in *.
    split; [tauto|]. lra.
  - intros (((A & B) & (C & D)) & E). split; [tauto|]. split; constructor; simpl; auto. lra.
Qed.

Lemma infimum v : lower_bound P v <->
  (forall y g fo xl xu gl gu, length y = lo_n P ->
     lo_bounds P (fresh (lo_n P)) (fresh (lo_n P)) (fresh (lo_m P)) (fresh (lo_m P)) =
       Ok (map Some xl, map Some xu, map Some gl, map Some gu) ->
     lo_eval_g P y (fresh (lo_m P)) = Ok (map Some g) -> lo_eval_f P y = Ok fo ->
     in_bounds xl xu y -> in_bounds gl gu g -> v <= fo).
Proof.
  assert (INJ : forall A (l l' : list A), map Some l = map Some l' -> l = l').
  { induction l as [|a l IH]; intros [|b l'] E; simpl in E; try discriminate; [reflexivity|].
    injection E as E1 E2. f_equal; auto. }
  split.
  - intros LB y g fo xl xu gl gu Ly EB EG EF B1 B2.
    destruct (last_of y Ly) as (x & eta & -> & L). unfold lo_eval_f in EF.
    rewrite rd_last in EF by exact L. injection EF as <-. rewrite eval_g_ok in EG by exact L.
    injection EG as EG1. rewrite bounds_ok in EB. injection EB as E1 E2 E3 E4.
    change (Some (p_f P x - eta) :: map Some (p_g P x)) with (map Some (p_f P x - eta :: p_g P x)) in EG1.
    change (Some MInf :: map Some (p_gl P)) with (map Some (MInf :: p_gl P)) in E3.
    change (Some (Fin 0) :: map Some (p_gu P)) with (map Some (Fin 0 :: p_gu P)) in E4.
    apply INJ in EG1, E1, E2, E3, E4. subst.
    destruct (proj1 (equiv x eta L) (conj B1 B2)) as (F & LE). specialize (LB x F). lra.
  - intros H x F. assert (L : length x = p_n P).
    { destruct F as ((F1 & _) & _). apply Forall2_len in F1. rewrite (ok_xl P OK) in F1. lia. }
    apply (H (x ++ [p_f P x]) _ _ _ _ _ _) with (1 := eq_trans (app_length x [p_f P x]) (f_equal (fun k => k + 1)%nat L))
      (2 := bounds_ok) (3 := eval_g_ok x (p_f P x) L) (4 := rd_last x (p_f P x) L).
    + apply (equiv x (p_f P x) L). split; [exact F|lra].
    + apply (equiv x (p_f P x) L). split; [exact F|lra].
Qed.

Lemma incr_rows_ok : forall l (p : arr nat),
  incr_rows (length p) (length l) (p ++ map Some l) = Ok (p ++ map Some (map S l)).
Proof.
  induction l as [|v l IH]; intros p; cbn [incr_rows length map]; [reflexivity|].
  unfold aget. rewrite nth_error_app2 by lia. rewrite Nat.sub_diag. cbn [nth_error bind].
  rewrite aset_app. cbn [bind].
  replace (p ++ Some (S v) :: map Some l) with ((p ++ [Some (S v)]) ++ map Some l)
    by (rewrite <- app_assoc; reflexivity).
  replace (S (length p)) with (length (p ++ [Some (S v)])) by (rewrite app_length; simpl; lia).
  rewrite IH, <- app_assoc. reflexivity.
Qed.
Lemma two_blits {A} (l1 l2 : list A) k1 k2 : length l1 = k1 -> length l2 = k2 ->
  (do a1 <- ablit 0 l1 (fresh (k1 + k2)); ablit k1 l2 a1) = Ok (map Some l1 ++ map Some l2).
Proof.
  intros L1 L2. rewrite fresh_app. rewrite ablit0_app by (rewrite fresh_length; congruence). cbn [bind].
  apply ablit_tail; [rewrite map_length; exact L1|rewrite fresh_length; congruence].
Qed.
Definition jst' : list (nat * nat) :=
  map (fun k => (p_off P, k)) (seq (p_off P) (lo_n P)) ++ map (fun rc => (S (fst rc), snd rc)) (p_jst P).
Lemma seq_shift_off o k : map (fun i => (i + o)%nat) (seq 0 k) = seq o k.
Proof.
  assert (G : forall a, map (fun i => (i + o)%nat) (seq a k) = seq (a + o) k).
  { induction k as [|k IH]; intros a; simpl; [reflexivity|]. f_equal. rewrite IH. reflexivity. }
  apply G.
Qed.
Lemma jac_struct_ok : lo_jac_struct P (fresh (lo_nnz_jac P)) (fresh (lo_nnz_jac P)) =
  Ok (map Some (map fst jst'), map Some (map snd jst')).
Proof.
  unfold lo_jac_struct. rewrite seq_shift_off.
  assert (N : lo_nnz_jac P = (lo_n P + length (p_jst P))%nat) by (unfold lo_nnz_jac, lo_n; lia). rewrite N.
  pose proof (two_blits (repeat (p_off P) (lo_n P)) (map fst (p_jst P)) (lo_n P) (length (p_jst P))
    (repeat_length _ _) (map_length _ _)) as H1.
  pose proof (two_blits (seq (p_off P) (lo_n P)) (map snd (p_jst P)) (lo_n P) (length (p_jst P))
    (seq_length _ _) (map_length _ _)) as H2.
  apply bind_ok in H1. destruct H1 as (a1 & -> & E1). apply bind_ok in H2. destruct H2 as (a2 & -> & E2).
  cbn [bind]. rewrite E1, E2. cbn [bind].
  replace (lo_n P + length (p_jst P) - lo_n P)%nat with (length (map fst (p_jst P))) by (rewrite map_length; lia).
  pose proof (incr_rows_ok (map fst (p_jst P)) (map Some (repeat (p_off P) (lo_n P)))) as H.
  rewrite map_length, repeat_length in H. rewrite H. cbn [bind].
  unfold jst'. rewrite !map_app, !map_map. simpl.
  assert (G : forall k o, repeat (p_off P) k = map (fun _ => p_off P) (seq o k)).
  { induction k; intros; simpl; [reflexivity|]. f_equal. apply IHk. }
  rewrite (G _ (p_off P)), ?map_map. reflexivity.
Qed.
Lemma jac_vals_ok x eta : length x = p_n P ->
  lo_jac_vals P (x ++ [eta]) (fresh (lo_nnz_jac P)) = Ok (map Some ((p_gf P x ++ [-(1)]) ++ p_jv P x)).
Proof.
  intros L. unfold lo_jac_vals. rewrite inner_app by exact L.
  assert (N : lo_nnz_jac P = (lo_n P + length (p_jst P))%nat) by (unfold lo_nnz_jac, lo_n; lia). rewrite N.
  unfold lo_n. replace (p_n P + 1 - 1)%nat with (p_n P) by lia.
  rewrite !fresh_app, <- app_assoc.
  rewrite ablit0_app by (rewrite fresh_length; symmetry; apply (ok_gf P OK x L)). cbn [bind].
  replace (p_n P) with (length (map Some (p_gf P x))) at 1 by (rewrite map_length; apply (ok_gf P OK x L)).
  change (@fresh Q 1) with (@None Q :: nil). cbn [app]. rewrite aset_app. cbn [bind].
  change (Some (-(1)) :: fresh (length (p_jst P))) with ([Some (-(1))] ++ @fresh Q (length (p_jst P))).
  rewrite app_assoc, ablit_tail.
  - rewrite !map_app. reflexivity.
  - rewrite app_length, map_length, (ok_gf P OK x L). reflexivity.
  - rewrite fresh_length. symmetry. apply (ok_jv P OK x L).
Qed.
Lemma combine_fst_snd {A B} (l : list (A * B)) : combine (map fst l) (map snd l) = l.
Proof. induction l as [|[a b] l IH]; simpl; [reflexivity|]. f_equal. exact IH. Qed.

Lemma dense_shift st vs i j : dense (p_off P) (map (fun rc : nat * nat => (S (fst rc), snd rc)) st) vs (S i) j ==
  dense (p_off P) st vs i j.
Proof.
  unfold dense. revert vs; induction st as [|[r c] st IH]; intros [|v vs]; simpl; try reflexivity.
  rewrite IH. reflexivity.
Qed.
Lemma jac_dense x i j : length x = p_n P ->
  dense (p_off P) jst' ((p_gf P x ++ [-(1)]) ++ p_jv P x) i j ==
  epi_jac (p_n P) (p_gf P x) (dense (p_off P) (p_jst P) (p_jv P x)) i j.
Proof.
  intros L. pose proof (ok_gf P OK x L) as Lg. unfold jst'.
  rewrite dense_app by (rewrite map_length, seq_length, app_length, Lg; unfold lo_n; simpl; lia).
  replace (lo_n P) with (length (p_gf P x ++ [-(1)])) by (rewrite app_length, Lg; unfold lo_n; simpl; lia).
  rewrite dense_row. destruct (Nat.leb_spec (p_off P) (j + p_off P)); [|lia].
  replace (j + p_off P - p_off P)%nat with j by lia. unfold epi_jac. destruct i as [|i].
  - rewrite Nat.eqb_refl. rewrite dense_zero.
    + destruct (Nat.ltb_spec j (p_n P)).
      * rewrite app_nth1 by lia. ring.
      * rewrite app_nth2 by lia. rewrite Lg. destruct (Nat.eqb_spec j (p_n P)).
        { subst j. rewrite Nat.sub_diag. simpl. ring. }
        destruct (j - p_n P)%nat as [|[|k]] eqn:E; [lia| |]; simpl; ring.
    + intros rc HI. apply in_map_iff in HI. destruct HI as ((r & c) & <- & HI). simpl.
      pose proof (ok_jst P OK) as F. rewrite Forall_forall in F. apply F in HI. simpl in HI. lia.
  - destruct (Nat.eqb_spec (p_off P) (S i + p_off P)); [lia|]. rewrite dense_shift.
    destruct (Nat.ltb_spec j (p_n P)); [ring|]. rewrite dense_zero; [ring|].
    intros rc HI. pose proof (ok_jst P OK) as F. rewrite Forall_forall in F. apply F in HI. lia.
Qed.
Lemma jst_range : Forall (fun rc => p_off P <= fst rc /\ fst rc < lo_m P + p_off P /\
                             p_off P <= snd rc /\ snd rc < lo_n P + p_off P)%nat jst'.
Proof.
  unfold jst', lo_n, lo_m. apply Forall_app. split; apply Forall_forall; intros rc HI; apply in_map_iff in HI;
    destruct HI as (k & <- & HI).
  - apply in_seq in HI. simpl. lia.
  - pose proof (ok_jst P OK) as F. rewrite Forall_forall in F. apply F in HI. simpl. lia.
Qed.

Lemma jacobian x eta : length x = p_n P ->
  exists ir jc vs, lo_jac_struct P (fresh (lo_nnz_jac P)) (fresh (lo_nnz_jac P)) = Ok (map Some ir, map Some jc) /\
    lo_jac_vals P (x ++ [eta]) (fresh (lo_nnz_jac P)) = Ok (map Some vs) /\
    length vs = lo_nnz_jac P /\
    Forall (fun rc => p_off P <= fst rc /\ fst rc < lo_m P + p_off P /\
                      p_off P <= snd rc /\ snd rc < lo_n P + p_off P)%nat (combine ir jc) /\
    forall i j, dense (p_off P) (combine ir jc) vs i j ==
                epi_jac (p_n P) (p_gf P x) (dense (p_off P) (p_jst P) (p_jv P x)) i j.
Proof.
  intros L. exists (map fst jst'), (map snd jst'), ((p_gf P x ++ [-(1)]) ++ p_jv P x).
  rewrite combine_fst_snd. split; [apply jac_struct_ok|]. split; [apply jac_vals_ok, L|]. split.
  - rewrite !app_length, (ok_gf P OK x L), (ok_jv P OK x L). unfold lo_nnz_jac. simpl. lia.
  - split; [apply jst_range|]. intros. apply jac_dense, L.
Qed.

Lemma hessian Hf Hg x eta s l0 lt : length x = p_n P -> length Hg = p_m P -> length lt = p_m P ->
  (forall s l i j, length l = p_m P -> dense (p_off P) (p_hst P) (p_hv P x s l) i j == lag s Hf l Hg i j) ->
  exists vs, lo_hess_vals P (x ++ [eta]) s (Some (l0 :: lt)) = Ok vs /\
    length vs = length (lo_hess_struct P) /\
    forall i j, dense (p_off P) (lo_hess_struct P) vs i j ==
                lag s (fun _ _ => 0) (l0 :: lt) (Hf :: Hg) i j.
Proof.
  intros L LG LL H. unfold lo_hess_vals. rewrite inner_app by exact L. eexists. split; [reflexivity|].
  split; [apply (ok_hv P OK); assumption|].
  intros i j. unfold lo_hess_struct. rewrite H by exact LL. unfold lag. cbn [combine map qsum fst snd]. ring.
Qed.

Lemma single x eta i v : length x = p_n P ->
  (lo_eval_gi P (x ++ [eta]) i = Ok v <->
   exists g, lo_eval_g P (x ++ [eta]) (fresh (lo_m P)) = Ok (map Some g) /\ nth_error g i = Some v).
Proof.
  intros L. rewrite eval_g_ok by exact L. unfold lo_eval_gi. rewrite inner_app, rd_last by exact L.
  pose proof (ok_g P OK x L) as Lg. split.
  - intros H. exists ((p_f P x - eta) :: p_g P x). split; [reflexivity|].
    destruct (Nat.ltb i (lo_m P)); [|discriminate]. destruct i as [|i]; cbn [bind] in H.
    + injection H as <-. reflexivity.
    + unfold rd in H. simpl. destruct (nth_error (p_g P x) i); [congruence|discriminate].
  - intros (g & E & N). assert (g = (p_f P x - eta) :: p_g P x) as ->.
    { assert (E' : map Some (p_f P x - eta :: p_g P x) = map Some g) by congruence.
      apply map_Some_inj in E'. congruence. }
    assert (i < length ((p_f P x - eta)%Q :: p_g P x))%nat as Hi by (apply nth_error_Some; congruence).
    simpl in Hi. destruct (Nat.ltb_spec i (lo_m P)) as [Hl|Hl]; [|unfold lo_m in Hl; lia]. destruct i as [|i]; simpl in N |- *; [congruence|].
    unfold rd. rewrite N. reflexivity.
Qed.
Lemma linearity : lo_lin P (fresh (lo_m P)) = Ok (map Some (false :: p_lin P)).
Proof. apply first_then_blit, (ok_lin P OK). Qed.
Lemma inttypes : lo_int P (fresh (lo_n P)) = Ok (map Some (p_int P ++ [false])).
Proof. unfold lo_int, lo_n. replace (p_n P + 1 - 1)%nat with (p_n P) by lia. apply last_then_blit, (ok_int P OK). Qed.
Lemma gradient : lo_eval_grad_f P (fresh (lo_n P)) = Ok (map Some (repeat 0 (p_n P) ++ [1])).
Proof. unfold lo_eval_grad_f, lo_n. replace (p_n P + 1 - 1)%nat with (p_n P) by lia. apply blit_then_last, repeat_length. Qed.

Lemma start zl zu : length zl = p_n P -> length zu = p_n P ->
  exists x l, lo_start P zl zu (fresh (lo_n P)) (fresh (lo_m P)) (fresh (lo_n P)) (fresh (lo_n P)) =
    Ok (map Some x, map Some l, map Some zl ++ [None], map Some zu ++ [None]) /\
  (exists g, lo_eval_g P x (fresh (lo_m P)) = Ok (map Some (g)) /\ nth 0 g 1 == 0 /\
             inner P x = p_x0 P /\ l = 0 :: p_l0 P).
Proof.
  intros Lz Lu. exists (p_x0 P ++ [p_f P (p_x0 P)]), (0 :: p_l0 P). split.
  - unfold lo_start, lo_n, lo_m. replace (p_n P + 1 - 1)%nat with (p_n P) by lia.
    pose proof (blit_then_last (p_x0 P) (p_f P (p_x0 P)) _ (ok_x0 P OK)) as H1.
    apply bind_ok in H1. destruct H1 as (a1 & -> & E1). cbn [bind].
    assert (Z : forall z : list Q, length z = p_n P -> ablit 0 z (fresh (p_n P + 1)) = Ok (map Some z ++ [None])).
    { intros z L. rewrite fresh_app. apply (ablit0_app z (fresh (p_n P)) [None]). rewrite fresh_length; congruence. }
    rewrite !Z by assumption. cbn [bind].
    replace (p_m P + 1)%nat with (1 + p_m P)%nat by lia. rewrite fresh_app.
    rewrite ablit_tail by (reflexivity || (rewrite fresh_length; symmetry; apply (ok_l0 P OK))). cbn [bind].
    rewrite E1. cbn [bind]. simpl. reflexivity.
  - pose proof (ok_x0 P OK) as L. rewrite eval_g_ok by exact L. eexists. split; [reflexivity|].
    split; [simpl; ring|]. split; [apply inner_app, L|reflexivity].
Qed.
Lemma grad_g0_vals x eta jc : length x = p_n P -> exists jc',
  lo_eval_grad_g0 P (x ++ [eta]) None (Some (fresh (lo_n P))) = Ok (jc', Some (map Some (p_gf P x ++ [-(1)]))) /\
  (jc = fresh (lo_n P) -> exists j2, lo_eval_grad_g0 P (x ++ [eta]) (Some jc) (Some (fresh (lo_n P))) =
       Ok (Some (map Some j2), Some (map Some (p_gf P x ++ [-(1)]))) /\ j2 = seq (p_off P) (lo_n P)).
Proof.
  intros L. exists None. unfold lo_eval_grad_g0. rewrite inner_app by exact L.
  pose proof (blit_then_last (p_gf P x) (-(1)) _ (ok_gf P OK x L)) as H1.
  unfold lo_n. replace (p_n P + 1 - 1)%nat with (p_n P) by lia.
  apply bind_ok in H1. destruct H1 as (a1 & -> & E1). cbn [bind]. rewrite E1. split; [reflexivity|].
  intros ->. rewrite seq_shift_off. exists (seq (p_off P) (p_n P + 1)). split; [|reflexivity].
  pose proof (ablit_fresh (seq (p_off P) (p_n P + 1))) as H. rewrite seq_length in H. rewrite H. reflexivity.
Qed.
End L.
