(** Proofs about the problem object. *)
From Verif Require Import Base Arr Nlp Prob_Model Prob_Spec.
#[local] Open Scope Q_scope.

(** ** Lists *)
Lemma firstn_app_len {A} (a b : list A) k : k = length a -> firstn k (a ++ b) = a.
Proof. intros ->. rewrite firstn_app, Nat.sub_diag, firstn_all. cbn [firstn]. apply app_nil_r. Qed.
Lemma skipn_app_len {A} (a b : list A) k : k = length a -> skipn k (a ++ b) = b.
Proof. intros ->. rewrite skipn_app, Nat.sub_diag, skipn_all. reflexivity. Qed.
Lemma vresize_el k f ex v : v_el (vresize k f ex v) = firstn k (v_el v) ++ repeat f (k - length (v_el v)).
Proof. unfold vresize. destruct (Nat.leb k (v_cap v)); reflexivity. Qed.
Lemma vresize_len k f ex v : length (v_el (vresize k f ex v)) = k.
Proof. rewrite vresize_el, app_length, firstn_length, repeat_length. lia. Qed.
Lemma vput_ok o l v : (o + length l <= length (v_el v))%nat ->
  vput o l v = Ok (mkVec (v_buf v) (v_cap v) (firstn o (v_el v) ++ l ++ skipn (o + length l) (v_el v))).
Proof. intros H. unfold vput. apply Nat.leb_le in H. rewrite H. reflexivity. Qed.
Lemma chk_ok b : b = true -> chk b = Ok tt.
Proof. intros ->. reflexivity. Qed.
Lemma map_seq_nth {A} (f : nat -> A) (d : A) l n : length l = n ->
  (forall i, (i < n)%nat -> nth i l d = f i) -> l = map f (seq 0 n).
Proof.
  intros L H. apply (nth_ext _ _ d (f 0%nat)).
  - rewrite map_length, seq_length. exact L.
  - intros i Hi. rewrite map_nth, seq_nth by lia. apply H. lia.
Qed.

(** ** The invariant *)
Record inv (P : nlp) (h : list op) (s : prob) : Prop := {
  v_P : b_P s = P;
  v_xl : length (b_xl s) = p_n P;
  v_xu : length (b_xu s) = p_n P;
  v_lo : forall i, (i < p_n P)%nat -> nth i (b_xl s) MInf = lower_at P h i;
  v_up : forall i, (i < p_n P)%nat -> nth i (b_xu s) PInf = upper_at P h i;
  v_ol : b_ol s = p_xl P; v_ou : b_ou s = p_xu P;
  v_gl : b_gl s = fst (rows_now P h);
  v_gu : b_gu s = snd (rows_now P h);
  v_gg : length (b_gu s) = length (b_gl s);
  v_ty : b_ty s = p_int P;
  v_user : b_user s = p_x0 P;
  v_ws : match eff_d P h with
         | Some d => exists x, eff_x (p_n P) h = Some x /\ length x = p_n P /\
                     v_el (b_xi s) = x ++ d /\ b_di s = Some (mkPtr (v_buf (b_xi s)) (p_n P)) /\
                     (2 * p_n P <= length d)%nat
         | None => match eff_x (p_n P) h with
                   | Some x => length x = p_n P /\ v_el (b_xi s) = x
                   | None => v_el (b_xi s) = []
                   end
         end;
  v_di : match b_di s with Some _ => ever_d h = true | None => ever_d h = false end;
  v_sx : (b_xs s, b_obj s) = (fst (fst (last_final h)), snd (last_final h));
  v_sd : b_ds s = last_duals P h;
  v_sg : rows_stay h -> b_gs s = snd (fst (last_final h));
  v_xz : p_n P = 0%nat -> b_xs s = [];
  v_sgm : (m_now P h = 0%nat -> rows_stay h -> b_gs s = [])
}.
Lemma inv_m P h s : inv P h s -> num_constraints s = m_now P h.
Proof. intros I. unfold num_constraints, m_now. rewrite (v_gl _ _ _ I). reflexivity. Qed.
Lemma inv_n P h s : inv P h s -> num_variables s = p_n P.
Proof. intros I. exact (v_xl _ _ _ I). Qed.

Lemma inv_init P : nlp_ok P -> inv P [] (mk_prob P).
Proof.
  intros K. constructor; cbn; try reflexivity; try (apply K); try (intros; reflexivity).
  rewrite (ok_gl _ K). apply (ok_gu _ K).
Qed.

Ltac boundop I h :=
  constructor; cbn [b_P b_xl b_xu b_ol b_ou b_gl b_gu b_ty b_user b_xi b_di b_xs b_gs b_ds b_obj with_x
     lower_at upper_at eff_d eff_x ever_d last_final last_duals rows_stay] in *;
  [ try exact (v_P _ _ _ I) | try exact (v_xl _ _ _ I) | try exact (v_xu _ _ _ I)
  | try exact (v_lo _ _ _ I) | try exact (v_up _ _ _ I)
  | exact (v_ol _ _ _ I) | exact (v_ou _ _ _ I) | try exact (v_gl _ _ _ I) | try exact (v_gu _ _ _ I)
  | try exact (v_gg _ _ _ I) | exact (v_ty _ _ _ I) | exact (v_user _ _ _ I)
  | try exact (v_ws _ _ _ I) | try exact (v_di _ _ _ I) | try exact (v_sx _ _ _ I) | try exact (v_sd _ _ _ I)
  | try exact (v_sg _ _ _ I) | try exact (v_xz _ _ _ I) | try exact (v_sgm _ _ _ I)].

Lemma step_ok P h s o : inv P h s -> valid_op (p_n P) (m_now P h) o ->
  exists s', step o s = Ok s' /\ inv P (o :: h) s'.
Proof.
  intros I V. pose proof (inv_n _ _ _ I) as En. pose proof (inv_m _ _ _ I) as Em.
  destruct o as [|x ex|d ex|gl gu ex|gl gu|l u|l|u|i l u|i l|i u|x g zL zU lam ob vi]; cbn [valid_op] in V; cbn [step].
  - (* reset *)
    eexists; split; [reflexivity|]. unfold resetStartingPoint, with_i, vclear. boundop I h. reflexivity.
  - (* setxInit *)
    unfold setxInit. rewrite En, V, Nat.eqb_refl. cbn [chk bind].
    pose proof (v_ws _ _ _ I) as W.
    destruct (Nat.ltb_spec (length (v_el (b_xi s))) (p_n P)) as [L|L].
    + rewrite vput_ok by (rewrite vresize_len; lia). cbn [bind firstn app].
      assert (D : eff_d P h = None).
      { destruct (eff_d P h) as [d|]; [|reflexivity]. destruct W as (x' & _ & Lx & E & _).
        rewrite E, app_length in L. lia. }
      eexists; split; [reflexivity|]. unfold with_i. boundop I h.
      rewrite D. cbn [v_el]. split; [exact V|].
      rewrite skipn_all2 by (rewrite vresize_len; lia). apply app_nil_r.
    + rewrite vput_ok by lia. cbn [bind firstn app].
      eexists; split; [reflexivity|]. unfold with_i. boundop I h. cbn [v_el v_buf].
      destruct (eff_d P h) as [d|].
      * destruct W as (x' & _ & Lx & E & Ep & Ld). exists x. repeat split; try assumption.
        rewrite E. f_equal. apply skipn_app_len. lia.
      * split; [exact V|]. destruct (eff_x (p_n P) h) as [x'|].
        -- destruct W as (Lx & E). rewrite E, skipn_all2 by lia. apply app_nil_r.
        -- rewrite W in L |- *. simpl in L. rewrite skipn_nil. apply app_nil_r.
  - (* setDualsInit *)
    unfold setDualsInit. rewrite En, Em, V.
    replace (Nat.eqb (2 * p_n P + m_now P h) (p_n P * 2 + m_now P h)) with true
      by (symmetry; apply Nat.eqb_eq; lia).
    cbn [chk bind]. cbn [q_off].
    rewrite vput_ok by (rewrite vresize_len; lia). cbn [bind].
    eexists; split; [reflexivity|]. unfold with_i. boundop I h; [|reflexivity].
    cbn [v_el v_buf]. pose proof (v_ws _ _ _ I) as W.
    rewrite (skipn_all2 (v_el _)) by (rewrite vresize_len; lia). rewrite app_nil_r, vresize_el.
    destruct (eff_d P h) as [d'|].
    + destruct W as (x & Ex & Lx & E & Ep & Ld). rewrite Ex. exists x. split; [reflexivity|]. split; [exact Lx|].
      split; [|split; [reflexivity|lia]]. f_equal. rewrite E, firstn_app, firstn_firstn.
      rewrite Nat.min_l by lia. rewrite firstn_app_len by lia. rewrite firstn_length, app_length.
      replace (p_n P - Nat.min (p_n P * 3 + m_now P h) (length x + length d'))%nat with 0%nat by lia.
      apply app_nil_r.
    + destruct (eff_x (p_n P) h) as [x|].
      * destruct W as (Lx & E). exists x. split; [reflexivity|]. split; [exact Lx|].
        split; [|split; [reflexivity|lia]]. f_equal. rewrite E, firstn_app, firstn_firstn.
        rewrite Nat.min_l by lia. rewrite firstn_all2 by lia. rewrite firstn_length.
        replace (p_n P - Nat.min (p_n P * 3 + m_now P h) (length x))%nat with 0%nat by lia.
        apply app_nil_r.
      * exists (repeat 0 (p_n P)). split; [reflexivity|]. split; [apply repeat_length|].
        split; [|split; [reflexivity|lia]]. f_equal. rewrite W. cbn [length]. rewrite firstn_nil, Nat.sub_0_r.
        cbn [app]. replace (p_n P * 3 + m_now P h)%nat with (p_n P + (p_n P * 2 + m_now P h))%nat by lia.
        rewrite repeat_app. apply firstn_app_len. rewrite repeat_length. reflexivity.
  - (* rows added *)
    eexists; split; [reflexivity|].
    assert (E2 : length (fst (rows_now P h) ++ gl) = m_now P (OAdd gl gu ex :: h)) by reflexivity.
    unfold add_rows, num_variables, num_constraints, with_i, with_sol, with_g.
    cbn [b_P b_xl b_xu b_ol b_ou b_gl b_gu b_ty b_user b_xi b_di b_xs b_gs b_ds b_obj].
    rewrite (v_xl _ _ _ I), (v_gl _ _ _ I), (v_gu _ _ _ I), E2.
    boundop I h; try reflexivity.
    + rewrite !app_length. pose proof (v_gg _ _ _ I) as G. rewrite (v_gu _ _ _ I), (v_gl _ _ _ I) in G. lia.
    + pose proof (v_ws _ _ _ I) as W. rewrite vresize_el.
      set (m := m_now P (OAdd gl gu ex :: h)) in *.
      destruct (eff_d P h) as [d'|].
      * destruct W as (x & Ex & Lx & E & Ep & Ld). rewrite Ex. exists x. split; [reflexivity|]. split; [exact Lx|].
        split; [|split; [reflexivity|rewrite app_length, firstn_length, repeat_length; lia]].
        rewrite E, app_length. rewrite firstn_app, (firstn_all2 x) by lia. rewrite <- app_assoc. f_equal.
        replace (m + 3 * p_n P - length x)%nat with (2 * p_n P + m)%nat by lia.
        replace (m + 3 * p_n P - (length x + length d'))%nat with (2 * p_n P + m - length d')%nat by lia.
        reflexivity.
      * destruct (eff_x (p_n P) h) as [x|].
        -- destruct W as (Lx & E). exists x. split; [reflexivity|]. split; [exact Lx|].
           split; [|split; [reflexivity|rewrite app_length, firstn_length, repeat_length; cbn [length]; lia]].
           rewrite E, firstn_all2 by lia. f_equal. rewrite firstn_nil. cbn [app length]. f_equal. lia.
        -- exists (repeat 0 (p_n P)). split; [reflexivity|]. split; [apply repeat_length|].
           split; [|split; [reflexivity|rewrite app_length, firstn_length, repeat_length; cbn [length]; lia]].
           rewrite W. cbn [length]. rewrite !firstn_nil, !Nat.sub_0_r. cbn [app].
           rewrite <- repeat_app. f_equal. lia.
    + unfold resizeQ. rewrite (v_sd _ _ _ I). reflexivity.
    + unfold m_now. cbn [rows_now fst]. rewrite app_length. intros Hm.
      apply (v_sgm _ _ _ I). unfold m_now. lia.
  - (* rows removed *)
    eexists; split; [reflexivity|]. unfold del_rows, with_g. destruct V as [V V'].
    boundop I h; try reflexivity; try exact V.
    + intros (R & _). exact (v_sg _ _ _ I R).
    + unfold m_now. cbn [rows_now fst]. intros Hm (R & Hg). destruct gl; [congruence|discriminate].
  - (* all bounds *)
    destruct V as [Vl Vu]. unfold SetVariablesBounds. rewrite En, Vl, Vu, Nat.eqb_refl. cbn [chk bind andb].
    eexists; split; [reflexivity|]. boundop I h; try assumption; intros; reflexivity.
  - unfold SetVariablesLowerBounds. rewrite En, V, Nat.eqb_refl. cbn [chk bind].
    eexists; split; [reflexivity|]. boundop I h; try assumption; intros; reflexivity.
  - unfold SetVariablesUpperBounds. rewrite En, V, Nat.eqb_refl. cbn [chk bind].
    eexists; split; [reflexivity|]. boundop I h; try assumption; intros; reflexivity.
  - unfold SetVariableBounds. rewrite En. rewrite (proj2 (Nat.ltb_lt _ _) V). cbn [chk bind].
    rewrite lset_ok by (rewrite (v_xl _ _ _ I); exact V). cbn [bind].
    rewrite lset_ok by (rewrite (v_xu _ _ _ I); exact V). cbn [bind].
    eexists; split; [reflexivity|]. boundop I h.
    + rewrite upd_length; [exact (v_xl _ _ _ I)|rewrite (v_xl _ _ _ I); exact V].
    + rewrite upd_length; [exact (v_xu _ _ _ I)|rewrite (v_xu _ _ _ I); exact V].
    + intros j Hj. rewrite upd_nth by (rewrite (v_xl _ _ _ I); exact V).
      destruct (Nat.eqb j i); [reflexivity|]. exact (v_lo _ _ _ I j Hj).
    + intros j Hj. rewrite upd_nth by (rewrite (v_xu _ _ _ I); exact V).
      destruct (Nat.eqb j i); [reflexivity|]. exact (v_up _ _ _ I j Hj).
  - unfold SetVariableLowerBound. rewrite En. rewrite (proj2 (Nat.ltb_lt _ _) V). cbn [chk bind].
    rewrite lset_ok by (rewrite (v_xl _ _ _ I); exact V). cbn [bind].
    eexists; split; [reflexivity|]. boundop I h.
    + rewrite upd_length; [exact (v_xl _ _ _ I)|rewrite (v_xl _ _ _ I); exact V].
    + intros j Hj. rewrite upd_nth by (rewrite (v_xl _ _ _ I); exact V).
      destruct (Nat.eqb j i); [reflexivity|]. exact (v_lo _ _ _ I j Hj).
  - unfold SetVariableUpperBound. rewrite En. rewrite (proj2 (Nat.ltb_lt _ _) V). cbn [chk bind].
    rewrite lset_ok by (rewrite (v_xu _ _ _ I); exact V). cbn [bind].
    eexists; split; [reflexivity|]. boundop I h.
    + rewrite upd_length; [exact (v_xu _ _ _ I)|rewrite (v_xu _ _ _ I); exact V].
    + intros j Hj. rewrite upd_nth by (rewrite (v_xu _ _ _ I); exact V).
      destruct (Nat.eqb j i); [reflexivity|]. exact (v_up _ _ _ I j Hj).
  - (* finalize *)
    destruct V as (Vx & Vg & Vl & Vu & Vm). unfold finalize_solution.
    rewrite En, Em, Vx, Vg, Vl, Vu, Vm, !Nat.eqb_refl. cbn [chk bind andb].
    eexists; split; [reflexivity|]. unfold with_sol. boundop I h; cbn [fst snd].
    + destruct vi; reflexivity.
    + reflexivity.
    + intros R. destruct (Nat.ltb_spec 0 (m_now P h)) as [L|L]; [reflexivity|].
      replace (b_gs s) with (@nil Q) by (symmetry; apply (v_sgm _ _ _ I); [lia|exact R]).
      destruct g; [reflexivity|]. simpl in Vg. lia.
    + intros Z. destruct x; [reflexivity|simpl in Vx; lia].
    + intros Z R. change (m_now P h = 0%nat) in Z. rewrite Z. cbn [Nat.ltb Nat.leb].
      apply (v_sgm _ _ _ I); assumption.
Qed.

Lemma run_inv P h : nlp_ok P -> valid_hist P h -> exists s, run P h = Ok s /\ inv P h s.
Proof.
  intros K. induction h as [|o h IH]; intros V.
  - exists (mk_prob P). split; [reflexivity|]. apply inv_init, K.
  - destruct V as [V1 V2]. destruct (IH V1) as (s & E & I).
    destruct (step_ok _ _ _ _ I V2) as (s' & E' & I').
    exists s'. split; [|exact I']. unfold run in *. cbn [run_from]. rewrite E. exact E'.
Qed.

(** ** Queries *)
Lemma duals_chk_ok P h s d p : inv P h s -> eff_d P h = Some d -> b_di s = Some p ->
  length d = (2 * p_n P + m_now P h)%nat -> duals_chk (p_n P) (m_now P h) p s = Ok tt.
Proof.
  intros I E D L. pose proof (v_ws _ _ _ I) as W. rewrite E in W.
  destruct W as (x & _ & Lx & El & Ep & _). unfold duals_chk. rewrite El, app_length, Lx, L.
  replace (Nat.eqb (p_n P + (2 * p_n P + m_now P h)) (3 * p_n P + m_now P h)) with true
    by (symmetry; apply Nat.eqb_eq; lia).
  cbn [chk bind]. rewrite Ep in D. injection D as <-. cbn [q_buf q_off]. rewrite !Nat.eqb_refl. reflexivity.
Qed.
Lemma query_ok P h s ix iz il : nlp_ok P -> (0 < p_n P)%nat -> inv P h s ->
  get_starting_point (p_n P) (m_now P h) ix iz il s = real_answer P h ix iz il.
Proof.
  intros K N I. unfold get_starting_point. rewrite (inv_n _ _ _ I), (inv_m _ _ _ I), !Nat.eqb_refl.
  cbn [chk bind].
  set (n := p_n P) in *. set (m := m_now P h) in *.
  pose proof (v_ws _ _ _ I) as W. fold n in W.
  (* the primal part *)
  assert (EX : (if ix then
             match v_el (b_xi s) with
             | [] => do _ <- chk (Nat.leb n (length (b_user s))); Ok (Some (firstn n (b_user s)))
             | _ :: _ => do x <- vread 0 n (b_xi s); Ok (Some x)
             end else Ok None) =
           Ok (if ix then Some (match eff_x n h with Some x => x | None => p_x0 P end) else None)).
  { destruct ix; [|reflexivity].
    assert (HD : forall x r, v_el (b_xi s) = x ++ r -> length x = n ->
              match v_el (b_xi s) with
              | [] => do _ <- chk (Nat.leb n (length (b_user s))); Ok (Some (firstn n (b_user s)))
              | _ :: _ => do x <- vread 0 n (b_xi s); Ok (Some x)
              end = Ok (Some x)).
    { intros x r E L. unfold vread. rewrite E. destruct x as [|x0 x]; [simpl in L; lia|]. cbn [app].
      rewrite app_comm_cons.
      replace (Nat.leb (0 + n) (length ((x0 :: x) ++ r))) with true
        by (symmetry; apply Nat.leb_le; rewrite app_length; lia).
      cbn [bind skipn]. rewrite firstn_app_len by lia. reflexivity. }
    destruct (eff_d P h) as [d|].
    - destruct W as (x & Ex & Lx & E & _). rewrite Ex. exact (HD x d E Lx).
    - destruct (eff_x n h) as [x|].
      + destruct W as (Lx & E). apply (HD x []); [rewrite app_nil_r; exact E|exact Lx].
      + rewrite W, (v_user _ _ _ I), (ok_x0 _ K). fold n.
        replace (Nat.leb n n) with true by (symmetry; apply Nat.leb_le; lia). cbn [chk bind].
        rewrite firstn_all2 by (rewrite (ok_x0 _ K); apply Nat.le_refl). reflexivity. }
  rewrite EX. cbn [bind]. clear EX. unfold real_answer. fold n. fold m.
  set (x := match eff_x n h with Some x => x | None => p_x0 P end) in *.
  pose proof (v_di _ _ _ I) as D.
  destruct (eff_d P h) as [d|] eqn:ED.
  - destruct W as (x' & Ex & Lx & E & Ep & Ld). rewrite Ep.
    destruct (Nat.eqb_spec (length d) (2 * n + m)) as [L|L]; cbn [negb andb].
    + rewrite andb_false_r.
      pose proof (duals_chk_ok _ _ _ _ _ I ED Ep L) as C. fold n m in C. rewrite C. cbn [bind].
      assert (RL : (if Nat.ltb 0 m then do l <- pread (mkPtr (v_buf (b_xi s)) n) (2 * n) m (b_xi s); Ok l else Ok []) =
                   Ok (skipn (2 * n) d)).
      { destruct (Nat.ltb_spec 0 m) as [M|M].
        - unfold pread. cbn [q_buf q_off]. rewrite Nat.eqb_refl. unfold vread. rewrite E, app_length.
          replace (Nat.leb (n + 2 * n + m) (length x' + length d)) with true by (symmetry; apply Nat.leb_le; lia).
          cbn [bind]. f_equal. rewrite skipn_app, (skipn_all2 x') by lia. cbn [app].
          replace (n + 2 * n - length x')%nat with (2 * n)%nat by lia.
          apply firstn_all2. rewrite skipn_length. lia.
        - rewrite skipn_all2 by lia. reflexivity. }
      assert (RZ : pread (mkPtr (v_buf (b_xi s)) n) 0 n (b_xi s) = Ok (firstn n d)).
      { unfold pread. cbn [q_buf q_off]. rewrite Nat.eqb_refl. unfold vread. rewrite E, app_length.
        replace (Nat.leb (n + 0 + n) (length x' + length d)) with true by (symmetry; apply Nat.leb_le; lia).
        f_equal. f_equal. apply skipn_app_len. lia. }
      assert (RU : pread (mkPtr (v_buf (b_xi s)) n) n n (b_xi s) = Ok (firstn n (skipn n d))).
      { unfold pread. cbn [q_buf q_off]. rewrite Nat.eqb_refl. unfold vread. rewrite E, app_length.
        replace (Nat.leb (n + n + n) (length x' + length d)) with true by (symmetry; apply Nat.leb_le; lia).
        f_equal. f_equal. rewrite skipn_app, (skipn_all2 x') by lia. cbn [app]. f_equal. lia. }
      destruct iz.
      * rewrite RZ, RU. cbn [bind]. destruct il; [rewrite RL|]; reflexivity.
      * destruct il; [rewrite RL|]; reflexivity.
    + assert (C : duals_chk n m (mkPtr (v_buf (b_xi s)) n) s = AssertFail).
      { unfold duals_chk. rewrite E, app_length.
        replace (Nat.eqb (length x' + length d) (3 * n + m)) with false; [reflexivity|].
        symmetry. apply Nat.eqb_neq. lia. }
      rewrite C. cbn [bind andb]. destruct iz, il; reflexivity.
  - assert (LE : length (v_el (b_xi s)) <> (3 * n + m)%nat).
    { destruct (eff_x n h) as [x'|]; [destruct W as (Lx & ->); lia|rewrite W; simpl; lia]. }
    destruct (b_di s) as [p|].
    + rewrite D.
      assert (C : duals_chk n m p s = AssertFail).
      { unfold duals_chk. apply Nat.eqb_neq in LE. rewrite LE. reflexivity. }
      rewrite C. cbn [bind]. rewrite andb_true_r. destruct iz, il; reflexivity.
    + rewrite D, andb_false_r. destruct iz, il; reflexivity.
Qed.

Lemma C15_exact_lem P h : nlp_ok P -> (0 < p_n P)%nat -> valid_hist P h ->
  exists s, run P h = Ok s /\
  forall ix iz il, get_starting_point (p_n P) (m_now P h) ix iz il s = real_answer P h ix iz il.
Proof.
  intros K N V. destruct (run_inv P h K V) as (s & E & I). exists s. split; [exact E|].
  intros. apply query_ok; assumption.
Qed.

(** When both parts have been set since the last reset and the rows did not change
    since then, the solver gets exactly what was set. *)
Fixpoint no_rows (h : list op) : Prop :=
  match h with
  | [] => True
  | OAdd _ _ _ :: _ | ODel _ _ :: _ => False
  | _ :: h => no_rows h
  end.
Lemma last_x_eff n h x : last_x h = Some x -> eff_x n h = Some x.
Proof.
  induction h as [|o h IH]; [discriminate|]. destruct o; cbn [last_x eff_x]; intros E; auto; try discriminate;
  rewrite (IH E); reflexivity.
Qed.
Lemma last_d_eff P h d : no_rows h -> last_d h = Some d -> eff_d P h = Some d /\ wanted_d h = Some d.
Proof.
  induction h as [|o h IH]; [discriminate|].
  destruct o; cbn [no_rows last_d eff_d wanted_d]; intros N E; auto; try discriminate; try tauto.
Qed.
Lemma no_rows_m P h : no_rows h -> m_now P h = length (p_gl P).
Proof.
  induction h as [|o h IH]; [reflexivity|]. unfold m_now in *.
  destruct o; cbn [no_rows rows_now]; intros N; auto; tauto.
Qed.
Lemma last_d_len P h d : valid_hist P h -> no_rows h -> last_d h = Some d ->
  length d = (2 * p_n P + length (p_gl P))%nat.
Proof.
  induction h as [|o h IH]; [discriminate|]. intros [V W] N E.
  destruct o; cbn [no_rows last_d valid_op] in *; try tauto; try discriminate; auto.
  injection E as <-. rewrite W, (no_rows_m P h N). reflexivity.
Qed.
Lemma C15_both_lem P h x d : nlp_ok P -> (0 < p_n P)%nat -> valid_hist P h -> no_rows h ->
  last_x h = Some x -> last_d h = Some d ->
  exists s, run P h = Ok s /\
  forall ix iz il, get_starting_point (p_n P) (m_now P h) ix iz il s = Ok (answer (p_n P) x (Some d) ix iz il).
Proof.
  intros K N V R Ex Ed. destruct (C15_exact_lem P h K N V) as (s & E & H). exists s. split; [exact E|].
  intros. rewrite H. unfold real_answer. rewrite (last_x_eff _ _ _ Ex).
  destruct (last_d_eff P h d R Ed) as [-> _].
  rewrite (last_d_len P h d V R Ed), (no_rows_m P h R), Nat.eqb_refl. cbn [negb]. rewrite andb_false_r. reflexivity.
Qed.
(** A history that never gives multipliers: the primal point is the last one set
    since the last reset, or the user's, and no multipliers are handed out. *)
Lemma never_d_eff P h : ever_d h = false -> eff_d P h = None /\ eff_x (p_n P) h = last_x h.
Proof.
  induction h as [|o h IH]; [split; reflexivity|].
  destruct o; cbn [ever_d eff_d eff_x last_x]; intros E; try discriminate; auto; split; try reflexivity; apply IH, E.
Qed.
Lemma C15_primal_lem P h : nlp_ok P -> (0 < p_n P)%nat -> valid_hist P h -> ever_d h = false ->
  exists s, run P h = Ok s /\
  forall ix iz il, get_starting_point (p_n P) (m_now P h) ix iz il s =
    Ok (answer (p_n P) (match last_x h with Some x => x | None => p_x0 P end) None ix iz il).
Proof.
  intros K N V R. destruct (C15_exact_lem P h K N V) as (s & E & H). exists s. split; [exact E|].
  intros. rewrite H. unfold real_answer. destruct (never_d_eff P h R) as [-> ->]. rewrite R, andb_false_r. reflexivity.
Qed.

(** ** Bounds *)
Lemma C51_lem P h : nlp_ok P -> valid_hist P h ->
  exists s, run P h = Ok s /\
    get_bounds_info (p_n P) (m_now P h) s =
      Ok (map (lower_at P h) (seq 0 (p_n P)), map (upper_at P h) (seq 0 (p_n P)),
          fst (rows_now P h), snd (rows_now P h)) /\
    b_ol s = p_xl P /\ b_ou s = p_xu P.
Proof.
  intros K V. destruct (run_inv P h K V) as (s & E & I). exists s. split; [exact E|].
  split; [|split; [exact (v_ol _ _ _ I)|exact (v_ou _ _ _ I)]].
  unfold get_bounds_info. rewrite (inv_n _ _ _ I), (inv_m _ _ _ I), !Nat.eqb_refl. cbn [chk bind].
  rewrite <- (map_seq_nth (lower_at P h) MInf (b_xl s) _ (v_xl _ _ _ I) (v_lo _ _ _ I)).
  rewrite <- (map_seq_nth (upper_at P h) PInf (b_xu s) _ (v_xu _ _ _ I) (v_up _ _ _ I)).
  rewrite (v_gl _ _ _ I), (v_gu _ _ _ I). reflexivity.
Qed.

(** ** Solutions *)
Lemma C52_lem P h : nlp_ok P -> valid_hist P h -> rows_stay h ->
  exists s, run P h = Ok s /\ (b_xs s, b_gs s, b_obj s) = last_final h /\ b_ds s = last_duals P h.
Proof.
  intros K V R. destruct (run_inv P h K V) as (s & E & I). exists s. split; [exact E|].
  split; [|exact (v_sd _ _ _ I)]. pose proof (v_sx _ _ _ I) as X. rewrite (v_sg _ _ _ I R).
  injection X as -> ->. destruct (last_final h) as [[a b] c]. reflexivity.
Qed.

(** ** Rounding and checking *)
Lemma qmax_ge a b : a <= qmax a b /\ b <= qmax a b.
Proof. unfold qmax. qcase; split; lra. Qed.
Lemma qmax_is a b : qmax a b = a \/ qmax a b = b.
Proof. unfold qmax. destruct (Qltb a b); auto. Qed.
Lemma emax_fin a b e : emax a b = Fin e -> a <> MInf -> b <> MInf ->
  exists x y, a = Fin x /\ b = Fin y /\ e = qmax x y.
Proof. destruct a, b; cbn; intros H N1 N2; try discriminate; try congruence. injection H as <-. eauto. Qed.
Lemma vlo_fin l v : vlo l v <> MInf. Proof. destruct l; discriminate. Qed.
Lemma vup_fin l v : vup l v <> MInf. Proof. destruct l; discriminate. Qed.
Lemma emax_nm a b : a <> MInf -> b <> MInf -> emax a b <> MInf.
Proof. destruct a, b; cbn; congruence. Qed.
Lemma errloop_ge gl : forall gu g e r, e <> MInf -> errloop gl gu g e = Fin r ->
  exists e0, e = Fin e0 /\ e0 <= r /\ (0 <= e0 -> viol_le r gl gu g) /\
    (r == e0 \/ exists i v, nth_error g i = Some v /\
     (((exists q, nth_error gl i = Some (Fin q) /\ r == q - v) \/
       (exists q, nth_error gu i = Some (Fin q) /\ r == v - q)) \/ r == 0)).
Proof.
  induction gl as [|l gl IH]; intros gu g e r N H.
  { cbn in H. subst e. exists r. split; [reflexivity|]. split; [lra|]. split; [|left; reflexivity].
    intros _ i l u v H1. destruct i; discriminate. }
  destruct gu as [|u gu].
  { cbn in H. subst e. exists r. split; [reflexivity|]. split; [lra|]. split; [|left; reflexivity].
    intros _ i l' u v H1 H2. destruct i; discriminate. }
  destruct g as [|v g].
  { cbn in H. subst e. exists r. split; [reflexivity|]. split; [lra|]. split; [|left; reflexivity].
    intros _ i l' u' v H1 H2 H3. destruct i; discriminate. }
  cbn [errloop] in H.
  apply IH in H; [|apply emax_nm; [apply emax_nm; [exact N|apply vlo_fin]|apply vup_fin]].
  destruct H as (e1 & E1 & L1 & V1 & C1).
  apply emax_fin in E1; [|apply emax_nm; [exact N|apply vlo_fin]|apply vup_fin].
  destruct E1 as (a & b & Ea & Eb & ->).
  apply emax_fin in Ea; [|exact N|apply vlo_fin]. destruct Ea as (c & d & Ec & Ed & ->).
  exists c. split; [exact Ec|].
  pose proof (qmax_ge (qmax c d) b) as [M1 M2]. pose proof (qmax_ge c d) as [M3 M4].
  split; [lra|].
  assert (Hd : 0 <= d).
  { destruct l; cbn in Ed; try discriminate; injection Ed as <-; [lra|]. apply (proj1 (qmax_ge 0 _)). }
  assert (Hb : 0 <= b).
  { destruct u; cbn in Eb; try discriminate; injection Eb as <-; [|lra]. apply (proj1 (qmax_ge 0 _)). }
  split.
  - intros Hc. assert (V : viol_le r gl gu g) by (apply V1; lra).
    intros i l' u' v' H1 H2 H3. destruct i as [|i]; [|exact (V i _ _ _ H1 H2 H3)].
    cbn in H1, H2, H3. injection H1 as <-. injection H2 as <-. injection H3 as <-. split.
    + destruct l; cbn in Ed; try discriminate; [exact Logic.I|]. injection Ed as <-.
      pose proof (proj2 (qmax_ge 0 (q - v))). lra.
    + destruct u; cbn in Eb; try discriminate; [|exact Logic.I]. injection Eb as <-.
      pose proof (proj2 (qmax_ge 0 (- q + v))). lra.
  - destruct C1 as [C1|(i & v' & Hv & C1)].
    + destruct (qmax_is (qmax c d) b) as [E|E]; rewrite E in C1.
      * destruct (qmax_is c d) as [E'|E']; rewrite E' in C1; [left; exact C1|].
        right. exists 0%nat, v. split; [reflexivity|].
        destruct l; cbn in Ed; try discriminate; injection Ed as <-; [right; exact C1|].
        destruct (qmax_is 0 (q - v)) as [E2|E2]; rewrite E2 in C1; [right; exact C1|].
        left. left. exists q. split; [reflexivity|exact C1].
      * right. exists 0%nat, v. split; [reflexivity|].
        destruct u; cbn in Eb; try discriminate; injection Eb as <-; [|right; exact C1].
        destruct (qmax_is 0 (- q + v)) as [E2|E2]; rewrite E2 in C1; [right; exact C1|].
        left. right. exists q. split; [reflexivity|]. rewrite C1. ring.
    + right. exists (S i), v'. split; [exact Hv|]. exact C1.
Qed.
Lemma errloop_viol gl gu g e : errloop gl gu g (Fin 0) = Fin e ->
  0 <= e /\ viol_le e gl gu g /\ viol_hit e gl gu g.
Proof.
  intros H. apply errloop_ge in H; [|discriminate]. destruct H as (e0 & E & L & V & C).
  injection E as <-. split; [exact L|]. split; [apply V; lra|].
  destruct C as [C|(i & v & Hv & [C|C])]; [left; exact C|right; eauto|left; exact C].
Qed.
Lemma errloop_finite gl : forall gu g e, ~ In PInf gl -> ~ In MInf gu -> (exists q, e = Fin q) ->
  exists q, errloop gl gu g e = Fin q.
Proof.
  induction gl as [|l gl IH]; intros gu g e Hl Hu (q & ->); [eexists; reflexivity|].
  destruct gu as [|u gu]; [eexists; reflexivity|]. destruct g as [|v g]; [eexists; reflexivity|].
  cbn [errloop]. apply IH; [firstorder|firstorder|].
  destruct l; [| |exfalso; apply Hl; left; reflexivity]; (destruct u; [exfalso; apply Hu; left; reflexivity| |]);
  cbn; eexists; reflexivity.
Qed.
Lemma round_nearest q : nearest q (round q).
Proof.
  unfold nearest, round, half. split; [exists (Qfloor (q + (1#2))); reflexivity|].
  pose proof (Qfloor_le (q + (1#2))). pose proof (Qlt_floor (q + (1#2))) as H2.
  rewrite inject_Z_plus in H2. change (inject_Z 1) with 1 in H2. lra.
Qed.
Lemma round_ty_spec ty : forall x i v, nth_error x i = Some v -> length ty = length x ->
  exists w, nth_error (round_ty ty x) i = Some w /\
    match nth_error ty i with Some true => w = round v | _ => w = v end.
Proof.
  induction ty as [|t ty IH]; intros x i v H L; destruct x as [|y x]; simpl in L; try discriminate.
  { destruct i; discriminate. }
  destruct i as [|i]; cbn in *.
  - injection H as <-. eexists; split; [reflexivity|]. destruct t; reflexivity.
  - apply IH; [exact H|lia].
Qed.
Lemma round_ty_len ty : forall x, length (round_ty ty x) = length x.
Proof. induction ty as [|t ty IH]; intros [|y x]; cbn; auto. Qed.
Lemma round_cols_spec cols : forall x y, round_cols cols x = Ok y ->
  length y = length x /\
  (forall i, (~ In i cols) -> nth_error y i = nth_error x i) /\
  (forall i v, In i cols -> nth_error x i = Some v -> exists w, nth_error y i = Some w /\ w == round v).
Proof.
  induction cols as [|c cols IH]; intros x y H; cbn [round_cols] in H.
  { injection H as <-. split; [reflexivity|]. split; [reflexivity|]. intros i v []. }
  apply bind_ok in H. destruct H as (v0 & E0 & H). apply bind_ok in H. destruct H as (x1 & E1 & H).
  unfold rd in E0. destruct (nth_error x c) as [v0'|] eqn:Ec; [|discriminate]. injection E0 as <-.
  assert (Lc : (c < length x)%nat) by (apply nth_error_Some; congruence).
  rewrite lset_ok in E1 by exact Lc. injection E1 as <-.
  destruct (IH _ _ H) as (L & Hout & Hin).
  assert (NE : forall i, nth_error (firstn c x ++ round v0' :: skipn (S c) x) i =
                 if Nat.eqb i c then Some (round v0') else nth_error x i).
  { clear - Lc. revert c Lc. induction x as [|a x IHx]; intros c Lc i; [simpl in Lc; lia|].
    destruct c as [|c]; [destruct i; reflexivity|]. destruct i as [|i]; [reflexivity|].
    cbn. apply IHx. simpl in Lc. lia. }
  split; [rewrite L; apply upd_length, Lc|]. split.
  - intros i Hi. rewrite Hout by (intros A; apply Hi; right; exact A). rewrite NE.
    destruct (Nat.eqb_spec i c) as [e|]; [subst i; exfalso; apply Hi; left; reflexivity|reflexivity].
  - intros i v Hi Hv. destruct (Nat.eqb_spec i c) as [e|n].
    + subst i. rewrite Ec in Hv. injection Hv as <-.
      destruct (in_dec Nat.eq_dec c cols) as [J|J].
      * destruct (Hin c (round v0') J) as (w & Ew & Rw); [rewrite NE, Nat.eqb_refl; reflexivity|].
        exists w. split; [exact Ew|]. rewrite Rw. unfold round at 1.
        assert (F : Qfloor (round v0' + half) = Qfloor (v0' + half)).
        { unfold round, half. set (z := Qfloor (v0' + (1#2))).
          pose proof (Qfloor_le (inject_Z z + (1#2))) as A1. pose proof (Qlt_floor (inject_Z z + (1#2))) as A2.
          rewrite inject_Z_plus in A2. change (inject_Z 1) with 1 in A2.
          assert (B1 : (Qfloor (inject_Z z + (1#2)) < z + 1)%Z)
            by (rewrite Zlt_Qlt, inject_Z_plus; change (inject_Z 1) with 1; lra).
          assert (B2 : (z - 1 < Qfloor (inject_Z z + (1#2)))%Z)
            by (unfold Z.sub; rewrite Zlt_Qlt, inject_Z_plus; change (inject_Z (-(1))) with (-1)%Q; lra).
          lia. }
        rewrite F. reflexivity.
      * exists (round v0'). split; [|reflexivity]. rewrite (Hout c J), NE, Nat.eqb_refl. reflexivity.
    + destruct Hi as [e|J]; [congruence|]. apply Hin; [exact J|]. rewrite NE.
      destruct (Nat.eqb_spec i c); [congruence|exact Hv].
Qed.

(** What rounding and checking leaves behind and returns. *)
Definition rounded (isint : nat -> Prop) (x y : list Q) : Prop :=
  length y = length x /\
  forall i v, nth_error x i = Some v -> exists w, nth_error y i = Some w /\
    (isint i -> nearest v w) /\ (~ isint i -> w = v).
Lemma nearest_eq v w z : nearest v z -> w == z -> nearest v w.
Proof. intros ((k & E) & A & B) H. split; [exists k; rewrite H; exact E|]. rewrite H. split; assumption. Qed.
Lemma C53_lem s objs s' e : length (b_ty s) = num_variables s ->
  check_solution objs s = Ok (s', Fin e) ->
  rounded (fun i => match objs with Some cols => In i cols | None => nth_error (b_ty s) i = Some true end)
          (b_xs s) (b_xs s') /\
  b_gs s' = p_g (b_P s) (b_xs s') /\ b_obj s' = Some (p_f (b_P s) (b_xs s')) /\
  0 <= e /\ viol_le e (b_gl s) (b_gu s) (b_gs s') /\ viol_hit e (b_gl s) (b_gu s) (b_gs s').
Proof.
  intros LT H. unfold check_solution in H.
  apply bind_ok in H. destruct H as (u1 & A1 & H). apply bind_ok in H. destruct H as (u2 & A2 & H).
  apply bind_ok in H. destruct H as (x1 & Ex & H). injection H as <- He. unfold with_sol; cbn [b_xs b_gs b_obj].
  unfold chk in A1. destruct (Nat.eqb_spec (length (b_xs s)) (num_variables s)) as [Lx|]; [|discriminate].
  split; [|split; [reflexivity|split; [reflexivity|apply errloop_viol, He]]].
  destruct objs as [cols|].
  - apply round_cols_spec in Ex. destruct Ex as (L & Hout & Hin). split; [exact L|]. intros i v Hv.
    destruct (in_dec Nat.eq_dec i cols) as [J|J].
    + destruct (Hin i v J Hv) as (w & Ew & Rw). exists w. split; [exact Ew|]. split; [|intros N; contradiction].
      intros _. eapply nearest_eq; [apply round_nearest|exact Rw].
    + exists v. rewrite (Hout i J). split; [exact Hv|]. split; [intros N; contradiction|reflexivity].
  - injection Ex as <-. split; [apply round_ty_len|]. intros i v Hv.
    destruct (round_ty_spec (b_ty s) _ i v Hv) as (w & Ew & Rw); [congruence|]. exists w. split; [exact Ew|].
    destruct (nth_error (b_ty s) i) as [[|]|]; split; intros N; try discriminate; try (exfalso; apply N; reflexivity);
    try exact Rw. subst w. apply round_nearest.
Qed.
Lemma C53_total_lem s objs : length (b_xs s) = num_variables s -> length (b_gs s) = num_constraints s ->
  (forall cols, objs = Some cols -> Forall (fun c => (c < num_variables s)%nat) cols) ->
  ~ In PInf (b_gl s) -> ~ In MInf (b_gu s) ->
  exists s' e, check_solution objs s = Ok (s', Fin e).
Proof.
  intros Lx Lg Hc Hl Hu. unfold check_solution. rewrite Lx, Lg, !Nat.eqb_refl. cbn [chk bind].
  assert (R : exists x, (match objs with Some cols => round_cols cols (b_xs s)
                                    | None => Ok (round_ty (b_ty s) (b_xs s)) end) = Ok x).
  { destruct objs as [cols|]; [|eexists; reflexivity]. specialize (Hc cols eq_refl). rewrite <- Lx in Hc.
    generalize dependent (b_xs s). clear. intros x _ Hc. revert x Hc.
    induction cols as [|c cols IH]; intros x Hc; [eexists; reflexivity|].
    inversion Hc as [|? ? H1 H2]; subst. cbn [round_cols]. unfold rd.
    destruct (nth_error x c) as [v|] eqn:E; [|apply nth_error_None in E; lia]. cbn [bind].
    rewrite lset_ok by exact H1. cbn [bind]. apply IH. rewrite upd_length by exact H1. exact H2. }
  destruct R as (x & ->). cbn [bind].
  destruct (errloop_finite (b_gl s) (b_gu s) (p_g (b_P s) x) (Fin 0) Hl Hu) as (q & ->); [eauto|]. eauto.
Qed.

(** ** Forcing a fractional point *)
Lemma force_nth ty : forall l u x i t a b y e,
  nth_error ty i = Some t -> nth_error l i = Some a -> nth_error u i = Some b -> nth_error x i = Some y ->
  nth_error (force_list ty l u x) i = Some e -> e = force_one t a b y.
Proof.
  induction ty as [|t0 ty IH]; intros l u x i t a b y e H1 H2 H3 H4 H5; [destruct i; discriminate|].
  destruct l as [|a0 l]; [destruct i; discriminate|]. destruct u as [|b0 u]; [destruct i; discriminate|].
  destruct x as [|y0 x]; [destruct i; discriminate|].
  destruct i as [|i]; cbn in *; [congruence|]. eapply IH; eassumption.
Qed.
Lemma half_not_int z : ~ integral (inject_Z z + half).
Proof.
  intros (k & E). unfold half in E. unfold Qeq in E. cbn in E. lia.
Qed.
Lemma C54_lem s r i t l u x e :
  force_fractionnal_sol s = Ok r ->
  nth_error (b_ty s) i = Some t -> nth_error (b_xl s) i = Some (Fin l) -> nth_error (b_xu s) i = Some u ->
  nth_error (b_xs s) i = Some x -> nth_error r i = Some e ->
  match u with Fin b => l <= b | PInf => True | MInf => False end ->
  (t = false -> e = Fin x) /\
  (t = true -> exists v, e = Fin v /\ ~ integral v /\ l < v /\
     (forall b, u = Fin b -> integral l -> integral b -> l < b -> v < b)).
Proof.
  intros H H1 H2 H3 H4 H5 LU. unfold force_fractionnal_sol in H.
  destruct (Nat.leb (num_variables s) (length (b_xs s))); [|discriminate]. injection H as <-.
  pose proof (force_nth _ _ _ _ _ _ _ _ _ _ H1 H2 H3 H4 H5) as E. unfold force_one in E. split; intros ->.
  - exact E.
  - assert (A : ext_lt_half (Fin l) u = true).
    { destruct u as [|b|]; [contradiction| |reflexivity]. cbn. apply Qltb_lt. unfold half. lra. }
    rewrite A in E. cbn [andb ff_value] in E. eexists; split; [exact E|]. split; [apply half_not_int|].
    pose proof (Qle_ceiling l). unfold half. split; [lra|].
    intros b _ (k & Ek) (j & Ej) LT. rewrite Ek, Ej in LT. rewrite <- Zlt_Qlt in LT.
    assert (C : Qceiling l = k) by (rewrite (Qceiling_comp _ _ Ek); apply Qceiling_Z). rewrite C, Ej.
    assert (inject_Z (k + 1) <= inject_Z j) by (rewrite <- Zle_Qle; lia).
    rewrite inject_Z_plus in H0. change (inject_Z 1) with 1 in H0. lra.
Qed.

(** ** Copies *)
Record sim (s t : prob) : Prop := {
  m_P : b_P s = b_P t; m_xl : b_xl s = b_xl t; m_xu : b_xu s = b_xu t; m_ol : b_ol s = b_ol t;
  m_ou : b_ou s = b_ou t; m_gl : b_gl s = b_gl t; m_gu : b_gu s = b_gu t; m_ty : b_ty s = b_ty t;
  m_user : b_user s = b_user t; m_xs : b_xs s = b_xs t; m_gs : b_gs s = b_gs t; m_ds : b_ds s = b_ds t;
  m_obj : b_obj s = b_obj t; m_el : v_el (b_xi s) = v_el (b_xi t);
  m_di : match b_di s, b_di t with
         | None, None => True
         | Some p, Some q => (num_variables s < length (v_el (b_xi s)) \/ num_variables s = 0)%nat ->
             p = mkPtr (v_buf (b_xi s)) (num_variables s) /\ q = mkPtr (v_buf (b_xi t)) (num_variables s)
         | _, _ => False
         end }.
Lemma sim_n s t : sim s t -> num_variables s = num_variables t.
Proof. intros S. unfold num_variables. rewrite (m_xl _ _ S). reflexivity. Qed.
Lemma sim_m s t : sim s t -> num_constraints s = num_constraints t.
Proof. intros S. unfold num_constraints. rewrite (m_gl _ _ S). reflexivity. Qed.
Lemma sim_start s t : sim s t -> forall n m ix iz il,
  get_starting_point n m ix iz il s = get_starting_point n m ix iz il t.
Proof.
  intros S n m ix iz il. unfold get_starting_point. rewrite <- (sim_n _ _ S), <- (sim_m _ _ S), <- (m_user _ _ S).
  unfold vread at 1 2. rewrite <- (m_el _ _ S).
  destruct (Nat.eqb m (num_constraints s)); [cbn [chk bind]|reflexivity].
  destruct (Nat.eqb_spec n (num_variables s)) as [En|]; [cbn [chk bind]|reflexivity].
  pose proof (m_di _ _ S) as D. destruct (b_di s) as [p|], (b_di t) as [q|]; try contradiction; [|reflexivity].
  assert (C : duals_chk n m p s = duals_chk n m q t).
  { unfold duals_chk. rewrite <- (m_el _ _ S).
    destruct (Nat.eqb_spec (length (v_el (b_xi s))) (3 * n + m)) as [L|]; [cbn [chk bind]|reflexivity].
    destruct (D ltac:(lia)) as [-> ->]. cbn [q_buf q_off]. rewrite !Nat.eqb_refl. reflexivity. }
  assert (R : duals_chk n m p s = Ok tt -> forall o k, pread p o k (b_xi s) = pread q o k (b_xi t)).
  { unfold duals_chk. intros H o k.
    destruct (Nat.eqb_spec (length (v_el (b_xi s))) (3 * n + m)) as [L|]; [cbn [chk bind] in H|discriminate].
    destruct (D ltac:(lia)) as [-> ->]. unfold pread, vread. cbn [q_buf q_off]. rewrite !Nat.eqb_refl, (m_el _ _ S). reflexivity. }
  rewrite <- C. destruct (duals_chk n m p s) as [[]| | | | | | |] eqn:ED; try reflexivity.
  rewrite !(R eq_refl). reflexivity.
Qed.
Lemma sim_view s t : sim s t -> same_view s t.
Proof.
  intros S. unfold same_view.
  repeat (split; [first [exact (m_P _ _ S)|exact (m_xl _ _ S)|exact (m_xu _ _ S)|exact (m_ol _ _ S)|exact (m_ou _ _ S)
    |exact (m_gl _ _ S)|exact (m_gu _ _ S)|exact (m_ty _ _ S)|exact (m_user _ _ S)|exact (m_xs _ _ S)
    |exact (m_gs _ _ S)|exact (m_ds _ _ S)|exact (m_obj _ _ S)]|]).
  split; [|apply sim_start, S].
  unfold has_x_init. rewrite <- (m_el _ _ S). pose proof (m_di _ _ S) as D.
  destruct (b_di s), (b_di t); try contradiction; reflexivity.
Qed.
(** Outcomes of the same kind with related states. *)
Definition osim (a b : outcome prob) : Prop :=
  match a, b with Ok s, Ok t => sim s t | Ok _, _ => False | _, Ok _ => False | _, _ => a = b end.

Ltac simcb := cbn [b_P b_xl b_xu b_ol b_ou b_gl b_gu b_ty b_user b_xi b_di b_xs b_gs b_ds b_obj with_x with_g with_i with_sol v_el v_buf].
Ltac simall S := constructor; simcb;
  [try exact (m_P _ _ S)|try exact (m_xl _ _ S)|try exact (m_xu _ _ S)|try exact (m_ol _ _ S)|try exact (m_ou _ _ S)
  |try exact (m_gl _ _ S)|try exact (m_gu _ _ S)|try exact (m_ty _ _ S)|try exact (m_user _ _ S)|try exact (m_xs _ _ S)
  |try exact (m_gs _ _ S)|try exact (m_ds _ _ S)|try exact (m_obj _ _ S)|try exact (m_el _ _ S)|try exact (m_di _ _ S)].
Lemma sim_step o s t : sim s t -> osim (step o s) (step o t).
Proof.
  intros S. pose proof (sim_n _ _ S) as En. pose proof (sim_m _ _ S) as Em. pose proof (m_di _ _ S) as D.
  assert (Lu : length (b_xu s) = length (b_xu t)) by (rewrite (m_xu _ _ S); reflexivity).
  assert (BO : forall xl xu, length xl = num_variables s -> sim (with_x s xl xu) (with_x t xl xu)).
  { intros xl xu E. simall S; try reflexivity. unfold num_variables; simcb. rewrite E. exact D. }
  destruct o as [|x ex|d ex|gl gu ex|gl gu|l u|l|u|i l u|i l|i u|x g zL zU lam ob vi]; cbn [step].
  - cbn [osim]. unfold resetStartingPoint. simall S; [reflexivity|]. unfold vclear. cbn [v_el v_buf length].
    destruct (b_di s), (b_di t); try contradiction; auto. unfold num_variables; simcb.
    intros [H|H]; [lia|]. apply D. right. exact H.
  - unfold setxInit. rewrite <- En.
    destruct (Nat.eqb_spec (length x) (num_variables s)) as [L|]; [cbn [chk bind]|exact eq_refl].
    rewrite <- (m_el _ _ S). destruct (Nat.ltb_spec (length (v_el (b_xi s))) (length x)) as [Q|Q].
    + rewrite !vput_ok by (rewrite vresize_len; lia). cbn [bind osim]. simall S.
      * cbn [Nat.add app firstn]. rewrite !skipn_all2 by (rewrite vresize_len; lia). reflexivity.
      * destruct (b_di s), (b_di t); try contradiction; auto. unfold num_variables at 1 2; simcb. fold (num_variables s).
        intros H. exfalso. cbn [Nat.add firstn app] in H. rewrite skipn_all2 in H by (rewrite vresize_len; lia).
        rewrite app_nil_r in H. lia.
    + rewrite !vput_ok by (try rewrite <- (m_el _ _ S); lia). cbn [bind osim]. simall S.
      * rewrite (m_el _ _ S). reflexivity.
      * destruct (b_di s), (b_di t); try contradiction; auto. unfold num_variables at 1 2 3 4; simcb. fold (num_variables s).
        cbn [Nat.add firstn app]. rewrite app_length, skipn_length.
        intros H. apply D. lia.
  - unfold setDualsInit. rewrite <- En, <- Em.
    destruct (Nat.eqb_spec (length d) (num_variables s * 2 + num_constraints s)) as [L|]; [cbn [chk bind]|exact eq_refl].
    cbn [q_off]. rewrite !vput_ok by (rewrite vresize_len; lia). cbn [bind osim]. simall S.
    * rewrite !vresize_el, (m_el _ _ S). reflexivity.
    * intros _. split; reflexivity.
  - cbn [osim]. unfold add_rows, num_variables, num_constraints. simcb.
    rewrite <- (m_xl _ _ S), <- (m_gl _ _ S). simall S.
    + rewrite (m_gl _ _ S). reflexivity.
    + rewrite (m_gu _ _ S). reflexivity.
    + rewrite (m_ds _ _ S). reflexivity.
    + rewrite !vresize_el, (m_el _ _ S). reflexivity.
    + intros _. split; reflexivity.
  - cbn [osim]. unfold del_rows. simall S; reflexivity.
  - unfold SetVariablesBounds. rewrite <- En.
    destruct (Nat.eqb_spec (length l) (num_variables s)) as [L|]; [|exact eq_refl].
    destruct (Nat.eqb (length u) (num_variables s)); [|exact eq_refl]. cbn. apply BO, L.
  - unfold SetVariablesLowerBounds. rewrite <- En, <- (m_xu _ _ S).
    destruct (Nat.eqb_spec (length l) (num_variables s)) as [L|]; [|exact eq_refl]. cbn. apply BO, L.
  - unfold SetVariablesUpperBounds. rewrite <- En, <- (m_xl _ _ S).
    destruct (Nat.eqb (length u) (num_variables s)); [|exact eq_refl]. cbn. apply BO. reflexivity.
  - unfold SetVariableBounds, lset. rewrite <- En, <- (m_xl _ _ S), <- (m_xu _ _ S). fold (num_variables s).
    destruct (Nat.ltb_spec i (num_variables s)) as [L|]; [cbn [chk bind]|exact eq_refl].
    destruct (Nat.ltb i (length (b_xu s))); [|exact eq_refl]. cbn. apply BO, upd_length, L.
  - unfold SetVariableLowerBound, lset. rewrite <- En, <- (m_xl _ _ S), <- (m_xu _ _ S). fold (num_variables s).
    destruct (Nat.ltb_spec i (num_variables s)) as [L|]; [cbn [chk bind]|exact eq_refl]. cbn. apply BO, upd_length, L.
  - unfold SetVariableUpperBound, lset. rewrite <- En, <- (m_xl _ _ S), <- (m_xu _ _ S).
    destruct (Nat.ltb i (num_variables s)); [cbn [chk bind]|exact eq_refl].
    destruct (Nat.ltb i (length (b_xu s))); [|exact eq_refl]. cbn. apply BO. reflexivity.
  - unfold finalize_solution. rewrite <- En, <- Em, <- (m_gs _ _ S).
    destruct (Nat.eqb (length x) (num_variables s)); [cbn [chk bind]|exact eq_refl].
    destruct (Nat.eqb (length g) (num_constraints s)); [cbn [chk bind]|exact eq_refl].
    destruct (Nat.eqb (length lam) (num_constraints s) && Nat.eqb (length zL) (num_variables s) && Nat.eqb (length zU) (num_variables s))%bool; [|exact eq_refl].
    cbn [bind osim]. simall S; reflexivity.
Qed.
Lemma sim_run h : forall s t, sim s t -> osim (run_from s h) (run_from t h).
Proof.
  induction h as [|o h IH]; intros s t S; [exact S|]. cbn [run_from]. specialize (IH s t S).
  destruct (run_from s h), (run_from t h); cbn in IH; try contradiction; try discriminate IH; cbn [bind osim]; auto.
  apply sim_step, IH.
Qed.

(** A copy made when the stored solution fits the rows. *)
Definition sol_fits (s : prob) : Prop :=
  (b_gs s = [] \/ length (b_gs s) = num_constraints s) /\
  (b_ds s = [] \/ length (b_ds s) = (num_constraints s + 2 * num_variables s)%nat).
Lemma inv_ptr P h s : inv P h s -> forall p, b_di s = Some p ->
  (num_variables s < length (v_el (b_xi s)))%nat -> p = mkPtr (v_buf (b_xi s)) (num_variables s).
Proof.
  intros I p D L. rewrite (inv_n _ _ _ I) in *. pose proof (v_ws _ _ _ I) as W.
  destruct (eff_d P h) as [d|].
  - destruct W as (x & _ & _ & _ & Ep & _). congruence.
  - destruct (eff_x (p_n P) h) as [x|]; [destruct W as (Lx & E); rewrite E in L; lia|rewrite W in L; simpl in L; lia].
Qed.
(** The copy into any object T that has nothing the source lacks. *)
Lemma guts_sim P h o T : inv P h o -> (0 < p_n P)%nat -> sol_fits o ->
  (length (b_xs o) = num_variables o \/ b_xs o = []) ->
  b_P T = b_P o -> b_obj T = b_obj o ->
  (b_xs o = [] -> b_xs T = []) -> (b_xs T = [] \/ length (b_xs T) = num_variables o) ->
  (b_gl o = [] -> b_gl T = [] /\ b_gu T = []) ->
  (b_gl o = [] \/ b_gs o = [] -> b_gs T = []) ->
  (b_ds o = [] -> b_ds T = []) ->
  exists t, gutsOfCopy o T = Ok t /\ sim t o.
Proof.
  intros I N [Fg Fd] Fx EP EO HX HXl HG HS HD. pose proof (inv_n _ _ _ I) as En.
  unfold gutsOfCopy. set (n := num_variables o) in *. set (m := num_constraints o) in *.
  assert (Hn : Nat.ltb 0 n = true) by (apply Nat.ltb_lt; lia). rewrite Hn. clear Hn.
  set (T1 := mkProb (b_P T) (b_xl o) (b_xu o) (b_ol o) (b_ou o) (b_gl T) (b_gu T) (b_ty o)
                    (b_user o) (b_xi T) (b_di T) (b_xs T) (b_gs T) (b_ds T) (b_obj T)).
  assert (EX : (match b_xs o with [] => Ok T1 | q :: l => Set_x_sol (q :: l) T1 end) =
               Ok (with_sol T1 (b_xs o) (b_gs T) (b_ds T) (b_obj T))).
  { destruct (b_xs o) as [|q xs] eqn:Exs.
    - rewrite <- (HX eq_refl). destruct T; reflexivity.
    - unfold Set_x_sol, num_variables. subst T1. cbn [b_xl b_xs].
      fold (num_variables o). fold n. destruct Fx as [Fx|Fx]; [|discriminate].
      rewrite Fx, Nat.eqb_refl. cbn [chk bind].
      match goal with |- context [chk ?b] => assert (EB : b = true) end.
      { apply Nat.eqb_eq. destruct (b_xs T) as [|c cs] eqn:EcT; [rewrite repeat_length; reflexivity|].
        destruct HXl as [HXl|HXl]; [discriminate|]. symmetry. exact HXl. }
      rewrite EB. reflexivity. }
  rewrite EX. cbn [bind]. clear EX. subst T1. simcb.
  set (R := mkProb (b_P T) (b_xl o) (b_xu o) (b_ol o) (b_ou o) (b_gl o) (b_gu o) (b_ty o) (b_user o)
                   (b_xi T) (b_di T) (b_xs o) (b_gs T) (b_ds T) (b_obj T)).
  match goal with |- context [match b_gl o with [] => ?A | _ :: _ => ?B end] =>
    assert (EG : (match b_gl o with [] => A | _ :: _ => B end) = R) end.
  { subst R. pose proof (v_gg _ _ _ I) as G. destruct (b_gl o) eqn:Egl; [|reflexivity].
    destruct (HG eq_refl) as [-> ->]. destruct (b_gu o) eqn:Egu; [reflexivity|simpl in G; lia]. }
  rewrite EG. clear EG. subst R. simcb.
  match goal with |- context [bind ?A ?f] => assert (EGS : A = Ok (b_gs o)) end.
  { destruct (Nat.ltb_spec 0 m) as [M|M].
    - destruct (b_gs o) as [|q l] eqn:Eg; [rewrite HS by (right; reflexivity); reflexivity|].
      destruct Fg as [Fg|Fg]; [discriminate|]. rewrite Fg.
      rewrite Nat.leb_refl, firstn_all2; [reflexivity|]. rewrite Fg. apply Nat.le_refl.
    - assert (Z : b_gl o = []) by (subst m; unfold num_constraints in M; destruct (b_gl o); [reflexivity|simpl in M; lia]).
      rewrite HS by (left; exact Z).
      destruct Fg as [->|Fg]; [reflexivity|]. destruct (b_gs o); [reflexivity|simpl in Fg; lia]. }
  rewrite EGS. clear EGS. cbn [bind]. simcb.
  match goal with |- context [bind ?A ?f] => assert (EDS : A = Ok (b_ds o)) end.
  { destruct (b_ds o) as [|q l] eqn:Eg; [rewrite HD by reflexivity; reflexivity|].
    destruct Fd as [Fd|Fd]; [discriminate|]. rewrite Fd.
    rewrite Nat.leb_refl, firstn_all2; [reflexivity|]. rewrite Fd. apply Nat.le_refl. }
  rewrite EDS. clear EDS. cbn [bind]. eexists; split; [reflexivity|].
  constructor; simcb; try reflexivity; try assumption.
  destruct (b_di o) as [p|] eqn:Ep; [|exact Logic.I]. unfold num_variables; simcb. fold (num_variables o). fold n.
  intros [L|L]; [|lia]. split; [reflexivity|]. apply (inv_ptr _ _ _ I p Ep L).
Qed.

(** The rows have not changed since the last finished solve. *)
Fixpoint settled (h : list op) : Prop :=
  match h with
  | [] => True
  | OFinal _ _ _ _ _ _ _ :: _ => True
  | OAdd _ _ _ :: _ | ODel _ _ :: _ => False
  | _ :: h => settled h
  end.
Lemma final_len P h : valid_hist P h ->
  length (fst (fst (last_final h))) = p_n P \/ fst (fst (last_final h)) = [].
Proof.
  induction h as [|o h IH]; [right; reflexivity|]. intros [V W].
  destruct o; cbn [last_final fst]; auto. left. apply W.
Qed.
Lemma settled_fits P h : valid_hist P h -> settled h ->
  (snd (fst (last_final h)) = [] \/ length (snd (fst (last_final h))) = m_now P h) /\
  (last_duals P h = [] \/ length (last_duals P h) = (m_now P h + 2 * p_n P)%nat).
Proof.
  induction h as [|o h IH]; [split; left; reflexivity|]. intros [V W] S.
  destruct o; cbn [settled] in S; try contradiction; cbn [last_final last_duals]; unfold m_now; cbn [rows_now];
  try exact (IH V S). cbn [fst snd].
  destruct W as (Wx & Wg & Wl & Wu & Wm). split; right; [exact Wg|].
  rewrite !app_length, Wl, Wu, Wm. unfold m_now. lia.
Qed.
Lemma inv_fits P h s : inv P h s -> valid_hist P h -> settled h -> rows_stay h -> sol_fits s.
Proof.
  intros I V S R. destruct (settled_fits P h V S) as [A B]. unfold sol_fits.
  rewrite (inv_n _ _ _ I), (inv_m _ _ _ I), (v_sg _ _ _ I R), (v_sd _ _ _ I). split; assumption.
Qed.
Lemma inv_xs P h s : inv P h s -> valid_hist P h -> length (b_xs s) = num_variables s \/ b_xs s = [].
Proof.
  intros I V. pose proof (v_sx _ _ _ I) as X. injection X as -> _. rewrite (inv_n _ _ _ I). apply final_len, V.
Qed.
Lemma C55_lem P h s : nlp_ok P -> (0 < p_n P)%nat -> valid_hist P h -> settled h -> rows_stay h ->
  run P h = Ok s ->
  exists t, copy_ctor s = Ok t /\ same_view t s /\
  forall h', osim (run_from t h') (run_from s h') /\
    (forall t' s', run_from t h' = Ok t' -> run_from s h' = Ok s' -> same_view t' s').
Proof.
  intros K N V S R E. destruct (run_inv P h K V) as (s0 & E0 & I). rewrite E in E0. injection E0 as <-.
  destruct (guts_sim P h s (mkProb (b_P s) [] [] [] [] [] [] [] [] vempty None [] [] [] (b_obj s)) I N
              (inv_fits _ _ _ I V S R) (inv_xs _ _ _ I V)) as (t & Ec & M); try reflexivity.
  - left; reflexivity.
  - split; reflexivity.
  - exists t. split; [exact Ec|]. split; [apply sim_view, M|]. intros h'.
    pose proof (sim_run h' t s M) as O. split; [exact O|].
    intros t' s' E1 E2. rewrite E1, E2 in O. cbn in O. apply sim_view, O.
Qed.
(** Assignment of a problem that has been solved and has rows. *)
Fixpoint solved (h : list op) : Prop :=
  match h with [] => False | OFinal _ _ _ _ _ _ _ :: _ => True | _ :: h => solved h end.
Lemma solved_final P h : valid_hist P h -> settled h -> solved h ->
  length (fst (fst (last_final h))) = p_n P /\ length (snd (fst (last_final h))) = m_now P h /\
  length (last_duals P h) = (m_now P h + 2 * p_n P)%nat.
Proof.
  induction h as [|o h IH]; [intros _ _ []|]. intros [V W] S D.
  destruct o; cbn [settled solved] in *; try contradiction; cbn [last_final last_duals]; unfold m_now; cbn [rows_now];
  try exact (IH V S D). cbn [fst snd]. destruct W as (Wx & Wg & Wl & Wu & Wm).
  repeat split; try assumption. rewrite !app_length, Wl, Wu, Wm. unfold m_now. lia.
Qed.
Lemma C56_lem P P' h h' s t : nlp_ok P -> nlp_ok P' -> p_n P = p_n P' -> (0 < p_n P)%nat ->
  valid_hist P h -> valid_hist P' h' -> run P h = Ok s -> run P' h' = Ok t ->
  settled h -> rows_stay h -> solved h -> m_now P h <> 0%nat ->
  exists t', assign s t = Ok t' /\ same_view t' s.
Proof.
  intros K K' EN N V V' E E' S R D M.
  destruct (run_inv P h K V) as (s0 & E0 & I). rewrite E in E0. injection E0 as <-.
  destruct (run_inv P' h' K' V') as (t0 & E0 & I'). rewrite E' in E0. injection E0 as <-.
  destruct (solved_final P h V S D) as (L1 & L2 & L3).
  pose proof (v_sx _ _ _ I) as X. injection X as X1 _. pose proof (v_sg _ _ _ I R) as X2. pose proof (v_sd _ _ _ I) as X3.
  destruct (guts_sim P h s (mkProb (b_P s) (b_xl t) (b_xu t) (b_ol t) (b_ou t) (b_gl t) (b_gu t)
     (b_ty t) (b_user t) (b_xi t) (b_di t) (b_xs t) (b_gs t) (b_ds t) (b_obj s)) I N
              (inv_fits _ _ _ I V S R) (inv_xs _ _ _ I V)) as (t' & Ec & Mm); try reflexivity; simcb.
  - intros Z. rewrite X1 in Z. rewrite Z in L1. simpl in L1. lia.
  - destruct (inv_xs _ _ _ I' V') as [Q|Q]; [right|left; exact Q].
    rewrite Q, (inv_n _ _ _ I'), (inv_n _ _ _ I). symmetry. exact EN.
  - intros Z. exfalso. apply M. rewrite <- (inv_m _ _ _ I). unfold num_constraints. rewrite Z. reflexivity.
  - intros [Z|Z]; exfalso; apply M.
    + rewrite <- (inv_m _ _ _ I). unfold num_constraints. rewrite Z. reflexivity.
    + rewrite <- L2, <- X2, Z. reflexivity.
  - intros Z. exfalso. rewrite X3 in Z. rewrite Z in L3. simpl in L3. lia.
  - exists t'. split; [exact Ec|]. apply sim_view, Mm.
Qed.
