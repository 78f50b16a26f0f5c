(** Main facts about quadratic rows, cuts and the NLP holding them. *)
From Verif Require Import Base Quad_Model Quad_Spec Quad_Proofs Quad_HProofs Quad_SProofs.
#[local] Open Scope Q_scope.

(** ** The example sort is a sort *)
Lemma ins_by_perm {A} leb (a : A) l : Permutation (ins_by leb a l) (a :: l).
Proof.
  induction l as [|b l IH]; simpl; [reflexivity|]. destruct (leb a b); [reflexivity|].
  rewrite IH. apply perm_swap.
Qed.
Lemma sort_by_perm {A} leb (l : list A) : Permutation (sort_by leb l) l.
Proof. induction l; simpl; [reflexivity|]. rewrite ins_by_perm. constructor. exact IHl. Qed.
Lemma sort_by_sorted {A} (leb : A -> A -> bool) (le : A -> A -> Prop) :
  (forall a b, leb a b = true -> le a b) -> (forall a b, leb a b = false -> le b a) ->
  (forall a b c, le a b -> le b c -> le a c) -> forall l, sorted le (sort_by leb l).
Proof.
  intros H1 H2 TR. induction l as [|a l IH]; simpl; [constructor|].
  induction IH as [|b l0 F S IH]; simpl; [constructor; constructor|].
  destruct (leb a b) eqn:E.
  - constructor; [|constructor; assumption]. constructor; [auto|].
    eapply Forall_impl; [|exact F]. intros c Hc. eapply TR; [apply H1, E|exact Hc].
  - constructor; [|exact IH]. apply Forall_forall. intros c Hc.
    eapply Permutation_in in Hc; [|apply ins_by_perm]. destruct Hc as [<-|Hc]; [auto|].
    rewrite Forall_forall in F. auto.
Qed.
Lemma sorts_rows : sorts row_le (sort_by row_leb).
Proof.
  intros l. split; [apply sort_by_perm|]. apply sort_by_sorted; unfold row_leb, row_le; intros a b.
  - destruct (Nat.ltb_spec (t_i a) (t_i b)), (Nat.eqb_spec (t_i a) (t_i b)), (Nat.leb_spec (t_j a) (t_j b));
      simpl; intros; try discriminate; lia.
  - destruct (Nat.ltb_spec (t_i a) (t_i b)), (Nat.eqb_spec (t_i a) (t_i b)), (Nat.leb_spec (t_j a) (t_j b));
      simpl; intros; try discriminate; lia.
  - intros c; lia.
Qed.
Lemma sorts_cols : sorts col_le (sort_by col_leb).
Proof.
  intros l. split; [apply sort_by_perm|]. apply sort_by_sorted; unfold col_leb, col_le; intros a b.
  - destruct (Nat.ltb_spec (t_j a) (t_j b)), (Nat.eqb_spec (t_j a) (t_j b)), (Nat.leb_spec (t_i a) (t_i b));
      simpl; intros; try discriminate; lia.
  - destruct (Nat.ltb_spec (t_j a) (t_j b)), (Nat.eqb_spec (t_j a) (t_j b)), (Nat.leb_spec (t_i a) (t_i b));
      simpl; intros; try discriminate; lia.
  - intros c; lia.
Qed.

Lemma upper_forall E : Forall (fun t => (t_i t <= t_j t)%nat) E -> forallb upper_ok E = true.
Proof.
  intros F. apply forallb_forall. intros t Ht. rewrite Forall_forall in F. apply Nat.leb_le, F, Ht.
Qed.

Lemma fresh_row sr sc c a E : sorts row_le sr -> sorts col_le sc ->
  Forall (fun t => (t_i t <= t_j t)%nat) E ->
  exists r, initialize sr sc c a (mkTMat E [] [] [] []) [] = Ok r /\ row_inv c a E r.
Proof.
  intros Sr Sc U.
  destruct (initialize_total sr sc c a (mkTMat E [] [] [] []) [] (upper_forall _ U)) as (r & R).
  exists r. split; [exact R|]. apply (initialize_inv sr sc Sr Sc) in R; [tauto|auto].
Qed.

Lemma row_value sr sc c a E : sorts row_le sr -> sorts col_le sc ->
  Forall (fun t => (t_i t <= t_j t)%nat) E ->
  exists r, initialize sr sc c a (mkTMat E [] [] [] []) [] = Ok r /\
  forall hist, exists r', r_run r hist = Ok r' /\
  forall x, exists v r'', row_eval_f x r' = Ok (v, r'') /\ v == poly c a E x.
Proof.
  intros Sr Sc U. destruct (fresh_row sr sc c a E Sr Sc U) as (r & R & I).
  exists r. split; [exact R|]. intros hist. destruct (r_run_ok _ _ _ hist r I) as (r' & R' & I' & _).
  exists r'. split; [exact R'|]. intros x.
  destruct (row_eval_f_ok _ _ _ _ x I') as (v & r'' & A & _ & _ & B). eauto.
Qed.

Lemma sorted_nodup l : sorted lt l -> NoDup l.
Proof.
  induction 1; constructor; [|assumption]. intros C. rewrite Forall_forall in H.
  apply H in C. lia.
Qed.

Lemma row_gradient sr sc c a E : sorts row_le sr -> sorts col_le sc ->
  Forall (fun t => (t_i t <= t_j t)%nat) E -> NoDup (map fst a) ->
  exists r, initialize sr sc c a (mkTMat E [] [] [] []) [] = Ok r /\
    NoDup (gradiant_struct 0 r) /\ length (gradiant_struct 0 r) = nnz_grad r /\
    (forall k, In k (gradiant_struct 0 r) <->
       In k (map fst a) \/ exists t, In t E /\ (t_i t = k \/ t_j t = k)) /\
  forall hist, exists r', r_run r hist = Ok r' /\
  forall x, exists vs r'', row_eval_grad x r' = Ok (vs, r'') /\ length vs = nnz_grad r /\
  forall h, poly c a E (vadd x h) - poly c a E x ==
            sparse_dot (gradiant_struct 0 r) vs h + tri_form E h.
Proof.
  intros Sr Sc U ND. destruct (fresh_row sr sc c a E Sr Sc U) as (r & R & I).
  exists r. split; [exact R|].
  assert (GS : gradiant_struct 0 r = gkeys (r_g r)).
  { unfold gradiant_struct, gkeys. apply map_ext. intros; lia. }
  assert (I0 := I). destruct I0 as (_ & _ & _ & _ & _ & S & _ & P). rewrite GS.
  split; [apply sorted_nodup, S|]. split; [unfold gkeys, nnz_grad; apply map_length|].
  split; [exact P|].
  intros hist. destruct (r_run_ok _ _ _ hist r I) as (r' & R' & I' & K').
  exists r'. split; [exact R'|]. intros x.
  destruct (row_eval_grad_ok _ _ _ _ x 0 I') as (v & r'' & A & _ & _ & L & _ & B).
  exists v, r''. split; [exact A|]. split.
  - rewrite L. eapply row_inv_nnz; eassumption.
  - intros h. rewrite (B ND h).
    assert (GS' : gradiant_struct 0 r' = gkeys (r_g r)).
    { rewrite <- K'. unfold gradiant_struct, gkeys. apply map_ext. intros; lia. }
    rewrite GS'. reflexivity.
Qed.

Section Run.
Variable sr sc : list trip -> list trip.
Hypothesis Hsr : sorts row_le sr.
Hypothesis Hsc : sorts col_le sc.
Variable fuel : nat.
Variable order : list trip -> list nat.

Lemma hessian_history m hb jb off ops :
  NoDup hb -> legal_run m [] ops ->
  exists s0 s w s', q_new m hb jb off = Ok s0 /\ q_run sr sc fuel order s0 ops = Ok s /\
    q_hstruct s = Ok (w, s') /\
    length w = q_nnz_h s' /\ NoDup (map fst w) /\ NoDup (map snd w) /\
    Forall (fun p => (fst p < q_nnz_h s')%nat) w /\
    forall base lams, length base = length hb -> length lams = length (a_run m [] ops) ->
      exists vals, q_hvals base lams s' = Ok vals /\ length vals = q_nnz_h s' /\
      forall rc, entry_of w vals rc == base_entry hb base rc + lag_d2 off lams (a_run m [] ops) rc.
Proof.
  intros NB L. destruct (q_new_ok m hb jb off NB) as (s0 & E0 & I0).
  destruct (q_run_ok sr sc Hsr Hsc fuel order m hb jb off ops [] s0 I0 L) as (s & E & I).
  destruct I as (Em & Eh & Ej & Eo & F & GL & GU & _ & HI & V & NJ).
  destruct (struct_full hb off _ (s_H s) NB HI) as (H' & ST & I' & X & D & KE).
  set (w := map (fun p => (idx_of p, fst p)) H').
  exists s0, s, w. eexists. split; [exact E0|]. split; [exact E|].
  split. { unfold q_hstruct. rewrite Eh, ST. cbn [bind]. fold w. reflexivity. }
  unfold q_nnz_h; simpl.
  split; [unfold w; apply map_length|].
  split. { unfold w. rewrite map_map. destruct D as (D & _). exact D. }
  split. { unfold w. rewrite map_map. destruct I' as (ND & _). exact ND. }
  split. { unfold w. apply Forall_forall. intros p Hp. apply in_map_iff in Hp.
    destruct Hp as ([k n] & <- & Hp). simpl. unfold idx_of; simpl. destruct D as (_ & D). eapply D, Hp. }
  intros base lams LB LL. unfold q_hvals. simpl. unfold q_nnz_h; simpl.
  assert (LH : (length hb <= length H')%nat) by (eapply Hinv_length; eassumption).
  assert (V' : Forall (its_ok off H') (s_rows s)).
  { eapply Forall_impl; [|exact V]. intros r0. apply its_ok_same. exact X. }
  assert (ND : NoDup (hkeys H')) by (destruct I' as (ND & _); exact ND).
  destruct (eval_hess_rows_ok off H' ND D (s_rows s) _ F V' lams
     (base ++ repeat 0 (length H' - length hb))) as (vals & EV & LV & G).
  { rewrite LL. symmetry. eapply forall2_len. exact F. }
  { rewrite app_length, repeat_length. lia. }
  exists vals. split; [exact EV|]. split; [exact LV|]. intros rc.
  unfold w. rewrite (entry_of_getv H' vals rc ND), G, (base_getv hb off _ H' base _ rc NB I' LB).
  rewrite lag_eq; [reflexivity|]. apply legal_wf; [constructor|exact L].
Qed.

(** Rows, bounds and sizes after any history. *)
Lemma rows_history m hb jb off ops x :
  NoDup hb -> legal_run m [] ops ->
  exists s0 s, q_new m hb jb off = Ok s0 /\ q_run sr sc fuel order s0 ops = Ok s /\
    s_gl s = map a_lb (a_run m [] ops) /\ s_gu s = map a_ub (a_run m [] ops) /\
    (exists vs, eval_rows x (s_rows s) = Ok vs /\
       Forall2 (fun v c => v == a_value c x) vs (a_run m [] ops)) /\
    (jb + length (q_jstruct s))%nat = s_nnzjac s /\
    (exists vs, jac_vals x (s_rows s) = Ok vs /\ length vs = length (q_jstruct s)).
Proof.
  intros NB L. destruct (q_new_ok m hb jb off NB) as (s0 & E0 & I0).
  destruct (q_run_ok sr sc Hsr Hsc fuel order m hb jb off ops [] s0 I0 L) as (s & E & I).
  destruct I as (Em & Eh & Ej & Eo & F & GL & GU & _ & HI & V & NJ).
  exists s0, s. split; [exact E0|]. split; [exact E|]. split; [exact GL|]. split; [exact GU|].
  split.
  - destruct (eval_rows_ok _ _ x F) as (vs & EV & F2). exists vs. split; [exact EV|].
    assert (W : Forall wf_cut (a_run m [] ops)) by (apply legal_wf; [constructor|exact L]).
    clear EV. revert W F2. generalize (a_run m [] ops). intros cs W F2. induction F2; constructor.
    + rewrite H. apply poly_value. inversion W; assumption.
    + apply IHF2. inversion W; assumption.
  - unfold q_jstruct. rewrite Em, Eo. destruct (jac_ok off x _ _ F m) as (A & vs & B & C).
    rewrite A. split; [rewrite NJ; reflexivity|]. exists vs. split; [exact B|exact C].
Qed.

Lemma row_rep_grad x off r c : row_rep r c -> NoDup (map fst (a_lin c)) ->
  exists vs r', row_eval_grad x r = Ok (vs, r') /\
    length vs = length (gradiant_struct off r) /\
    forall h, poly 0 (a_lin c) (a_stored c) (vadd x h) - poly 0 (a_lin c) (a_stored c) x ==
              sparse_dot (gradiant_struct 0 r) vs h + tri_form (a_stored c) h.
Proof.
  intros (RI & _) ND. destruct (row_eval_grad_ok _ _ _ _ x off RI) as (vs & r' & A & _ & _ & L1 & L2 & B).
  exists vs, r'. split; [exact A|]. split; [congruence|]. intros h. apply B. exact ND.
Qed.
End Run.

Lemma combine_app {A B} (l1 l1' : list A) (l2 l2' : list B) : length l1 = length l2 ->
  combine (l1 ++ l1') (l2 ++ l2') = combine l1 l2 ++ combine l1' l2'.
Proof. revert l2; induction l1; intros [|b l2] E; simpl in *; try discriminate; [reflexivity|]. f_equal. auto. Qed.

Lemma block_dot_app st1 st2 v1 v2 off i h : length st1 = length v1 ->
  block_dot (st1 ++ st2) (v1 ++ v2) off i h == block_dot st1 v1 off i h + block_dot st2 v2 off i h.
Proof. intros E. unfold block_dot. rewrite combine_app by exact E. rewrite map_app. apply qsum_app. Qed.

Lemma block_same off i g vs h : length vs = length g ->
  block_dot (map (fun c => ((i + off)%nat, c)) (map (fun p : nat * (Q * Q) => (fst p + off)%nat) g)) vs off i h
  == sparse_dot (map (fun p : nat * (Q * Q) => (fst p + 0)%nat) g) vs h.
Proof.
  unfold block_dot, sparse_dot. revert vs; induction g as [|p g IH]; intros [|v vs] L; simpl in *;
    try discriminate; [reflexivity|].
  rewrite Nat.eqb_refl. rewrite (IH vs) by lia.
  replace (fst p + off - off)%nat with (fst p + 0)%nat by lia. reflexivity.
Qed.
Lemma block_other off i i' (cs : list nat) vs h : i <> i' ->
  block_dot (map (fun c => ((i + off)%nat, c)) cs) vs off i' h == 0.
Proof.
  intros N. unfold block_dot. apply qsum_zero. intros [[a b] v] HI.
  apply in_combine_l in HI. apply in_map_iff in HI. destruct HI as (c & E & _). injection E as <- <-.
  simpl. destruct (Nat.eqb_spec (i + off) (i' + off)); [lia|reflexivity].
Qed.
Lemma block_low off i0 rows vs : forall i h, (i < i0)%nat ->
  block_dot (jac_struct off i0 rows) vs off i h == 0.
Proof.
  intros i h L. unfold block_dot. apply qsum_zero. intros [[a b] v] HI. apply in_combine_l in HI.
  assert (G : forall rs i1, (i < i1)%nat -> In (a, b) (jac_struct off i1 rs) -> (i + off < a)%nat).
  { induction rs as [|r rs IH]; intros i1 L1 H; simpl in H; [contradiction|].
    apply in_app_or in H. destruct H as [H|H].
    - apply in_map_iff in H. destruct H as (c & E & _). injection E as <- <-. lia.
    - eapply (IH (S i1)); [lia|exact H]. }
  apply (G rows i0 L) in HI. simpl. destruct (Nat.eqb_spec a (i + off)); [lia|reflexivity].
Qed.

Lemma jac_block off x rows cs : Forall2 row_rep rows cs ->
  Forall (fun c => NoDup (map fst (a_lin c))) cs -> forall i0,
  exists vs, jac_vals x rows = Ok vs /\ length vs = length (jac_struct off i0 rows) /\
  forall q c, nth_error cs q = Some c -> forall h,
    poly 0 (a_lin c) (a_stored c) (vadd x h) - poly 0 (a_lin c) (a_stored c) x ==
    block_dot (jac_struct off i0 rows) vs off (i0 + q) h + tri_form (a_stored c) h.
Proof.
  induction 1 as [|r c rows cs RR F IH]; intros ND i0; cbn [jac_struct jac_vals].
  - exists []. split; [reflexivity|]. split; [reflexivity|]. intros [|q]; discriminate.
  - inversion ND as [|? ? ND1 ND2]; subst.
    destruct (row_rep_grad x off r c RR ND1) as (v & r' & -> & L & G). cbn [bind].
    destruct (IH ND2 (S i0)) as (vs & -> & LV & GV). cbn [bind].
    exists (v ++ vs). split; [reflexivity|]. split.
    + rewrite !app_length, map_length, L, LV. reflexivity.
    + intros q c' N h.
      rewrite block_dot_app by (rewrite map_length; symmetry; exact L).
      destruct q as [|q]; simpl in N.
      * injection N as <-. rewrite Nat.add_0_r. rewrite (block_low off (S i0)) by lia.
        rewrite (G h). unfold gradiant_struct. rewrite block_same; [ring|].
        rewrite L. unfold gradiant_struct. rewrite map_length. reflexivity.
      * rewrite block_other by lia.
        replace (i0 + S q)%nat with (S i0 + q)%nat by lia. rewrite (GV q c' N h). ring.
Qed.

Lemma jac_history sr sc fuel order m hb jb off ops x :
  sorts row_le sr -> sorts col_le sc ->
  NoDup hb -> legal_run m [] ops ->
  Forall (fun c => NoDup (map fst (a_lin c))) (a_run m [] ops) ->
  exists s0 s vs, q_new m hb jb off = Ok s0 /\ q_run sr sc fuel order s0 ops = Ok s /\
    jac_vals x (s_rows s) = Ok vs /\ length vs = length (q_jstruct s) /\
    (jb + length (q_jstruct s))%nat = s_nnzjac s /\
    forall q c, nth_error (a_run m [] ops) q = Some c -> forall h,
      a_value c (vadd x h) - a_value c x ==
      block_dot (q_jstruct s) vs off (m + q) h + tri_form (a_entries c) h.
Proof.
  intros Sr Sc NB L ND. destruct (q_new_ok m hb jb off NB) as (s0 & E0 & I0).
  destruct (q_run_ok sr sc Sr Sc fuel order m hb jb off ops [] s0 I0 L) as (s & E & I).
  destruct I as (Em & Eh & Ej & Eo & F & GL & GU & _ & HI & V & NJ).
  destruct (jac_block off x _ _ F ND m) as (vs & EV & LV & G).
  exists s0, s, vs. split; [exact E0|]. split; [exact E|]. split; [exact EV|].
  unfold q_jstruct. rewrite Em, Eo. split; [exact LV|]. split.
  { destruct (jac_ok off x _ _ F m) as (A & _). rewrite A. rewrite NJ. reflexivity. }
  intros q c N h.
  assert (W : wf_cut c).
  { assert (W : Forall wf_cut (a_run m [] ops)) by (apply legal_wf; [constructor|exact L]).
    rewrite Forall_forall in W. apply W. eapply nth_error_In, N. }
  rewrite <- (poly_value c (vadd x h) W), <- (poly_value c x W), (G q c N h).
  destruct c as [k|k]; simpl; [rewrite stored_form|]; reflexivity.
Qed.

(** ** Conversion *)
Lemma cut_of_assign sr sc fuel order k r0 x :
  sorts row_le sr -> sorts col_le sc -> well_stored k ->
  (k_e k <> [] \/ (tm_nr (r_q r0) = [] /\ tm_nc (r_q r0) = [])) ->
  exists r v r', row_assign_cut sr sc fuel order r0 k = Ok r /\ row_eval_f x r = Ok (v, r') /\
    v == cut_value k x /\ v == cut_rhs k x.
Proof.
  intros Sr Sc W N. destruct (row_assign_cut_ok sr sc Sr Sc fuel order k r0 W N) as (r & E & I).
  destruct (row_eval_f_ok _ _ _ _ x I) as (v & r' & EV & _ & _ & V).
  exists r, v, r'. split; [exact E|]. split; [exact EV|].
  assert (V' : v == k_c k + lin_form (k_a k) x + tri_form (k_e k) x).
  { rewrite V. unfold poly. rewrite stored_form. reflexivity. }
  split.
  - rewrite V'. unfold cut_value. unfold well_stored in W. destruct (k_ty k); [reflexivity|reflexivity|contradiction].
  - rewrite V', cut_rhs_tri. reflexivity.
Qed.
Lemma cut_of_ctor sr sc fuel order k x :
  sorts row_le sr -> sorts col_le sc -> well_stored k ->
  exists r v r', row_of_cut sr sc fuel order k = Ok r /\ row_eval_f x r = Ok (v, r') /\
    v == cut_value k x - k_c k.
Proof.
  intros Sr Sc W. destruct (row_of_cut_ok sr sc Sr Sc fuel order k W) as (r & E & I & _).
  destruct (row_eval_f_ok _ _ _ _ x I) as (v & r' & EV & _ & _ & V).
  exists r, v, r'. split; [exact E|]. split; [exact EV|].
  rewrite V. unfold poly. rewrite stored_form. unfold cut_value.
  unfold well_stored in W. destruct (k_ty k); [ring|ring|contradiction].
Qed.
Lemma ctor_drops_constant sr sc order : sorts row_le sr -> sorts col_le sc -> ~ C09_full sr sc order.
Proof.
  intros Sr Sc H.
  set (k := mkCut 0 0 1 [] [] Upper).
  assert (W : well_stored k) by (unfold well_stored; simpl; constructor).
  destruct (cut_of_ctor sr sc 0 order k (fun _ => 0) Sr Sc W) as (r & v & r' & E & EV & V).
  specialize (H k W 0%nat r E _ _ _ EV). rewrite V in H. revert H.
  unfold cut_value, k, lin_form, tri_form; simpl. intros H. lra.
Qed.

(** ** Normalisation *)
Lemma normal_tri fuel order ty E E' : ty <> Full -> make_upper fuel order ty E = Ok E' ->
  (forall x, tri_form E' x == tri_form E x) /\ Forall (fun t => (t_i t <= t_j t)%nat) E'.
Proof.
  intros N H. unfold make_upper in H. apply bind_ok in H. destruct H as (E1 & A & B).
  destruct (forallb upper_ok E1) eqn:U; [|discriminate]. injection B as <-. split.
  - intros x. destruct ty; [| |congruence].
    + destruct (forallb upper_ok E); [|discriminate]. injection A as <-. reflexivity.
    + destruct (forallb lower_ok E); [|discriminate]. injection A as <-.
      apply (stored_form (mkCut 0 0 0 [] E Lower)).
  - apply Forall_forall. intros t Ht. rewrite forallb_forall in U. apply U in Ht.
    apply Nat.leb_le in Ht. exact Ht.
Qed.
Lemma normal_tri_total fuel order ty E : ty <> Full ->
  (ty = Upper -> Forall (fun t => (t_i t <= t_j t)%nat) E) ->
  (ty = Lower -> Forall (fun t => (t_j t <= t_i t)%nat) E) ->
  exists E', make_upper fuel order ty E = Ok E'.
Proof.
  intros N HU HL. destruct (make_upper_stored fuel order (mkCut 0 0 0 [] E ty)) as (A & _).
  { unfold well_stored; simpl. destruct ty; auto. }
  simpl in A. eauto.
Qed.
Lemma full_diverges fuel order E : E <> [] -> make_upper fuel order Full E = Diverges.
Proof.
  intros N. unfold make_upper, make_full. rewrite full_loop_diverges by exact N. reflexivity.
Qed.
Lemma normal_refuted order : ~ C10_full order.
Proof.
  intros (H & _). destruct (H [mkT 0 0 1]) as (fuel & E' & R & _).
  rewrite full_diverges in R by discriminate. discriminate.
Qed.
Lemma merge_refuted :
  ~ (forall ro E, Permutation ro (seq 0 (length E)) ->
     (forall i j ti tj, (i < j)%nat -> nth_error E (nth i ro 0%nat) = Some ti ->
        nth_error E (nth j ro 0%nat) = Some tj -> (j < length E)%nat -> row_le ti tj) ->
     exists E', remove_duplicates ro E = Ok E' /\ forall x, full_form E' x == full_form E x).
Proof.
  intros H. destruct (H [0%nat] [mkT 0 0 1]) as (E' & R & V).
  - apply Permutation_refl.
  - simpl. intros; lia.
  - vm_compute in R. injection R as <-. specialize (V (fun _ => 1)). vm_compute in V. discriminate.
Qed.
Lemma scaling_never fuel ncons nrows m : (exists u, q_scaling fuel ncons nrows m = Ok u) -> False.
Proof.
  revert m; induction fuel as [|f IH]; intros m (u & H); cbn [q_scaling] in H; [discriminate|].
  destruct (Nat.eqb ncons m); [|discriminate]. eapply IH. eauto.
Qed.
Lemma single_row x rows vs : eval_rows x rows = Ok vs -> forall q v, nth_error vs q = Some v ->
  exists r r', nth_error rows q = Some r /\ row_eval_f x r = Ok (v, r').
Proof.
  revert vs; induction rows as [|r rows IH]; intros vs E q v N; cbn [eval_rows] in E.
  - injection E as <-. destruct q; discriminate.
  - apply bind_ok in E. destruct E as ([v0 r0] & E0 & E). apply bind_ok in E.
    destruct E as (vs0 & E1 & E). injection E as <-. destruct q as [|q]; simpl in *.
    + injection N as <-. eauto.
    + eauto.
Qed.
Lemma single_value x s vs q v : eval_rows x (s_rows s) = Ok vs -> nth_error vs q = Some v ->
  exists b, q_eval_gi x (s_m s + q) s = Ok (v, b).
Proof.
  intros E N. destruct (single_row x _ _ E q v N) as (r & r' & A & B). exists false.
  unfold q_eval_gi. destruct (Nat.ltb_spec (s_m s + q) (s_m s)); [lia|].
  replace (s_m s + q - s_m s)%nat with q by lia. rewrite A, B. reflexivity.
Qed.
