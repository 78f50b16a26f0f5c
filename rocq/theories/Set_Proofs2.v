From Verif Require Import Base Arr Set_Model Set_Spec Set_Proofs.
From Coq Require Import String ZArith.
#[local] Open Scope string_scope.
#[local] Open Scope Q_scope.

(** * The options of the second searches *)
Notation L := "local_solver.".
Notation M := "pump_for_minlp.".
Record five := mkF { f_sol : Z * bool; f_node : Z * bool; f_time : ext * bool; f_rule : Z * bool; f_algo : Z * bool }.
Definition lkp (o : opts) : five :=
  mkF (geti L "solution_limit" o) (geti L "node_limit" o) (getn L "time_limit" o) (geti L "variable_selection" o) (geti L "algorithm" o).
Definition dfl {A} (v : A) (x : A * bool) : A * bool := if snd x then x else (v, true).
Definition upd5 (f : five) : five :=
  mkF (dfl 5%Z (f_sol f)) (dfl 1000%Z (f_node f)) (dfl (Fin 60) (f_time f)) (dfl 0%Z (f_rule f)) (dfl 2%Z (f_algo f)).
Lemma dfl_idem A (v : A) x : dfl v (dfl v x) = dfl v x.
Proof. unfold dfl. destruct x as [a [|]]; reflexivity. Qed.
Lemma upd5_idem f : upd5 (upd5 f) = upd5 f.
Proof. unfold upd5. cbn. rewrite !dfl_idem. reflexivity. Qed.
Definition two (o : opts) : (ext * bool) * (Z * bool) := (getn M "time_limit" o, geti M "algorithm" o).
Definition upd2 (f : (ext * bool) * (Z * bool)) := (dfl (Fin 30) (fst f), dfl 5%Z (snd f)).
Lemma upd2_idem f : upd2 (upd2 f) = upd2 f.
Proof. unfold upd2. cbn. rewrite !dfl_idem. reflexivity. Qed.

Lemma geti_unset p n o : snd (geti p n o) = false -> find (p ++ n) (o_int o) = None.
Proof. unfold geti, look. destruct (find (p ++ n) (o_int o)); [discriminate|reflexivity]. Qed.
Lemma getn_unset p n o : snd (getn p n o) = false -> find (p ++ n) (o_num o) = None.
Proof. unfold getn, look. destruct (find (p ++ n) (o_num o)); [discriminate|reflexivity]. Qed.
Lemma geti_dfli_self p n v o : geti p n (dfli p n v o) = dfl v (geti p n o).
Proof.
  unfold dfli, dfl. destruct (snd (geti p n o)) eqn:E; [reflexivity|]. apply geti_unset in E.
  unfold geti, look, seti. cbn [o_int]. rewrite find_put_self, E. reflexivity.
Qed.
Lemma getn_dfln_self p n v o : getn p n (dfln p n v o) = dfl v (getn p n o).
Proof.
  unfold dfln, dfl. destruct (snd (getn p n o)) eqn:E; [reflexivity|]. apply getn_unset in E.
  unfold getn, look, setn. cbn [o_num]. rewrite find_put_self, E. reflexivity.
Qed.
Lemma geti_dfln p n q m v o : geti p n (dfln q m v o) = geti p n o.
Proof. unfold dfln. destruct (snd _); reflexivity. Qed.
Lemma getn_dfli p n q m v o : getn p n (dfli q m v o) = getn p n o.
Proof. unfold dfli. destruct (snd _); reflexivity. Qed.
Lemma getn_seti p n k v o : getn p n (seti k v o) = getn p n o.
Proof. reflexivity. Qed.
Lemma geti_setn p n k v o : geti p n (setn k v o) = geti p n o.
Proof. reflexivity. Qed.
Lemma getn_setn_other p n k v o : String.eqb k (p ++ n) = false -> String.eqb k n = false -> getn p n (setn k v o) = getn p n o.
Proof. intros H1 H2. unfold getn, look, setn. cbn [o_num]. rewrite !find_put_other by assumption. reflexivity. Qed.
Lemma getn_dfln_other p n q m v o : String.eqb (q ++ m) (p ++ n) = false -> String.eqb (q ++ m) n = false -> getn p n (dfln q m v o) = getn p n o.
Proof. intros H1 H2. unfold dfln. destruct (snd _); [reflexivity|]. apply getn_setn_other; assumption. Qed.
Ltac opt1 := repeat first
  [ rewrite geti_dfln | rewrite getn_dfli | rewrite getn_seti | rewrite geti_setn
  | rewrite geti_dfli_self | rewrite getn_dfln_self
  | rewrite geti_dfli_other by reflexivity | rewrite getn_dfln_other by reflexivity
  | rewrite geti_seti_other by reflexivity | rewrite getn_setn_other by reflexivity ]; try reflexivity.
Lemma lkp_local o : lkp (local_defaults o) = upd5 (lkp o).
Proof. unfold lkp, local_defaults, upd5. cbv zeta. cbn [f_sol f_node f_time f_rule f_algo]. f_equal; opt1. Qed.
Lemma lkp_pump o : lkp (pump_defaults o) = lkp o.
Proof. unfold lkp, pump_defaults. cbv zeta. f_equal; opt1. Qed.
Lemma two_local o : two (local_defaults o) = two o.
Proof. unfold two, local_defaults. cbv zeta. f_equal; opt1. Qed.
Lemma two_pump o : two (pump_defaults o) = upd2 (two o).
Proof. unfold two, pump_defaults, upd2. cbv zeta. cbn [fst snd]. f_equal; opt1. Qed.

Definition is_local (h : heu) : bool :=
  match h with HFixSolve | HDummyPump | HRins | HLocalBranching | HPumpMinlp => true | _ => false end.
Definition is_pump (h : heu) : bool := match h with HPumpMinlp => true | _ => false end.
(** What setting up heuristics does to these options. *)
Definition loc (s t : setup) : Prop :=
  s_pfx t = s_pfx s /\ exists l, s_heus t = (s_heus s ++ l)%list /\
  lkp (s_opt t) = (if existsb is_local l then upd5 (lkp (s_opt s)) else lkp (s_opt s)) /\
  two (s_opt t) = (if existsb is_pump l then upd2 (two (s_opt s)) else two (s_opt s)).
Lemma loc_refl s : loc s s.
Proof. split; [reflexivity|]. exists []. rewrite app_nil_r. repeat split. Qed.
Lemma loc_trans a b c : loc a b -> loc b c -> loc a c.
Proof.
  intros (P1 & l & H1 & L1 & T1) (P2 & k & H2 & L2 & T2). split; [congruence|]. exists (l ++ k)%list.
  split; [rewrite H2, H1, app_assoc; reflexivity|]. rewrite !existsb_app, L2, L1, T2, T1.
  split; [destruct (existsb is_local l), (existsb is_local k) | destruct (existsb is_pump l), (existsb is_pump k)]; cbn [orb];
    rewrite ?upd5_idem, ?upd2_idem; reflexivity.
Qed.
Lemma loc_add h s : loc s (add_heu h s).
Proof.
  split; [reflexivity|]. exists [h]. split; [reflexivity|]. cbn [add_heu wheu wopt s_opt existsb orb].
  destruct h; cbn [heu_opts is_local is_pump orb]; rewrite ?lkp_pump, ?two_pump, ?two_local, ?lkp_local; auto.
Qed.
Lemma loc_if n h s : loc s (heu_if n h s).
Proof. unfold heu_if. destruct (yes n s); [apply loc_add|apply loc_refl]. Qed.
Lemma loc_wopt n v s : s_pfx s = "bonmin." -> loc s (wopt (seti (s_pfx s ++ n) v (s_opt s)) s).
Proof.
  intros E. split; [reflexivity|]. exists []. rewrite app_nil_r. split; [reflexivity|]. cbn [existsb wopt s_opt]. rewrite E.
  split; [unfold lkp|unfold two]; f_equal; opt1.
Qed.
Lemma loc_main n h s t : loc s t -> s_pfx s = "bonmin." ->
  loc s (if snd (gi n t) then heu_if n h t else add_heu h (wopt (seti (s_pfx t ++ n) 1 (s_opt t)) t)).
Proof.
  intros H E. assert (Et : s_pfx t = "bonmin.") by (destruct H; congruence).
  destruct (snd _); eapply loc_trans; [exact H|apply loc_if|exact H|].
  eapply loc_trans; [apply loc_wopt; exact Et|apply loc_add].
Qed.
Ltac locs := repeat first
  [ apply loc_refl
  | match goal with
    | |- loc _ (heu_if _ _ _) => eapply loc_trans; [|apply loc_if]
    | |- loc _ (add_heu _ _) => eapply loc_trans; [|apply loc_add]
    end ].
Lemma loc_hyb s : loc s (hyb_heuristics s).
Proof. unfold hyb_heuristics. cbv zeta. locs. Qed.
Lemma loc_bbb P s : s_pfx s = "bonmin." -> loc s (bbb_heuristics P s).
Proof.
  intros E. unfold bbb_heuristics. cbv zeta.
  do 6 (eapply loc_trans; [|apply loc_if]).
  match goal with |- loc _ (if _ then ?x else _) => set (t := x) end.
  assert (H : loc s t).
  { subst t. eapply loc_trans; [|apply loc_if]. apply loc_main; [locs|exact E]. }
  clearbody t. destruct (p_genint P); [exact H|]. apply loc_main; assumption.
Qed.

(** Before the heuristics. *)
Definition mainw (o o' : opts) : Prop := lkp o' = lkp o /\ two o' = two o.
Lemma mainw_seti n v o : mainw o (seti ("bonmin." ++ n) v o).
Proof. split; [unfold lkp|unfold two]; f_equal; opt1. Qed.
Lemma mainw_trans a b c : mainw a b -> mainw b c -> mainw a c.
Proof. intros [? ?] [? ?]. split; congruence. Qed.
Lemma mainw_refl o : mainw o o.
Proof. split; reflexivity. Qed.
Lemma mainw_start o : mainw o (s_opt (start o)).
Proof.
  rewrite start_opt. cbv zeta. destruct (Z.eqb _ 0); [eapply mainw_trans; apply mainw_seti|].
  destruct (Z.eqb _ 2); [apply mainw_seti|apply mainw_refl].
Qed.
Lemma mainw_par q n v s : s_pfx s = "bonmin." -> mainw (s_opt s) (s_opt (par_default q n v s)).
Proof. intros E. unfold par_default. destruct (snd _); cbn [s_opt wopt wip]; [apply mainw_refl|rewrite E; apply mainw_seti]. Qed.
Lemma mainw_bbb s : s_pfx s = "bonmin." -> mainw (s_opt s) (bbb_opts (bbb_start s)).
Proof.
  intros E. destruct (bbb_start_rest s) as (A & _). rewrite E in A.
  assert (H : mainw (s_opt s) (s_opt (bbb_start s))).
  { unfold bbb_start. set (u := wip SpecialOption 16 (wcont CNlp s)).
    assert (Eu : s_pfx u = "bonmin.") by exact E. change (s_opt s) with (s_opt u). clearbody u.
    destruct (par_default_rest MinReliability "number_before_trust" 1%Z u) as (B & _).
    eapply mainw_trans; [apply mainw_par; exact Eu|apply mainw_par; congruence]. }
  unfold bbb_opts. destruct (snd _); [exact H|]. rewrite A. eapply mainw_trans; [exact H|apply mainw_seti].
Qed.
Lemma lkp_presets a o : lkp (presets a "bonmin." "" o) = lkp o.
Proof.
  unfold presets. destruct a as [|a|a]; try reflexivity. do 3 (try destruct a as [a|a|]; try reflexivity); unfold lkp; f_equal; opt1.
Qed.
(** The result. *)
Lemma second_opts P dt o s : initialize P true dt (init o) = Ok s ->
  (existsb is_local (s_heus s) = true -> lkp (s_opt s) = upd5 (lkp o)) /\
  (existsb is_pump (s_heus s) = true -> two (s_opt s) = upd2 (two o)).
Proof.
  intros H. rewrite initialize_eq in H. destruct (start_rest o) as (S1 & _ & _ & _ & _ & SH & _ & S8).
  destruct (Z.eqb (value "algorithm" o) 0).
  - apply initializeBBB_inv in H. destruct H as (u & H1 & E & _).
    apply bbb_branching_same in H1. destruct H1 as (O & Pf & _ & _ & _ & _ & Hh).
    rewrite S1 in Pf. pose proof (loc_bbb P u Pf) as (_ & l & A & B & C). rewrite <- E in A, B, C. clear E.
    destruct (mainw_start o) as [W1 W2]. destruct (mainw_bbb (start o) S1) as [V1 V2].
    rewrite Hh, SH in A. cbn [app] in A. rewrite A, B, C, O, V1, V2, W1, W2. split; intros X; rewrite X; reflexivity.
  - pose proof (hyb_values _ _ _ _ _ H) as (_ & _ & HH).
    apply initializeBHyb_inv in H. destruct H as (u & v & H1 & E & O & _ & _ & _ & _ & _ & _ & Hs & _).
    pose proof (loc_hyb (hyb_gens (getAlgorithm (start o)) u)) as (_ & l & A & B & C). rewrite <- E in A, B, C.
    pose proof (same_hyb_gens (getAlgorithm (start o)) u) as (_ & G1 & G2). rewrite G2 in A. rewrite G1 in B.
    apply hyb_branching_same in H1. destruct H1 as (O2 & _ & _ & _ & _ & _ & Hh).
    destruct (hyb_start_rest true (start o)) as (O3 & _ & _ & _ & _ & _ & _ & H8 & _).
    rewrite Hh, H8, SH in A. cbn [app] in A. destruct (mainw_start o) as [W1 W2].
    rewrite S1 in O3. change (sub_prefix "bonmin.") with "" in O3.
    split; intros X.
    + rewrite Hs, A in X. rewrite X in B. rewrite O, B, O2, O3, lkp_presets, W1. reflexivity.
    + exfalso. rewrite HH in X. apply existsb_exists in X. destruct X as (h & I & X). apply filter_In in I. destruct I as [I _].
      cbn in I. repeat (destruct I as [I|I]; [subst h; discriminate X|]). destruct I.
Qed.
