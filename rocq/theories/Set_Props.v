(** Theorems on setting up an algorithm (C119-C132). *)
From Coq Require Import String.
From Verif Require Import Base Arr Set_Model Set_Spec Set_Proofs Set_Proofs2.
#[local] Open Scope Q_scope.
#[local] Open Scope string_scope.

Definition no_user : user := mkUser None None None None None None.
Definition P1 : prob := mkProb [0%nat] no_user false.
Definition from_file (l : list (string * Z)) : opts := mkOpts (map (fun x => (fst x, mkE (snd x) false)) l) [].
(** The outcome is a set-up that passes a test. *)
Definition holds {A} (f : A -> bool) (x : outcome A) : bool := match x with Ok s => f s | _ => false end.
Lemma holds_ex : forall {A} (f : A -> bool) x, holds f x = true -> exists s, x = Ok s /\ f s = true.
Proof. intros A f x H. destruct x; try discriminate H. eauto. Qed.

Definition get {A} (d : A) (x : outcome A) : A := match x with Ok s => s | _ => d end.
Lemma get_ok : forall {A} (d : A) x, holds (fun _ => true) x = true -> x = Ok (get d x).
Proof. intros A d x H. destruct x; try discriminate H. reflexivity. Qed.
Ltac ok_ex := match goal with |- exists s, ?x = Ok s /\ _ => exists (get (init (mkOpts [] [])) x) end;
  split; [apply get_ok; vm_compute; reflexivity | repeat split; vm_compute; reflexivity].

(** ** C119 *)
(** A value in the options file under the full name is the one used, for any option and algorithm. *)
Theorem C119_partial : forall P create dt o s n v,
  in_file ("bonmin." ++ n) v o -> initialize P create dt (init o) = Ok s -> value n (s_opt s) = v.
Proof.
  intros P create dt o s n v F H. apply initialize_keeps in H. destruct H as [K _].
  unfold value, geti, look. rewrite (K _ _ F eq_refl). reflexivity.
Qed.
Print Assumptions C119_partial.
(** So is one given without prefix, but for the options in [forced]. *)
Theorem C119_bare_partial : forall P create dt o s n v,
  In n options -> find ("bonmin." ++ n) (o_int o) = None -> in_file n v o ->
  ~ In n (forced (value "algorithm" o) (value "variable_selection" o)) ->
  initialize P create dt (init o) = Ok s -> value n (s_opt s) = v.
Proof.
  intros P create dt o s n v I N F W H.
  assert (V : geti "bonmin." n o = (v, true)) by (unfold geti, look; rewrite N, F; reflexivity).
  assert (E : geti "bonmin." n (s_opt (start o)) = geti "bonmin." n o).
  { apply start_same; [exact I|]. intros K. apply W. rewrite forced_eq. apply in_or_app. left. exact K. }
  rewrite initialize_eq in H. destruct (Z.eqb (value "algorithm" o) 0).
  - destruct (bbb_values _ _ _ H) as (_ & K & _). unfold value.
    rewrite (K n I); rewrite E, V; reflexivity.
  - destruct (hyb_values _ _ _ _ _ H) as (_ & K & _). unfold value. rewrite (K n I).
    rewrite presets_locked, E, V; [reflexivity | exact I | |].
    + intros J. apply W. rewrite forced_eq. apply in_or_app. right. exact J.
    + apply locked_keeps with o; [apply start_keeps|]. exists (mkE v false). split; [exact F | reflexivity].
Qed.
Print Assumptions C119_bare_partial.
(** Nothing written in the file is ever changed, whatever the prefix, in the set-up, in copies of it and
    in the set-ups of second searches. *)
Theorem C119_kept_partial : forall P create dt l p cutoff o s t k,
  initialize P create dt (init o) = Ok s -> (t = s \/ copy_prefix P l p dt s = Ok t \/ local_setup P p cutoff dt s = Ok t) ->
  (forall v, in_file k v o -> in_file k v (s_opt t)) /\
  (forall v, find k (o_num o) = Some (mkE v false) -> find k (o_num (s_opt t)) = Some (mkE v false)).
Proof.
  intros P create dt l p cutoff o s t k H C. apply initialize_keeps in H. cbn [s_opt init] in H.
  assert (K : keeps o (s_opt t)).
  { destruct C as [->|[C|C]]; [exact H | |].
    - eapply keeps_trans; [exact H | eapply copy_prefix_keeps; exact C].
    - unfold local_setup in C. apply bind_ok in C. destruct C as (u & C & E).
      apply copy_prefix_keeps in C. assert (F : s_opt t = s_opt u) by (injection E as <-; reflexivity). rewrite F.
      eapply keeps_trans; [exact H | exact C]. }
  destruct K as [K1 K2]. split; intros v F; [apply K1 | apply K2]; auto.
Qed.
Print Assumptions C119_kept_partial.
Theorem C119_refuted : ~ C119_full.
Proof.
  intros H. pose (o := from_file [("algorithm", 2%Z); ("nlp_solve_frequency", 5%Z)]).
  assert (X : holds (fun s => Z.eqb (value "nlp_solve_frequency" (s_opt s)) 0) (initialize P1 true 0 (init o)) = true) by (vm_compute; reflexivity).
  apply holds_ex in X. destruct X as (s & E & X). apply Z.eqb_eq in X.
  specialize (H P1 true 0 o s "nlp_solve_frequency" 5%Z ltac:(inopt) (or_intror (conj eq_refl eq_refl)) E). congruence.
Qed.
Print Assumptions C119_refuted.
Example C119_ex : exists s, initialize P1 true 0 (init (from_file [("algorithm", 2%Z); ("bonmin.nlp_solve_frequency", 5%Z); ("node_limit", 7%Z)])) = Ok s /\
  value "nlp_solve_frequency" (s_opt s) = 5%Z /\ value "node_limit" (s_opt s) = 7%Z /\ value "pump_for_minlp" (s_opt s) = 0%Z.
Proof. ok_ex. Qed.

(** ** C120 *)
Theorem C120_partial : forall P create dt o s,
  initialize P create dt (init o) = Ok s ->
  (forall q, s_ip s q = par_value o q) /\ (forall q, s_dp s q = num_value o dt q).
Proof. intros P create dt o s H. split; intros q; [eapply parameters | eapply num_parameters]; exact H. Qed.
Print Assumptions C120_partial.
(** In particular every parameter but four has the value of its option. *)
Theorem C120_value_partial : forall P create dt o s q n,
  doc_int q = Some n -> q <> NumberStrong -> q <> MinReliability -> (q = BabLogLevel -> value "algorithm" o <> 5%Z) ->
  initialize P create dt (init o) = Ok s -> s_ip s q = value n o.
Proof.
  intros P create dt o s q n E N1 N2 N3 H. rewrite (parameters _ _ _ _ _ q H).
  destruct q; cbn in E; try discriminate E; injection E as <-; cbn [par_value doc_int]; try congruence; try reflexivity.
  cbv zeta. destruct (Z.eqb_spec (value "algorithm" o) 5); [exfalso; apply N3; auto | reflexivity].
Qed.
Print Assumptions C120_value_partial.
Theorem C120_refuted : ~ C120_full.
Proof.
  intros H. pose (o := from_file [("bonmin.algorithm", 2%Z); ("bonmin.variable_selection", 0%Z); ("bonmin.number_strong_branch", 50%Z)]).
  assert (X : holds (fun _ => true) (initialize P1 true 0 (init o)) = true) by (vm_compute; reflexivity).
  apply holds_ex in X. destruct X as (s & E & _).
  specialize (H P1 true 0 o s NumberStrong "number_strong_branch" eq_refl eq_refl E).
  rewrite (parameters _ _ _ _ _ NumberStrong E) in H. vm_compute in H. discriminate H.
Qed.
Print Assumptions C120_refuted.
Example C120_ex : exists s, initialize P1 true 0 (init (from_file [("bonmin.node_limit", 7%Z)])) = Ok s /\
  s_ip s MaxNodes = 7%Z /\ s_ip s NumberStrong = 1000%Z /\ s_dp s MaxTime = Fin (ten 10).
Proof. ok_ex. Qed.

(** ** C121 *)
Theorem C121_presets : forall P create dt o s n v,
  In (n, v) (preset_table (value "algorithm" o)) -> given n o = false ->
  initialize P create dt (init o) = Ok s -> value n (s_opt s) = v.
Proof.
  intros P create dt o s n v T G H.
  assert (I : In n options).
  { unfold preset_table in T. destruct (value "algorithm" o) as [|p|p]; try contradiction.
    do 3 (try destruct p as [p|p|]; try contradiction); cbn [In] in T;
      repeat (destruct T as [T|T]; [apply pair_equal_spec in T; destruct T as [<- _]; inopt|]); contradiction. }
  rewrite initialize_eq in H. destruct (Z.eqb_spec (value "algorithm" o) 0) as [A|A].
  - rewrite A in T. destruct T.
  - destruct (hyb_values _ _ _ _ _ H) as (_ & K & _). unfold value at 1. rewrite (K n I).
    assert (L : geti "bonmin." n (s_opt (start o)) = geti "bonmin." n o).
    { apply start_same; [exact I|].
      unfold preset_table in T. destruct (value "algorithm" o) as [|p|p]; try contradiction.
      do 3 (try destruct p as [p|p|]; try contradiction); cbn [In] in T;
      repeat (destruct T as [T|T]; [apply pair_equal_spec in T; destruct T as [<- _]; apply forced_vs_not; discriminate|]); contradiction. }
    assert (M : look "bonmin." n (o_int (s_opt (start o))) = None).
    { apply look_geti with o; [exact L|]. apply geti_none. exact G. }
    apply preset_value; [exact T | |]; unfold look in M.
    + destruct (find ("bonmin." ++ n) _); [discriminate M | reflexivity].
    + intros _ _. destruct (find ("bonmin." ++ n) _); [discriminate M|]. destruct (find n _); [discriminate M | reflexivity].
Qed.
Print Assumptions C121_presets.
(** The presets win over values given without the prefix (but for the NLP frequency of B-OA). *)
Theorem C121_bare : forall P create dt o s n v,
  In (n, v) (preset_table (value "algorithm" o)) -> find ("bonmin." ++ n) (o_int o) = None ->
  (value "algorithm" o = 1%Z -> n <> "nlp_solve_frequency") ->
  initialize P create dt (init o) = Ok s -> value n (s_opt s) = v.
Proof.
  intros P create dt o s n v T F B H.
  assert (I : In n options /\ n <> "number_strong_branch" /\ n <> "number_before_trust").
  { unfold preset_table in T. destruct (value "algorithm" o) as [|p|p]; try contradiction.
    do 3 (try destruct p as [p|p|]; try contradiction); cbn [In] in T;
      repeat (destruct T as [T|T]; [apply pair_equal_spec in T; destruct T as [<- _]; split; [inopt | split; discriminate]|]); contradiction. }
  destruct I as (I & N1 & N2).
  rewrite initialize_eq in H. destruct (Z.eqb_spec (value "algorithm" o) 0) as [A|A].
  - rewrite A in T. destruct T.
  - destruct (hyb_values _ _ _ _ _ H) as (_ & K & _). unfold value at 1. rewrite (K n I).
    apply preset_value; [exact T | | intros E1 E2; destruct (B E1 E2)].
    rewrite start_opt. cbv zeta. destruct (Z.eqb _ 0); [|destruct (Z.eqb _ 2)]; unfold seti; cbn [o_int];
      rewrite ?find_put_other by (rewrite eqb_app; apply String.eqb_neq; congruence); exact F.
Qed.
Print Assumptions C121_bare.
Example C121_ex : exists s, initialize P1 true 0 (init (from_file [("bonmin.algorithm", 1%Z)])) = Ok s /\
  value "oa_decomposition" (s_opt s) = 1%Z /\ value "nlp_solve_frequency" (s_opt s) = 0%Z.
Proof. ok_ex. Qed.

(** ** C122 *)
Lemma in_single : forall {A} (x y : A), In x [y] -> x = y.
Proof. intros A x y [H|[]]. auto. Qed.
Theorem C122_partial : forall P create dt o s,
  value "algorithm" o = 5%Z -> initialize P create dt (init o) = Ok s ->
  (pump_passes s <-> fst (geti "pump_for_minlp." "fp_pass_infeasible" o) <> 0%Z /\ value "pump_for_minlp" (s_opt s) <> 0%Z).
Proof.
  intros P create dt o s A H. rewrite initialize_eq, A in H. change (Z.eqb 5 0) with false in H. cbv iota in H.
  destruct (hyb_result_gens _ _ _ _ _ H) as (u & G & Up & Uo & Ui & Ud). rewrite A in *.
  destruct (hyb_values _ _ _ _ _ H) as (_ & K & _). rewrite A in K.
  assert (V : value "pump_for_minlp" (s_opt s) = value "pump_for_minlp" (s_opt u)).
  { unfold value. rewrite K by inopt. rewrite Uo. reflexivity. }
  rewrite V. clear K V.
  assert (F : geti "pump_for_minlp." "fp_pass_infeasible" (s_opt u) = geti "pump_for_minlp." "fp_pass_infeasible" o).
  { rewrite Uo, start_opt. cbv zeta. unfold presets.
    rewrite !geti_seti_other by reflexivity. rewrite geti_setn, !geti_seti_other by reflexivity.
    destruct (Z.eqb _ 0); [|destruct (Z.eqb _ 2)]; rewrite ?geti_seti_other by reflexivity; reflexivity. }
  rewrite <- F. unfold pump_passes. rewrite G. unfold pre_gens. change (Z.eqb 5 3 || Z.eqb 5 4)%bool with false. cbv iota. cbn [app].
  assert (D : dec1 "pump_for_minlp" GPump "pump_for_minlp." u =
              if Z.eqb (value "pump_for_minlp" (s_opt u)) 0 then []
              else [mkGen GPump (-99) false true false (Some (dec_limits "pump_for_minlp." u))]).
  { unfold dec1, gi, value. rewrite Up. destruct (Z.eqb _ 0); reflexivity. }
  assert (L : dec_limits "pump_for_minlp." u = (fst (fst (dec_limits "pump_for_minlp." u)), snd (fst (dec_limits "pump_for_minlp." u)),
              negb (Z.eqb (fst (geti "pump_for_minlp." "fp_pass_infeasible" (s_opt u))) 0))).
  { unfold dec_limits. rewrite Up. reflexivity. }
  set (d := dec_limits "pump_for_minlp." u) in *. clearbody d.
  split.
  - intros (g & t & k & I & Kd & Li).
    assert (J : In g (dec1 "pump_for_minlp" GPump "pump_for_minlp." u)).
    { rewrite <- !app_assoc in I. repeat (apply in_app_or in I; destruct I as [I|I]); auto.
      - unfold one in I. match type of I with context[Z.eqb ?x 0] => destruct (Z.eqb x 0) end; [destruct I|]. apply in_single in I. subst g. discriminate Kd.
      - unfold one in I. match type of I with context[Z.eqb ?x 0] => destruct (Z.eqb x 0) end; [destruct I|]. apply in_single in I. subst g. discriminate Kd.
      - unfold dec1 in I. match type of I with context[negb ?x] => destruct (negb x) end; [|destruct I]. apply in_single in I. subst g. discriminate Kd.
      - destruct I as [<-|[<-|[]]]; discriminate Kd. }
    rewrite D in J. destruct (Z.eqb_spec (value "pump_for_minlp" (s_opt u)) 0) as [Z0|Z0]; [destruct J|].
    apply in_single in J. subst g. cbn [g_lim] in Li. split; [|exact Z0].
    intros E. rewrite L, E in Li. discriminate Li.
  - intros [E1 E2]. exists (mkGen GPump (-99) false true false (Some d)), (fst (fst d)), (snd (fst d)).
    split; [|split; [reflexivity|]].
    + apply in_or_app. left. apply in_or_app. right. apply in_or_app. right. apply in_or_app. left.
      rewrite D. destruct (Z.eqb_spec (value "pump_for_minlp" (s_opt u)) 0); [congruence | left; reflexivity].
    + cbn [g_lim]. rewrite L at 1. apply Z.eqb_neq in E1. rewrite E1. reflexivity.
Qed.
Print Assumptions C122_partial.
Theorem C122_refuted : ~ C122_full.
Proof.
  intros H. pose (o := from_file [("bonmin.algorithm", 5%Z)]).
  assert (X : holds (fun _ => true) (initialize P1 true 0 (init o)) = true) by (vm_compute; reflexivity).
  apply holds_ex in X. destruct X as (s & E & _).
  specialize (H P1 0 o s eq_refl eq_refl eq_refl E).
  apply (C122_partial P1 true 0 o s eq_refl E) in H. destruct H as [H _]. apply H. reflexivity.
Qed.
Print Assumptions C122_refuted.
Example C122_ex : exists s, initialize P1 true 0 (init (from_file [("bonmin.algorithm", 5%Z); ("fp_pass_infeasible", 1%Z)])) = Ok s /\
  List.length (s_gens s) = 3%nat /\ value "pump_for_minlp" (s_opt s) = 1%Z.
Proof. ok_ex. Qed.

(** ** C123 *)
(** Every algorithm but the simple branch-and-bound ends its list of generators with the two that
    check integer points; nothing else in the list does. *)
Theorem C123_checked : forall P create dt o s,
  initialize P create dt (init o) = Ok s ->
  if Z.eqb (value "algorithm" o) 0 then s_gens s = []
  else exists pre, s_gens s = (pre ++ [check_all; check_sol])%list /\ filter is_check pre = [].
Proof.
  intros P create dt o s H. rewrite initialize_eq in H. destruct (Z.eqb (value "algorithm" o) 0).
  - eapply bbb_result_gens. exact H.
  - destruct (hyb_result_gens _ _ _ _ _ H) as (u & G & _). exists (pre_gens (value "algorithm" o) u).
    split; [exact G | apply pre_nocheck].
Qed.
Print Assumptions C123_checked.
Example C123_ex : exists s, initialize P1 true 0 (init (from_file [("bonmin.algorithm", 3%Z)])) = Ok s /\
  List.length (s_gens s) = 8%nat /\ filter is_check (s_gens s) = [check_all; check_sol].
Proof. ok_ex. Qed.

(** ** C124 *)
Theorem C124_partial : forall P create dt o s k n,
  nth_error milp_opts k = Some n -> initialize P create dt (init o) = Ok s ->
  filter (is_milp k) (s_gens s) =
    if ((Z.eqb (value "algorithm" o) 3 || Z.eqb (value "algorithm" o) 4) && negb (Z.eqb (value n o) 0))%bool
    then [plain_gen (GMilp k) (value n o)] else [].
Proof.
  intros P create dt o s k n N H. rewrite initialize_eq in H. destruct (Z.eqb_spec (value "algorithm" o) 0) as [A|A].
  - rewrite (bbb_result_gens _ _ _ H), A. reflexivity.
  - destruct (hyb_result_gens _ _ _ _ _ H) as (u & G & Up & Uo & _). rewrite G, filter_app, pre_milp. cbn [filter is_milp g_kind check_all check_sol].
    rewrite app_nil_r. rewrite N. destruct (_ || _)%bool; cbn [andb]; [|reflexivity].
    assert (V : geti (s_pfx u) n (s_opt u) = geti "bonmin." n o).
    { assert (L : In n milp_opts) by (eapply nth_error_In; exact N).
      assert (I : In n options /\ ~ In n (["number_strong_branch"; "number_before_trust"; "oa_decomposition"; "pump_for_minlp"; "nlp_solve_frequency"; "filmint_ecp_cuts"; "fp_pass_infeasible"; "bb_log_level"])).
      { clear - L. cbn in L. repeat (destruct L as [<-|L]; [split; [inopt | notin]|]). destruct L. }
      destruct I as [I J]. rewrite Up, Uo.
      rewrite (presets_same _ _ n I), (start_same o n I); [reflexivity | |].
      - apply forced_vs_not; intros ->; apply J; cbn; tauto.
      - intros K. apply J. clear - K. apply in_app_or in K. destruct K as [K|K].
        + unfold forced_a in K. destruct (value "algorithm" o) as [|p|p]; try contradiction. do 3 (try destruct p as [p|p|]; try contradiction); cbn in *; tauto.
        + unfold bare_a in K. destruct (Z.eqb _ 1); cbn in *; tauto. }
    unfold one. rewrite V. fold (value n o). destruct (Z.eqb (value n o) 0); reflexivity.
Qed.
Print Assumptions C124_partial.
Theorem C124_refuted : ~ C124_full.
Proof.
  intros H. pose (o := from_file [("bonmin.algorithm", 3%Z); ("bonmin.Gomory_cuts", 100%Z)]).
  assert (X : holds (fun _ => true) (initialize P1 true 0 (init o)) = true) by (vm_compute; reflexivity).
  apply holds_ex in X. destruct X as (s & E & _).
  specialize (H P1 true 0 o s 0%nat "Gomory_cuts" eq_refl (or_intror eq_refl) E).
  rewrite (C124_partial P1 true 0 o s 0%nat "Gomory_cuts" eq_refl E) in H. vm_compute in H. discriminate H.
Qed.
Print Assumptions C124_refuted.
Example C124_ex : exists s, initialize P1 true 0 (init (from_file [("bonmin.algorithm", 4%Z); ("bonmin.cover_cuts", (-3)%Z)])) = Ok s /\
  filter (is_milp 3) (s_gens s) = [plain_gen (GMilp 3) (-3)] /\ filter (is_milp 2) (s_gens s) = [].
Proof. ok_ex. Qed.

(** ** C125 *)
Theorem C125_partial : forall P create dt o s,
  initialize P create dt (init o) = Ok s ->
  s_heus s = if Z.eqb (value "algorithm" o) 0 then filter (runs_bbb (p_genint P) o) order_bbb else filter (runs_hyb o) order_hyb.
Proof.
  intros P create dt o s H. rewrite initialize_eq in H. destruct (Z.eqb (value "algorithm" o) 0).
  - apply bbb_values in H. apply H.
  - apply hyb_values in H. apply H.
Qed.
Print Assumptions C125_partial.
(** Without general integer variables the options are followed. *)
Theorem C125_given_partial : forall P create dt o s h n,
  value "algorithm" o = 0%Z -> p_genint P = false -> heu_option h = Some n -> given n o = true ->
  initialize P create dt (init o) = Ok s -> (In h (s_heus s) <-> asked n o = true).
Proof.
  intros P create dt o s h n A G E Gv H. rewrite (C125_partial _ _ _ _ _ H), A. change (Z.eqb 0 0) with true. cbv iota.
  rewrite filter_In, G. 
  assert (I : h <> HNlp -> In h order_bbb) by (destruct h; cbn; tauto).
  destruct h; cbn [heu_option] in E; try discriminate E; injection E as <-; cbn [runs_bbb heu_option];
    rewrite ?Gv; cbn [negb orb andb]; split; try (intros [_ Y]; exact Y); intros Y; (split; [apply I; discriminate | exact Y]).
Qed.
Print Assumptions C125_given_partial.
Theorem C125_refuted : ~ C125_full.
Proof.
  intros H. pose (o := from_file [("bonmin.heuristic_feasibility_pump", 1%Z)]). pose (P := mkProb [0%nat] no_user true).
  assert (X : holds (fun _ => true) (initialize P true 0 (init o)) = true) by (vm_compute; reflexivity).
  apply holds_ex in X. destruct X as (s & E & _).
  specialize (H P true 0 o s HFPump "heuristic_feasibility_pump" eq_refl eq_refl eq_refl E).
  rewrite (C125_partial P true 0 o s E) in H. destruct H as [_ H]. specialize (H eq_refl). vm_compute in H. intuition discriminate.
Qed.
Print Assumptions C125_refuted.
Example C125_ex : exists s, initialize P1 true 0 (init (from_file [("bonmin.heuristic_RINS", 1%Z)])) = Ok s /\
  s_heus s = [HDiveMipFrac; HFPump; HRins].
Proof. ok_ex. Qed.

(** ** C126 *)
Lemma disable_sos : forall P c dt o s, initialize P c dt (init o) = Ok s -> negb (Z.eqb (s_ip s DisableSos) 0) = sos_off o.
Proof. intros P c dt o s H. rewrite (parameters _ _ _ _ _ DisableSos H). reflexivity. Qed.
(** What the tree search gets, exactly, in all cases. *)
Theorem C126_partial : forall n P dt o s l b,
  wf n P -> initialize P true dt (init o) = Ok s -> cbc_objects P s = Ok (l, b) ->
  l = if osi_rule o then if Z.eqb (value "algorithm" o) 0 then osi_list P (sos_off o) else lp_list P (sos_off o)
      else cbc_list P (sos_off o).
Proof.
  intros n P dt o s l b W H C. pose proof (disable_sos _ _ _ _ _ H) as D. rewrite initialize_eq in H.
  destruct (Z.eqb_spec (value "algorithm" o) 0) as [A|A].
  - pose proof (bbb_run n P o W A) as R. rewrite H in R. destruct R as (_ & R1 & R2 & R3).
    destruct (osi_rule o).
    + destruct (osi_ints P ++ sos_list (sos_off o) (p_user P))%list as [|x r] eqn:L.
      * rewrite (cbc_objects_cbc n P s W) in C by (left; split; assumption). assert (E : l = cbc_list P (sos_off o)) by (rewrite D in C; congruence).
        subst l. apply app_eq_nil in L. destruct L as [L1 L2]. unfold cbc_list, osi_list. cbv zeta.
        unfold osi_ints in L1. apply map_eq_nil in L1. rewrite L1. reflexivity.
      * unfold cbc_objects in C. rewrite R1, R2 in C. cbn [bind] in C. destruct (s_brm s) as [m|]; [|destruct (R3 eq_refl eq_refl)].
        assert (E : l = map to_cobj (x :: r)) by congruence. subst l. rewrite <- L. unfold osi_list. cbv zeta.
        rewrite map_app, sos_list_cobj. f_equal. unfold osi_ints. rewrite map_map. reflexivity.
    + rewrite (cbc_objects_cbc n P s W) in C by (left; split; assumption). rewrite D in C. congruence.
  - destruct (hyb_run n P dt o W A) as (s' & R & _ & R1 & R2 & R3). assert (s' = s) by congruence. subst s'.
    destruct (osi_rule o).
    + unfold lp_list. destruct (p_icols P) as [|j r] eqn:I.
      * assert (C2 : s_cont s = CLp []) by (rewrite R2; unfold int_objs; rewrite I; reflexivity).
        rewrite (cbc_objects_cbc n P s W) in C by (right; exact C2). rewrite D in C. unfold cbc_list in C. rewrite I in C. cbn [map app] in C. congruence.
      * unfold cbc_objects in C. rewrite R2 in C. unfold int_objs in C. rewrite I in C. cbn [bind map] in C.
        destruct (s_brm s) as [m|]; [|destruct (R3 eq_refl eq_refl)].
        assert (E : l = CInt j 1000 (-1) None :: map to_cobj (map (fun j => OInt j 1000 (-1)) r)) by (cbn [to_cobj] in C; congruence).
        rewrite E, map_map. reflexivity.
    + rewrite (cbc_objects_cbc n P s W) in C by (right; exact R2). rewrite D in C. congruence.
Qed.
Print Assumptions C126_partial.
(** So priorities and special ordered sets arrive, except with Osi's rules in LP based algorithms. *)
Theorem C126_reaches_partial : forall n P dt o s l b,
  wf n P -> (value "algorithm" o = 0%Z \/ osi_rule o = false) ->
  initialize P true dt (init o) = Ok s -> cbc_objects P s = Ok (l, b) -> reaches P (sos_off o) l.
Proof.
  intros n P dt o s l b W Q H C. rewrite (C126_partial _ _ _ _ _ _ _ W H C).
  assert (X : forall w c, reaches P (sos_off o) (map (fun j => CInt j (prio_of (p_user P) j) (w j) (c j)) (p_icols P) ++ sos_wanted (sos_off o) (p_user P))%list).
  { intros w c. split; intros j I; [exists (w j), (c j); apply in_or_app; left; apply in_map_iff; exists j; auto | apply in_or_app; right; exact I]. }
  destruct Q as [Q|Q]; rewrite Q.
  - change (Z.eqb 0 0) with true. destruct (osi_rule o); cbv iota; [apply (X _ (fun _ => None)) | apply X].
  - apply X.
Qed.
Print Assumptions C126_reaches_partial.
(** The set-up and the hand-over succeed, except in one combination, which is refused by an exception. *)
Theorem C126_runs_partial : forall n P dt o, wf n P ->
  if (Z.eqb (value "algorithm" o) 0 && osi_rule o && refused P)%bool then initialize P true dt (init o) = Thrown
  else exists s l b, initialize P true dt (init o) = Ok s /\ cbc_objects P s = Ok (l, b).
Proof.
  intros n P dt o W. rewrite initialize_eq. destruct (Z.eqb_spec (value "algorithm" o) 0) as [A|A]; cbn [andb].
  - pose proof (bbb_run n P o W A) as R. destruct (initializeBBB P (start o)) as [s| | | | | | |]; try contradiction.
    + destruct R as (R0 & R1 & R2 & R3). rewrite R0. exists s.
      destruct (s_nobj s) as [|x r] eqn:L.
      * rewrite (cbc_objects_cbc n P s W) by (left; split; assumption). eauto.
      * unfold cbc_objects. rewrite R1, L. cbn [bind]. destruct (s_brm s) eqn:B; [eauto|].
        destruct (osi_rule o); [destruct (R3 eq_refl eq_refl) | discriminate R2].
    + rewrite R. reflexivity.
  - destruct (hyb_run n P dt o W A) as (s & R & _ & R1 & R2 & R3). exists s.
    destruct (osi_rule o).
    + destruct (int_objs P) as [|x r] eqn:I.
      * rewrite (cbc_objects_cbc n P s W) by (right; exact R2). eauto.
      * unfold cbc_objects. rewrite R2. cbn [bind]. destruct (s_brm s); [eauto | destruct (R3 eq_refl eq_refl)].
    + rewrite (cbc_objects_cbc n P s W) by (right; exact R2). eauto.
Qed.
Print Assumptions C126_runs_partial.
Definition P_sos : prob := mkProb [0%nat; 1%nat] (mkUser (Some [3%Z; 4%Z]) None None None (Some 1%nat) None) false.
Lemma P_sos_wf : wf 2 P_sos.
Proof. split; cbn; try reflexivity; try exact Logic.I; try lia. repeat constructor. Qed.
Theorem C126_refuted : ~ C126_full.
Proof.
  intros H. pose (o := from_file [("bonmin.algorithm", 3%Z); ("bonmin.variable_selection", 6%Z)]).
  pose proof (C126_runs_partial 2 P_sos 0 o P_sos_wf) as R. change (Z.eqb (value "algorithm" o) 0) with false in R. cbn [andb] in R.
  destruct R as (s & l & b & E & C). destruct (H 2%nat P_sos 0 o s l b P_sos_wf E C) as [_ K].
  rewrite (C126_partial _ _ _ _ _ _ _ P_sos_wf E C) in K. specialize (K (CSos 0 10)). vm_compute in K.
  destruct (K (or_introl eq_refl)) as [X|[X|[]]]; discriminate X.
Qed.
Print Assumptions C126_refuted.
Example C126_ex : exists s l b, initialize P_sos true 0 (init (from_file [])) = Ok s /\ cbc_objects P_sos s = Ok (l, b) /\
  l = [CInt 0 3 (-1) None; CInt 1 4 (-1) None; CSos 0 10].
Proof.
  pose proof (C126_runs_partial 2 P_sos 0 (from_file []) P_sos_wf) as R.
  assert (E : (Z.eqb (value "algorithm" (from_file [])) 0 && osi_rule (from_file []) && refused P_sos)%bool = false) by (vm_compute; reflexivity).
  rewrite E in R. destruct R as (s & l & b & R1 & R2). exists s, l, b. split; [exact R1|]. split; [exact R2|].
  rewrite (C126_partial _ _ _ _ _ _ _ P_sos_wf R1 R2). vm_compute. reflexivity.
Qed.

(** ** C127 *)
Theorem C127_partial : forall n P dt o s l b,
  wf n P -> u_up (p_user P) <> None -> initialize P true dt (init o) = Ok s -> cbc_objects P s = Ok (l, b) -> p_icols P <> [] ->
  ((forall j, In j (p_icols P) -> exists p w, In (CInt j p w (psc_of (p_user P) j)) l) <-> osi_rule o = false) /\
  (osi_rule o = true -> forall j p w c, In (CInt j p w (Some c)) l -> False).
Proof.
  intros n P dt o s l b W U H C I. rewrite (C126_partial _ _ _ _ _ _ _ W H C).
  assert (S : forall off j p w c, ~ In (CInt j p w c) (sos_wanted off (p_user P))).
  { intros off j p w c K. unfold sos_wanted in K. destruct off; [destruct K|]. apply in_map_iff in K. destruct K as (k & K & _). discriminate K. }
  assert (N : osi_rule o = true -> forall j p w c, In (CInt j p w (Some c)) (if Z.eqb (value "algorithm" o) 0 then osi_list P (sos_off o) else lp_list P (sos_off o)) -> False).
  { intros _ j p w c K. destruct (Z.eqb (value "algorithm" o) 0).
    - apply in_app_or in K. destruct K as [K|K]; [|destruct (S _ _ _ _ _ K)]. apply in_map_iff in K. destruct K as (k & K & _). discriminate K.
    - unfold lp_list in K. destruct (p_icols P) as [|i r]; [congruence|]. apply in_map_iff in K. destruct K as (k & K & _). discriminate K. }
  assert (Q : forall j, exists c, psc_of (p_user P) j = Some c).
  { intros j. unfold psc_of. destruct W. destruct (u_up (p_user P)); [|congruence]. destruct (u_down (p_user P)); [eauto | discriminate wf_psc]. }
  destruct (osi_rule o) eqn:O; (split; [|intros X; try discriminate X; apply N; reflexivity]).
  - split; [|discriminate]. intros K. exfalso. destruct (p_icols P) as [|j r] eqn:E; [congruence|].
    destruct (K j (or_introl eq_refl)) as (p & w & L). destruct (Q j) as (c & Qc). rewrite Qc in L. eapply N; [reflexivity | exact L].
  - split; [reflexivity|]. intros _ j J. exists (prio_of (p_user P) j), (way_of 0 (p_user P) j). unfold cbc_list. cbv zeta.
    apply in_or_app. left. apply in_map_iff. exists j. auto.
Qed.
Print Assumptions C127_partial.
(** Together with priorities or directions they are refused by the rules that do not use them. *)
Theorem C127_refused_partial : forall n P dt o,
  wf n P -> u_up (p_user P) <> None -> p_icols P <> [] -> (u_prio (p_user P) <> None \/ u_dir (p_user P) <> None) ->
  value "algorithm" o = 0%Z -> osi_rule o = true -> initialize P true dt (init o) = Thrown.
Proof.
  intros n P dt o W U I D A O. pose proof (C126_runs_partial n P dt o W) as R. rewrite A, O in R. change (Z.eqb 0 0) with true in R. cbn [andb] in R.
  assert (F : refused P = true).
  { unfold refused. destruct (u_up (p_user P)); [|congruence]. destruct (p_icols P); [congruence|]. cbn [isnull orb].
    destruct (u_prio (p_user P)), (u_dir (p_user P)); try reflexivity. destruct D; congruence. }
  rewrite F in R. exact R.
Qed.
Print Assumptions C127_refused_partial.
Definition P_psc : prob := mkProb [0%nat] (mkUser None None (Some [1]) (Some [2]) None None) false.
Lemma P_psc_wf : wf 1 P_psc.
Proof. split; cbn; try reflexivity; try exact Logic.I; try lia. repeat constructor. Qed.
Theorem C127_refuted : ~ C127_full.
Proof.
  intros H. pose (o := from_file []).
  pose proof (C126_runs_partial 1 P_psc 0 o P_psc_wf) as R.
  assert (E0 : (Z.eqb (value "algorithm" o) 0 && osi_rule o && refused P_psc)%bool = false) by (vm_compute; reflexivity). rewrite E0 in R.
  destruct R as (s & l & b & E & C).
  assert (U : u_up (p_user P_psc) <> None) by discriminate. assert (I : p_icols P_psc <> []) by discriminate.
  destruct (C127_partial 1 P_psc 0 o s l b P_psc_wf U E C I) as [[K _] _].
  assert (F : osi_rule o = true) by (vm_compute; reflexivity). rewrite K in F; [discriminate F|].
  apply (H 1%nat P_psc 0 o s l b P_psc_wf U E C).
Qed.
Print Assumptions C127_refuted.
Example C127_ex : initialize (mkProb [0%nat] (mkUser (Some [5%Z]) None (Some [1]) (Some [2]) None None) false) true 0 (init (from_file [])) = Thrown.
Proof. vm_compute. reflexivity. Qed.

(** ** C128 *)
(** A second search with an LP based algorithm can always be set up (rules other than Osi's). *)
Theorem C128_partial : forall n P dt o s h p cutoff,
  wf n P -> initialize P true dt (init o) = Ok s -> In h (s_heus s) -> heu_prefix h = Some p ->
  sub_algo p s <> 0%Z -> sub_rule p s <> 6%Z -> sub_rule p s <> 7%Z ->
  exists t l b, local_setup P p cutoff dt s = Ok t /\ cbc_objects P t = Ok (l, b).
Proof.
  intros n P dt o s h p cutoff W _ _ E A V1 V2. apply heu_prefix_sub in E.
  destruct (sub_lp n P (s_nobj s) p dt s W E A V1 V2) as (t & T & C & _).
  exists (wip NumberStrong 0 (wdp Cutoff cutoff t)). unfold local_setup. rewrite T. cbn [bind].
  rewrite (cbc_objects_cbc n P _ W) by (right; exact C). eauto.
Qed.
Print Assumptions C128_partial.
Lemma objects_bbb : forall n P t, wf n P -> s_cont t = CNlp -> s_nobj t = osi_ints P -> s_brm t <> None -> exists l b, cbc_objects P t = Ok (l, b).
Proof.
  intros n P t W T1 T2 T3. destruct (osi_ints P) as [|x r] eqn:X.
  - rewrite (cbc_objects_cbc n P _ W) by (left; split; assumption). eauto.
  - unfold cbc_objects. rewrite T1, T2. cbn [bind]. destruct (s_brm t); [eauto | congruence].
Qed.
Lemma local_setup_ok : forall P p cutoff dt s t, copy_prefix P (s_nobj s) p dt s = Ok t -> local_setup P p cutoff dt s = Ok (wip NumberStrong 0 (wdp Cutoff cutoff t)).
Proof. intros P p cutoff dt s t H. unfold local_setup. rewrite H. reflexivity. Qed.
Lemma bbb_nobj : forall n P dt o s, wf n P -> initialize P true dt (init o) = Ok s -> value "algorithm" o = 0%Z -> osi_rule o = true ->
  sos_wanted false (p_user P) = [] -> s_nobj s = osi_ints P.
Proof.
  intros n P dt o s W H A O S. rewrite initialize_eq in H. destruct (Z.eqb_spec (value "algorithm" o) 0) as [_|B]; [|congruence].
  pose proof (bbb_run n P o W A) as R. rewrite H, O in R. destruct R as (_ & _ & R & _).
  assert (L : sos_list (sos_off o) (p_user P) = []).
  { unfold sos_list, sos_wanted in *. destruct (sos_off o); [reflexivity|]. destruct (u_sos (p_user P)) as [[|k]|]; [reflexivity | discriminate S | reflexivity]. }
  rewrite L, app_nil_r in R. exact R.
Qed.
(** So can one with the simple branch-and-bound when the main one is simple too, with objects of its
    own, and there are neither special ordered sets nor pseudo-costs. *)
Theorem C128_bbb_partial : forall n P dt o s h p cutoff,
  wf n P -> initialize P true dt (init o) = Ok s -> In h (s_heus s) -> heu_prefix h = Some p ->
  value "algorithm" o = 0%Z -> osi_rule o = true -> sos_wanted false (p_user P) = [] -> u_up (p_user P) = None ->
  sub_algo p s = 0%Z -> sub_osi p s = true ->
  exists t l b, local_setup P p cutoff dt s = Ok t /\ cbc_objects P t = Ok (l, b).
Proof.
  intros n P dt o s h p cutoff W H _ E A O S U SA SO. apply heu_prefix_sub in E.
  pose proof (bbb_nobj n P dt o s W H A O S) as R.
  destruct (sub_bbb n P p dt s W E SA SO U S) as (t & T & T1 & T2 & T3). rewrite <- R in T.
  destruct (objects_bbb n P (wip NumberStrong 0 (wdp Cutoff cutoff t)) W T1 T2 T3) as (l & b & C).
  exists (wip NumberStrong 0 (wdp Cutoff cutoff t)), l, b. split; [apply local_setup_ok; exact T | exact C].
Qed.
Print Assumptions C128_bbb_partial.
Theorem C128_refuted : ~ C128_full.
Proof.
  intros H. pose (o := from_file [("bonmin.heuristic_RINS", 1%Z)]).
  assert (X : holds (fun s => match local_setup P_sos "rins." PInf 0 s with Thrown => true | _ => false end && existsb (fun h => match h with HRins => true | _ => false end) (s_heus s))%bool
                (initialize P_sos true 0 (init o)) = true) by (vm_compute; reflexivity).
  apply holds_ex in X. destruct X as (s & E & X). apply andb_prop in X. destruct X as [X1 X2].
  apply existsb_exists in X2. destruct X2 as (h & I & X2).
  destruct (H 2%nat P_sos 0 o s h "rins." PInf P_sos_wf E I) as (t & l & b & T & _); [destruct h; try discriminate X2; reflexivity|].
  rewrite T in X1. discriminate X1.
Qed.
Print Assumptions C128_refuted.
Example C128_ex : exists s, initialize P_sos true 0 (init (from_file [("bonmin.heuristic_local_branching", 1%Z)])) = Ok s /\
  sub_algo "local_solver." s = 2%Z /\ sub_rule "local_solver." s = 0%Z.
Proof. ok_ex. Qed.

(** ** C129 *)
Lemma ele_emin : forall a b, ele (emin a b) a.
Proof.
  intros a b. destruct a as [|x|], b as [|y|]; cbn; auto; try apply Qle_refl; destruct (Qltb y x) eqn:E; cbn; auto; try apply Qle_refl.
  apply Qltb_lt in E. apply Qlt_le_weak. exact E.
Qed.
(** The decomposition cut generators respect the limits of the whole run. *)
Theorem C129_partial : forall P create dt o s g t k b,
  initialize P create dt (init o) = Ok s -> In g (s_gens s) -> g_lim g = Some (t, k, b) ->
  ele t (nvalue "time_limit" o) /\ (k <= value "solution_limit" o)%Z.
Proof.
  intros P create dt o s g t k b H I L. pose proof (parameters _ _ _ _ _ MaxSolutions H) as M. cbn [par_value doc_int] in M. cbv zeta in M.
  rewrite initialize_eq in H. destruct (Z.eqb (value "algorithm" o) 0).
  - rewrite (bbb_result_gens _ _ _ H) in I. destruct I.
  - destruct (hyb_result_gens _ _ _ _ _ H) as (u & G & Up & Uo & Ui & Ud). rewrite G in I.
    assert (D : forall sub, dec_limits sub u = (t, k, b) -> ele t (nvalue "time_limit" o) /\ (k <= value "solution_limit" o)%Z).
    { intros sub E. unfold dec_limits in E. injection E as E1 E2 _. subst t k. rewrite Ud, start_dp, Ui, M. split; [apply ele_emin | lia]. }
    assert (O1 : forall n q, In g (one (s_pfx u) (s_opt u) n q) -> False).
    { intros n q K. unfold one in K. destruct (Z.eqb _ 0); [destruct K|]. apply in_single in K. subst g. discriminate L. }
    assert (M1 : forall l i, In g (milps (s_pfx u) (s_opt u) i l) -> False).
    { induction l as [|n l IH]; intros i K; cbn [milps] in K; [destruct K|]. apply in_app_or in K. destruct K as [K|K]; [eapply O1 | eapply IH]; exact K. }
    assert (D1 : forall n q sub, In g (dec1 n q sub u) -> dec_limits sub u = (t, k, b)).
    { intros n q sub K. unfold dec1 in K. destruct (negb _); [|destruct K]. apply in_single in K. subst g. cbn [g_lim] in L. congruence. }
    apply in_app_or in I. destruct I as [I|I]; [|destruct I as [<-|[<-|[]]]; discriminate L].
    unfold pre_gens in I. apply in_app_or in I. destruct I as [I|I]; [destruct (O1 _ _ I)|].
    apply in_app_or in I. destruct I as [I|I]; [destruct (O1 _ _ I)|].
    apply in_app_or in I. destruct I as [I|I]; [destruct (_ || _)%bool; [destruct (M1 _ _ I) | destruct I]|].
    apply in_app_or in I. destruct I as [I|I]; eapply D, D1; exact I.
Qed.
Print Assumptions C129_partial.
(** The limits of a second search are read under its own prefix (then without prefix), and are not compared
    with those of the run. *)
Theorem C129_sub_partial : forall P dt s h p cutoff t,
  heu_prefix h = Some p -> local_setup P p cutoff dt s = Ok t ->
  s_dp t MaxTime = (let own := fst (getn p "time_limit" (s_opt s)) in if Z.eqb (sub_algo p s) 0 then own else eminus own dt) /\
  s_ip t MaxSolutions = fst (geti p "solution_limit" (s_opt s)) /\ s_ip t MaxNodes = fst (geti p "node_limit" (s_opt s)) /\
  s_dp t Cutoff = cutoff /\ s_ip t NumberStrong = 0%Z /\ s_algo t = Some (sub_algo p s).
Proof.
  intros P dt s h p cutoff t E H. apply heu_prefix_sub in E. unfold local_setup in H. apply bind_ok in H. destruct H as (u & H1 & H2).
  assert (T : t = wip NumberStrong 0 (wdp Cutoff cutoff u)) by congruence. subst t.
  destruct (sub_params _ _ _ _ _ _ E H1) as (A & B & C). cbn [s_dp s_ip s_algo wip wdp].
  destruct (ipar_dec NumberStrong MaxSolutions) as [X|_]; [discriminate X|]. destruct (ipar_dec NumberStrong MaxNodes) as [X|_]; [discriminate X|].
  destruct (dpar_dec Cutoff MaxTime) as [X|_]; [discriminate X|].
  rewrite (A MaxSolutions "solution_limit" eq_refl) by discriminate. rewrite (A MaxNodes "node_limit" eq_refl) by discriminate. rewrite (B MaxTime).
  repeat split; try exact C; destruct (Z.eqb (sub_algo p s) 0); reflexivity.
Qed.
Print Assumptions C129_sub_partial.
Definition o_time : opts := mkOpts [("bonmin.heuristic_RINS", mkE 1%Z false)] [("bonmin.time_limit", mkE (Fin 10) false)].
Theorem C129_refuted : ~ C129_full.
Proof.
  intros H.
  assert (W : wf 1 P1) by (split; cbn; try reflexivity; try exact Logic.I; try lia; repeat constructor).
  assert (X : holds (fun s => match local_setup P1 "rins." PInf 0 s with
                              | Ok t => match s_dp t MaxTime, s_dp s MaxTime with Fin a, Fin b => Qltb b a | _, _ => false end
                              | _ => false end && existsb (fun h => match h with HRins => true | _ => false end) (s_heus s))%bool
                (initialize P1 true 0 (init o_time)) = true) by (vm_compute; reflexivity).
  apply holds_ex in X. destruct X as (s & E & X). apply andb_prop in X. destruct X as [X1 X2].
  apply existsb_exists in X2. destruct X2 as (h & I & X2).
  assert (Hp : heu_prefix h = Some "rins.") by (destruct h; try discriminate X2; reflexivity).
  destruct (local_setup P1 "rins." PInf 0 s) as [t| | | | | | |] eqn:T; try discriminate X1.
  destruct (H 1%nat P1 0 o_time s h "rins." PInf t W (Qle_refl 0) E I Hp T) as [K _].
  destruct (s_dp t MaxTime) as [|a|], (s_dp s MaxTime) as [|c|]; try discriminate X1. cbn in K. apply Qltb_lt in X1. lra.
Qed.
Print Assumptions C129_refuted.
Example C129_ex : exists s, initialize P1 true 0 (init (mkOpts [("bonmin.algorithm", mkE 1%Z false)] [("bonmin.time_limit", mkE (Fin 10) false)])) = Ok s /\
  map g_lim (s_gens s) = [Some (Fin 10, int_max, false); None; None].
Proof. ok_ex. Qed.

(** ** C130 *)
(** Everything in the file under the prefix that is used by the second search reaches it. *)
Theorem C130_partial : forall P dt o s h p cutoff t q n v,
  initialize P true dt (init o) = Ok s -> heu_prefix h = Some p ->
  in_file (p ++ n) v o -> doc_int q = Some n -> q <> NumberStrong -> q <> MinReliability -> q <> BabLogLevel ->
  local_setup P p cutoff dt s = Ok t -> s_ip t q = v.
Proof.
  intros P dt o s h p cutoff t q n v H E F Q N1 N2 N3 L. apply heu_prefix_sub in E. unfold local_setup in L. apply bind_ok in L. destruct L as (u & L1 & L2).
  assert (T : t = wip NumberStrong 0 (wdp Cutoff cutoff u)) by congruence. subst t. cbn [s_ip wip wdp].
  destruct (ipar_dec NumberStrong q); [congruence|].
  destruct (sub_params _ _ _ _ _ _ E L1) as (A & _). rewrite (A q n (eq_trans (int_doc q) Q) N1 N2 N3).
  apply initialize_keeps in H. destruct H as [K _]. unfold geti, look. rewrite (K _ _ F eq_refl). reflexivity.
Qed.
Print Assumptions C130_partial.
(** RINS and the pump use the documented prefix. *)
Theorem C130_prefix_partial : forall h p, doc_prefix h = Some p -> h <> HLocalBranching -> heu_prefix h = Some p.
Proof. intros h p D N. destruct h; cbn in *; congruence. Qed.
Print Assumptions C130_prefix_partial.
Theorem C130_refuted : ~ C130_full.
Proof.
  intros H. pose (o := from_file [("bonmin.heuristic_local_branching", 1%Z); ("local_branch.node_limit", 7%Z)]).
  assert (W : wf 1 P1) by (split; cbn; try reflexivity; try exact Logic.I; try lia; repeat constructor).
  assert (X : holds (fun s => match local_setup P1 "local_solver." PInf 0 s with Ok t => Z.eqb (s_ip t MaxNodes) 1000 | _ => false end &&
                              existsb (fun h => match h with HLocalBranching => true | _ => false end) (s_heus s))%bool
                (initialize P1 true 0 (init o)) = true) by (vm_compute; reflexivity).
  apply holds_ex in X. destruct X as (s & E & X). apply andb_prop in X. destruct X as [X1 X2].
  apply existsb_exists in X2. destruct X2 as (h & I & X2).
  assert (Hh : h = HLocalBranching) by (destruct h; try discriminate X2; reflexivity). subst h.
  destruct (local_setup P1 "local_solver." PInf 0 s) as [t| | | | | | |] eqn:T; try discriminate X1.
  specialize (H 1%nat P1 0 o s HLocalBranching "local_branch." PInf t 7%Z W E I eq_refl eq_refl "local_solver." eq_refl T).
  rewrite H in X1. discriminate X1.
Qed.
Print Assumptions C130_refuted.
Example C130_ex : exists s, initialize P1 true 0 (init (from_file [("bonmin.heuristic_RINS", 1%Z); ("rins.node_limit", 7%Z)])) = Ok s /\
  holds (fun t => Z.eqb (s_ip t MaxNodes) 7) (local_setup P1 "rins." PInf 0 s) = true.
Proof. ok_ex. Qed.

(** ** C131 *)
(** A set-up made from a problem can be copied onto another NLP; algorithm and parameters are kept, the
    heuristics are not. *)
Theorem C131_partial : forall n P l dt o s,
  wf n P -> initialize P true dt (init o) = Ok s ->
  exists r, copy_nlp l s = Ok r /\ s_algo r = s_algo s /\ s_ip r = s_ip s /\ s_dp r = s_dp s /\ s_gens r = s_gens s /\ s_opt r = s_opt s /\ s_heus r = [] /\
  s_nobj r = l /\ s_pfx r = s_pfx s /\ s_brm r = s_brm s /\ s_cmp r = s_cmp s /\ s_tree r = s_tree s.
Proof.
  intros n P l dt o s W H. rewrite initialize_eq in H. destruct (Z.eqb_spec (value "algorithm" o) 0) as [A|A].
  - assert (S : s_algo s = Some 0%Z).
    { apply initializeBBB_inv in H. destruct H as (u & H1 & _ & ((_ & _ & _ & E & _) & _)). rewrite E.
      apply bbb_branching_same in H1. destruct H1 as (_ & _ & _ & _ & -> & _). destruct (start_rest o) as (_ & -> & _). congruence. }
    unfold copy_nlp. rewrite S. eexists. split; [reflexivity|]. cbn. repeat split.
  - destruct (hyb_run n P dt o W A) as (s' & R & R0 & _ & R2 & _). assert (s' = s) by congruence. subst s'.
    unfold copy_nlp. rewrite R0, R2.
    assert (X : forall (x y : outcome setup), (match Some (value "algorithm" o) with Some 0%Z => x | _ => y end) = y).
    { intros x y. destruct (value "algorithm" o); [congruence | reflexivity | reflexivity]. }
    rewrite X. eexists. split; [reflexivity|]. cbn. repeat split.
Qed.
Print Assumptions C131_partial.
Theorem C131_refuted : ~ C131_full.
Proof.
  intros H.
  assert (W : wf 1 P1) by (split; cbn; try reflexivity; try exact Logic.I; try lia; repeat constructor).
  assert (X : holds (fun s => match copy_nlp (s_nobj s) s with Ok _ => false | _ => true end) (initialize_nlp P1 [] true 0 (init (from_file []))) = true) by (vm_compute; reflexivity).
  apply holds_ex in X. destruct X as (s & E & X). destruct (H 1%nat P1 [] 0 (from_file []) s W E) as (r & R). rewrite R in X. discriminate X.
Qed.
Print Assumptions C131_refuted.
Example C131_ex : exists s, initialize P1 true 0 (init (from_file [("bonmin.algorithm", 2%Z)])) = Ok s /\
  holds (fun r => match s_algo r with Some 2%Z => true | _ => false end) (copy_nlp [] s) = true.
Proof. ok_ex. Qed.

(** ** C132 *)
(** The second time the algorithm is that of the first time, and its generators come on top of the old ones. *)
Theorem C132_partial : forall P dt o o2 s s2,
  initialize P true dt (init o) = Ok s -> initialize P true dt (wopt o2 s) = Ok s2 ->
  s_algo s2 = Some (value "algorithm" o) /\
  List.length (filter is_check (s_gens s2)) = (if Z.eqb (value "algorithm" o) 0 then 0 else 4)%nat.
Proof.
  intros P dt o o2 s s2 H1 H2. rewrite initialize_eq in H1.
  assert (A : s_algo s = Some (value "algorithm" o) /\
              filter is_check (s_gens s) = if Z.eqb (value "algorithm" o) 0 then [] else [check_all; check_sol]).
  { destruct (Z.eqb (value "algorithm" o) 0) eqn:A.
    - split; [|rewrite (bbb_result_gens _ _ _ H1); reflexivity].
      apply initializeBBB_inv in H1. destruct H1 as (u & H1 & _ & ((_ & _ & _ & E & _) & _)). rewrite E.
      apply bbb_branching_same in H1. destruct H1 as (_ & _ & _ & _ & -> & _). apply (start_rest o).
    - apply hyb_gens_again in H1. destruct H1 as (l & G & N & E). destruct (start_rest o) as (_ & S2 & _ & _ & S5 & _).
      rewrite E, S2, G, S5. split; [reflexivity|]. cbn [app]. rewrite filter_app, N. reflexivity. }
  destruct A as [A B]. unfold initialize in H2. cbv zeta in H2.
  destruct (gather_rest (wnobj [] (wopt o2 s))) as (_ & G2 & _ & _ & G5 & _). cbn [s_algo s_gens wnobj wopt] in G2, G5.
  assert (GA : getAlgorithm (gather (wnobj [] (wopt o2 s))) = value "algorithm" o) by (unfold getAlgorithm; rewrite G2, A; reflexivity).
  rewrite GA in H2. generalize dependent (gather (wnobj [] (wopt o2 s))). intros z H2 G2 G5 _.
  destruct (Z.eqb (value "algorithm" o) 0).
  - apply initializeBBB_inv in H2. destruct H2 as (u & H2 & _ & ((_ & _ & _ & E & _) & _ & G)). rewrite E, G.
    apply bbb_branching_same in H2. destruct H2 as (_ & _ & _ & _ & K & L & _). rewrite K, L. cbn [s_gens s_algo walgo]. rewrite G5, B. split; reflexivity.
  - apply hyb_gens_again in H2. destruct H2 as (l & G & N & E). rewrite E, G. cbn [s_gens s_algo walgo]. split; [reflexivity|].
    rewrite !filter_app, G5, B, N. reflexivity.
Qed.
Print Assumptions C132_partial.
Theorem C132_refuted : ~ C132_full.
Proof.
  intros H. pose (o := from_file [("bonmin.algorithm", 3%Z)]).
  assert (W : wf 1 P1) by (split; cbn; try reflexivity; try exact Logic.I; try lia; repeat constructor).
  assert (X : holds (fun s => holds (fun _ => true) (initialize P1 true 0 (wopt o s))) (initialize P1 true 0 (init o)) = true) by (vm_compute; reflexivity).
  apply holds_ex in X. destruct X as (s & E & X). apply holds_ex in X. destruct X as (s2 & E2 & _).
  destruct (H 1%nat P1 0 o o s s2 W E E2) as [_ K]. destruct (C132_partial P1 0 o o s s2 E E2) as [_ L].
  rewrite K in L by discriminate. discriminate L.
Qed.
Print Assumptions C132_refuted.
Example C132_ex : exists s, initialize P1 true 0 (init (from_file [("bonmin.algorithm", 3%Z)])) = Ok s /\
  holds (fun s2 => match s_algo s2 with Some 3%Z => true | _ => false end) (initialize P1 true 0 (wopt (from_file [("bonmin.algorithm", 2%Z)]) s)) = true.
Proof. ok_ex. Qed.

(** ** C143 *)
(** A second search of the heuristics that read the options "local_solver." stops after 1000 nodes, 5 solutions or
    60 seconds unless the user says otherwise, under that prefix or without prefix. *)
Theorem C143_partial : forall P dt o s h cutoff t,
  initialize P true dt (init o) = Ok s -> In h (s_heus s) -> heu_prefix h = Some "local_solver." ->
  local_setup P "local_solver." cutoff dt s = Ok t ->
  s_ip t MaxNodes = own "local_solver." "node_limit" 1000 o /\ s_ip t MaxSolutions = own "local_solver." "solution_limit" 5 o /\
  s_algo t = Some (own "local_solver." "algorithm" 2 o) /\
  s_dp t MaxTime = (let v := ownn "local_solver." "time_limit" (Fin 60) o in
                    if Z.eqb (own "local_solver." "algorithm" 2 o) 0 then v else eminus v dt) /\
  fst (geti "local_solver." "variable_selection" (s_opt s)) = own "local_solver." "variable_selection" 0 o.
Proof.
  intros P dt o s h cutoff t E I Hp T. destruct (C129_sub_partial P dt s h _ cutoff t Hp T) as (A & B & C & _ & _ & F).
  apply second_opts in E. destruct E as [E _].
  assert (X : existsb is_local (s_heus s) = true).
  { apply existsb_exists. exists h. split; [exact I|]. destruct h; try discriminate Hp; reflexivity. }
  specialize (E X). unfold lkp, upd5 in E. cbn [f_sol f_node f_time f_rule f_algo] in E. injection E as E1 E2 E3 E4 E5.
  assert (K : sub_algo "local_solver." s = own "local_solver." "algorithm" 2 o).
  { unfold sub_algo. rewrite E5. unfold own, dfl. destruct (snd _); reflexivity. }
  rewrite K in A, F. rewrite A, B, C, F, E1, E2, E3, E4. clear.
  unfold own, ownn, dfl. repeat split; try (destruct (snd _); reflexivity).
  destruct (snd (geti "local_solver." "algorithm" o)); destruct (snd (getn "local_solver." "time_limit" o)); reflexivity.
Qed.
Print Assumptions C143_partial.
(** The pump for MINLP runs for 30 seconds, as an iterated feasibility pump. *)
Theorem C143_pump_partial : forall P dt o s cutoff t,
  initialize P true dt (init o) = Ok s -> In HPumpMinlp (s_heus s) -> local_setup P "pump_for_minlp." cutoff dt s = Ok t ->
  s_algo t = Some (own "pump_for_minlp." "algorithm" 5 o) /\
  s_dp t MaxTime = (let v := ownn "pump_for_minlp." "time_limit" (Fin 30) o in
                    if Z.eqb (own "pump_for_minlp." "algorithm" 5 o) 0 then v else eminus v dt).
Proof.
  intros P dt o s cutoff t E I T. destruct (C129_sub_partial P dt s HPumpMinlp _ cutoff t eq_refl T) as (A & B & C & _ & _ & F).
  apply second_opts in E. destruct E as [_ E].
  assert (X : existsb is_pump (s_heus s) = true) by (apply existsb_exists; exists HPumpMinlp; split; [exact I|reflexivity]).
  specialize (E X). unfold two, upd2 in E. cbn [fst snd] in E. injection E as E1 E2.
  assert (K : sub_algo "pump_for_minlp." s = own "pump_for_minlp." "algorithm" 5 o).
  { unfold sub_algo. rewrite E2. unfold own, dfl. destruct (snd _); reflexivity. }
  rewrite K in A, F. rewrite A, F, E1. clear.
  unfold own, ownn, dfl. split; [reflexivity|].
  destruct (snd (geti "pump_for_minlp." "algorithm" o)); destruct (snd (getn "pump_for_minlp." "time_limit" o)); reflexivity.
Qed.
Print Assumptions C143_pump_partial.
Definition o_rins : opts := mkOpts [("bonmin.heuristic_RINS", mkE 1%Z false)] [].
Theorem C143_refuted : ~ C143_full.
Proof.
  intros H.
  assert (W : wf 1 P1) by (split; cbn; try reflexivity; try exact Logic.I; try lia; repeat constructor).
  assert (X : holds (fun s => match local_setup P1 "rins." PInf 0 s with
                              | Ok t => Z.ltb 1000 (s_ip t MaxNodes) | _ => false end
                              && existsb (fun h => match h with HRins => true | _ => false end) (s_heus s))%bool
                (initialize P1 true 0 (init o_rins)) = true) by (vm_compute; reflexivity).
  apply holds_ex in X. destruct X as (s & E & X). apply andb_prop in X. destruct X as [X1 X2].
  apply existsb_exists in X2. destruct X2 as (h & I & X2).
  assert (Hp : heu_prefix h = Some "rins.") by (destruct h; try discriminate X2; reflexivity).
  destruct (local_setup P1 "rins." PInf 0 s) as [t| | | | | | |] eqn:T; try discriminate X1.
  destruct (H 1%nat P1 0 o_rins s h "rins." PInf t W (Qle_refl 0) E I Hp eq_refl eq_refl eq_refl T) as [K _].
  apply Z.ltb_lt in X1. lia.
Qed.
Print Assumptions C143_refuted.
Example C143_ex : exists s, initialize P1 true 0 (init (mkOpts [("bonmin.heuristic_local_branching", mkE 1%Z false)] [("local_solver.time_limit", mkE (Fin 7) false)])) = Ok s /\
  existsb (fun h => match h with HLocalBranching => true | _ => false end) (s_heus s) = true /\
  exists t, local_setup P1 "local_solver." PInf 0 s = Ok t /\ s_ip t MaxNodes = 1000%Z /\ s_ip t MaxSolutions = 5%Z /\
  s_dp t MaxTime = Fin 7.
Proof. eexists. split; [vm_compute; reflexivity|]. split; [vm_compute; reflexivity|]. eexists. split; [vm_compute; reflexivity|]. vm_compute. auto. Qed.
