(** Lemmas on the options store and on what the set-up steps leave unchanged. *)
From Coq Require Import String.
From Verif Require Import Base Arr Set_Model Set_Spec.
#[local] Open Scope Q_scope.
#[local] Open Scope string_scope.

(** * The store *)
Section Store.
Context {A : Type}.
Implicit Types m : list (string * entry A).
Lemma find_put_other : forall k v c m n, String.eqb k n = false -> find n (put k v c m) = find n m.
Proof.
  intros k v c m n H. unfold put. destruct (find k m) as [e|]; [destruct (e_clob e)|]; cbn; rewrite ?H; reflexivity.
Qed.
Lemma find_put_kept : forall k v c m n e, find n m = Some e -> e_clob e = false -> find n (put k v c m) = Some e.
Proof.
  intros k v c m n e F C. destruct (String.eqb k n) eqn:K.
  - apply String.eqb_eq in K. subst. unfold put. rewrite F, C. exact F.
  - rewrite find_put_other; assumption.
Qed.
Lemma find_put_self : forall k v c m,
  find k (put k v c m) = match find k m with Some e => if e_clob e then Some (mkE v c) else Some e | None => Some (mkE v c) end.
Proof.
  intros k v c m. unfold put. destruct (find k m) as [e|] eqn:F; [destruct (e_clob e)|]; cbn; rewrite ?String.eqb_refl; try reflexivity.
  exact F.
Qed.
Lemma look_put_other : forall k v c m p n,
  String.eqb k (p ++ n) = false -> String.eqb k n = false -> look p n (put k v c m) = look p n m.
Proof. intros k v c m p n H1 H2. unfold look. rewrite !find_put_other by assumption. reflexivity. Qed.
Lemma look_put_none : forall p n v c m, look p n m = None -> look p n (put (p ++ n) v c m) = Some v.
Proof.
  intros p n v c m H. unfold look in *. rewrite find_put_self.
  destruct (find (p ++ n) m) as [e|]; [discriminate|]. reflexivity.
Qed.
End Store.

Lemma geti_seti_other : forall k v o p n,
  String.eqb k (p ++ n) = false -> String.eqb k n = false -> geti p n (seti k v o) = geti p n o.
Proof. intros k v o p n H1 H2. unfold geti, seti. cbn. rewrite look_put_other by assumption. reflexivity. Qed.
Lemma geti_setn : forall k v o p n, geti p n (setn k v o) = geti p n o.
Proof. reflexivity. Qed.
Lemma getn_setn_other : forall k v o p n,
  String.eqb k (p ++ n) = false -> String.eqb k n = false -> getn p n (setn k v o) = getn p n o.
Proof. intros k v o p n H1 H2. unfold getn, setn. cbn. rewrite look_put_other by assumption. reflexivity. Qed.
Lemma getn_seti : forall k v o p n, getn p n (seti k v o) = getn p n o.
Proof. reflexivity. Qed.
Lemma geti_dfli_other : forall q m v o p n,
  String.eqb (q ++ m) (p ++ n) = false -> String.eqb (q ++ m) n = false -> geti p n (dfli q m v o) = geti p n o.
Proof. intros. unfold dfli. destruct (snd (geti q m o)); [reflexivity | apply geti_seti_other; assumption]. Qed.
Lemma geti_dfln : forall q m v o p n, geti p n (dfln q m v o) = geti p n o.
Proof. intros. unfold dfln. destruct (snd (getn q m o)); reflexivity. Qed.
Lemma getn_dfln_other : forall q m v o p n,
  String.eqb (q ++ m) (p ++ n) = false -> String.eqb (q ++ m) n = false -> getn p n (dfln q m v o) = getn p n o.
Proof. intros. unfold dfln. destruct (snd (getn q m o)); [reflexivity | apply getn_setn_other; assumption]. Qed.
Lemma getn_dfli : forall q m v o p n, getn p n (dfli q m v o) = getn p n o.
Proof. intros. unfold dfli. destruct (snd (geti q m o)); reflexivity. Qed.

(** * Values that may not be overwritten are kept *)
Definition keeps (o o' : opts) : Prop :=
  (forall n e, find n (o_int o) = Some e -> e_clob e = false -> find n (o_int o') = Some e) /\
  (forall n e, find n (o_num o) = Some e -> e_clob e = false -> find n (o_num o') = Some e).
Lemma keeps_refl : forall o, keeps o o.
Proof. split; auto. Qed.
Lemma keeps_trans : forall a b c, keeps a b -> keeps b c -> keeps a c.
Proof. intros a b c [H1 H2] [H3 H4]. split; intros; auto. Qed.
Lemma keeps_seti : forall n v o, keeps o (seti n v o).
Proof. intros n v o. split; cbn; auto. intros. apply find_put_kept; assumption. Qed.
Lemma keeps_setn : forall n v o, keeps o (setn n v o).
Proof. intros n v o. split; cbn; auto. intros. apply find_put_kept; assumption. Qed.
Lemma keeps_dfli : forall p n v o, keeps o (dfli p n v o).
Proof. intros. unfold dfli. destruct (snd _); [apply keeps_refl | apply keeps_seti]. Qed.
Lemma keeps_dfln : forall p n v o, keeps o (dfln p n v o).
Proof. intros. unfold dfln. destruct (snd _); [apply keeps_refl | apply keeps_setn]. Qed.
Ltac kept := repeat first
  [ apply keeps_refl
  | match goal with
    | |- keeps _ (seti _ _ _) => eapply keeps_trans; [|apply keeps_seti]
    | |- keeps _ (setn _ _ _) => eapply keeps_trans; [|apply keeps_setn]
    | |- keeps _ (dfli _ _ _ _) => eapply keeps_trans; [|apply keeps_dfli]
    | |- keeps _ (dfln _ _ _ _) => eapply keeps_trans; [|apply keeps_dfln]
    end ].
Lemma keeps_local : forall o, keeps o (local_defaults o).
Proof. intros o. unfold local_defaults. cbv zeta. kept. Qed.
Lemma keeps_pump : forall o, keeps o (pump_defaults o).
Proof. intros o. unfold pump_defaults. cbv zeta. kept. Qed.
Lemma keeps_heu : forall h o, keeps o (heu_opts h o).
Proof.
  intros h o. destruct h; cbn; try apply keeps_refl; try apply keeps_local.
  eapply keeps_trans; [apply keeps_local | apply keeps_pump].
Qed.
Lemma keeps_presets : forall a p q o, keeps o (presets a p q o).
Proof.
  intros a p q o. unfold presets.
  repeat match goal with |- keeps _ (match ?x with _ => _ end) => destruct x end; kept.
Qed.

(** * What does not concern options *)
Definition same_rest (s t : setup) : Prop :=
  s_pfx t = s_pfx s /\ s_ip t = s_ip s /\ s_dp t = s_dp s /\ s_algo t = s_algo s /\
  s_nobj t = s_nobj s /\ s_cont t = s_cont s /\ s_brm t = s_brm s /\ s_cmp t = s_cmp s /\ s_tree t = s_tree s.
Lemma same_refl : forall s, same_rest s s.
Proof. intros s. unfold same_rest. repeat split. Qed.
Lemma same_trans : forall a b c, same_rest a b -> same_rest b c -> same_rest a c.
Proof.
  intros a b c H1 H2. unfold same_rest in *.
  destruct H1 as (?&?&?&?&?&?&?&?&?), H2 as (?&?&?&?&?&?&?&?&?). repeat split; congruence.
Qed.
(** Cut generators are added without touching options. *)
Definition same_gens (s t : setup) : Prop := same_rest s t /\ s_opt t = s_opt s /\ s_heus t = s_heus s.
Definition same_heu (s t : setup) : Prop := same_rest s t /\ keeps (s_opt s) (s_opt t) /\ s_gens t = s_gens s.
Lemma same_heu_refl : forall s, same_heu s s.
Proof. intros s. split; [apply same_refl | split; [apply keeps_refl | reflexivity]]. Qed.
Lemma same_heu_trans : forall a b c, same_heu a b -> same_heu b c -> same_heu a c.
Proof.
  intros a b c (H1 & H2 & H3) (H4 & H5 & H6). split; [eapply same_trans; eauto | split; [eapply keeps_trans; eauto | congruence]].
Qed.
Lemma same_heu_add : forall h s, same_heu s (add_heu h s).
Proof. intros h s. split; [|split]; [unfold same_rest; cbn; repeat split | cbn; apply keeps_heu | reflexivity]. Qed.
Lemma same_heu_if : forall n h s, same_heu s (heu_if n h s).
Proof. intros n h s. unfold heu_if. destruct (yes n s); [apply same_heu_add | apply same_heu_refl]. Qed.
Lemma same_heu_wopt : forall k v s, same_heu s (wopt (seti k v (s_opt s)) s).
Proof. intros k v s. split; [|split]; [unfold same_rest; cbn; repeat split | cbn; apply keeps_seti | reflexivity]. Qed.
Lemma same_gens_refl : forall s, same_gens s s.
Proof. intros s. split; [apply same_refl | split; reflexivity]. Qed.
Lemma same_gens_trans : forall a b c, same_gens a b -> same_gens b c -> same_gens a c.
Proof. intros a b c (H1 & H2 & H3) (H4 & H5 & H6). split; [eapply same_trans; eauto | split; congruence]. Qed.
Lemma same_gens_add : forall g s, same_gens s (wgen g s).
Proof. intros g s. split; [unfold same_rest; cbn; repeat split | split; reflexivity]. Qed.
Lemma same_gens_if : forall n k s, same_gens s (gen_if n k s).
Proof. intros n k s. unfold gen_if. destruct (Z.eqb _ 0); [apply same_gens_refl | apply same_gens_add]. Qed.
Lemma same_gens_dec : forall n k p s, same_gens s (dec_gen_if n k p s).
Proof. intros n k p s. unfold dec_gen_if. destruct (yes n s); [apply same_gens_add | apply same_gens_refl]. Qed.
Lemma same_gens_milp : forall l k s, same_gens s (add_milp k l s).
Proof.
  induction l as [|n l IH]; intros k s; cbn; [apply same_gens_refl|].
  eapply same_gens_trans; [apply same_gens_if | apply IH].
Qed.
Lemma same_hyb_gens : forall a s, same_gens s (hyb_gens a s).
Proof.
  intros a s. unfold hyb_gens. cbv zeta.
  eapply same_gens_trans; [|apply same_gens_add]. eapply same_gens_trans; [|apply same_gens_add].
  eapply same_gens_trans; [|apply same_gens_dec]. eapply same_gens_trans; [|apply same_gens_dec].
  destruct (_ || _)%bool.
  - eapply same_gens_trans; [|apply same_gens_milp]. eapply same_gens_trans; [|apply same_gens_if]. apply same_gens_if.
  - eapply same_gens_trans; [|apply same_gens_if]. apply same_gens_if.
Qed.
Ltac heus := repeat first
  [ apply same_heu_refl
  | match goal with
    | |- same_heu _ (heu_if _ _ _) => eapply same_heu_trans; [|apply same_heu_if]
    | |- same_heu _ (add_heu _ _) => eapply same_heu_trans; [|apply same_heu_add]
    | |- same_heu _ (wopt _ _) => eapply same_heu_trans; [|apply same_heu_wopt]
    end ].
Lemma same_hyb_heus : forall s, same_heu s (hyb_heuristics s).
Proof. intros s. unfold hyb_heuristics. cbv zeta. heus. Qed.
Lemma same_bbb_heus : forall P s, same_heu s (bbb_heuristics P s).
Proof.
  intros P s. unfold bbb_heuristics. cbv zeta.
  do 6 (eapply same_heu_trans; [|apply same_heu_if]).
  match goal with |- same_heu _ (if _ then ?x else _) => set (t := x) end.
  assert (H : same_heu s t).
  { subst t. eapply same_heu_trans; [|apply same_heu_if].
    match goal with |- same_heu _ (if _ then _ else add_heu _ (wopt _ ?x)) => set (t := x) end.
    assert (H : same_heu s t) by (subst t; heus).
    clearbody t. destruct (snd _); heus; exact H. }
  clearbody t. destruct (p_genint P); [exact H|]. destruct (snd _); heus; exact H.
Qed.

(** * Names that are not read under a prefix *)
Definition safe (p k : string) : bool := forallb (fun n => negb (String.eqb k (p ++ n)) && negb (String.eqb k n))%bool options.
Lemma safe_spec : forall p k n, safe p k = true -> In n options -> String.eqb k (p ++ n) = false /\ String.eqb k n = false.
Proof.
  intros p k n H I. unfold safe in H. rewrite forallb_forall in H. specialize (H _ I).
  apply andb_true_iff in H. destruct H as [H1 H2]. rewrite negb_true_iff in H1, H2. auto.
Qed.
Lemma geti_safe : forall p k v o n, safe p k = true -> In n options -> geti p n (seti k v o) = geti p n o.
Proof. intros p k v o n H I. destruct (safe_spec _ _ _ H I). apply geti_seti_other; assumption. Qed.
Lemma geti_dfli_safe : forall p q m v o n, safe p (q ++ m) = true -> In n options -> geti p n (dfli q m v o) = geti p n o.
Proof. intros p q m v o n H I. destruct (safe_spec _ _ _ H I). apply geti_dfli_other; assumption. Qed.
Lemma frame_local : forall o n, In n options -> geti "bonmin." n (local_defaults o) = geti "bonmin." n o.
Proof.
  intros o n I. unfold local_defaults. cbv zeta.
  rewrite !geti_dfli_safe, geti_dfln, !geti_dfli_safe by (exact I || (vm_compute; reflexivity)). reflexivity.
Qed.
Lemma frame_pump : forall o n, In n options -> geti "bonmin." n (pump_defaults o) = geti "bonmin." n o.
Proof.
  intros o n I. unfold pump_defaults. cbv zeta.
  rewrite geti_dfln, !geti_dfli_safe by (exact I || (vm_compute; reflexivity)). reflexivity.
Qed.
Lemma frame_heu : forall h o n, In n options -> geti "bonmin." n (heu_opts h o) = geti "bonmin." n o.
Proof.
  intros h o n I. destruct h; cbn [heu_opts]; rewrite ?frame_pump, ?frame_local by exact I; reflexivity.
Qed.
Lemma opt_in : forall n, existsb (String.eqb n) options = true -> In n options.
Proof. intros n H. apply existsb_exists in H. destruct H as (m & I & E). apply String.eqb_eq in E. subst. exact I. Qed.
Ltac inopt := apply opt_in; vm_compute; reflexivity.

(** * The steps, with the main prefix *)
(** Numeric options are never written under "bonmin." or bare. *)
Definition nsafe (p k : string) : bool := forallb (fun n => negb (String.eqb k (p ++ n)) && negb (String.eqb k n))%bool (map fst reg_num).
Lemma num_in : forall q, In (num_opt q) (map fst reg_num).
Proof. intros q. destruct q; cbn; tauto. Qed.
Lemma getn_safe : forall p k v o n, nsafe p k = true -> In n (map fst reg_num) -> getn p n (setn k v o) = getn p n o.
Proof.
  intros p k v o n H I. unfold nsafe in H. rewrite forallb_forall in H. specialize (H _ I).
  apply andb_true_iff in H. destruct H as [H1 H2]. rewrite negb_true_iff in H1, H2. apply getn_setn_other; assumption.
Qed.

(** gather *)
Lemma gather_keeps : forall s, keeps (s_opt s) (s_opt (gather s)).
Proof.
  intros s. unfold gather. cbv zeta. destruct (Z.eqb _ 0); [cbn; kept|]. destruct (Z.eqb _ 2); cbn; kept.
Qed.
Lemma gather_rest : forall s, s_pfx (gather s) = s_pfx s /\ s_algo (gather s) = s_algo s /\ s_nobj (gather s) = s_nobj s /\
  s_cont (gather s) = s_cont s /\ s_gens (gather s) = s_gens s /\ s_heus (gather s) = s_heus s /\ s_brm (gather s) = s_brm s.
Proof.
  intros s. unfold gather. cbv zeta. destruct (Z.eqb _ 0); [cbn; repeat split|]. destruct (Z.eqb _ 2); cbn; repeat split.
Qed.
Lemma gather_dp : forall s q, s_dp (gather s) q = fst (getn (s_pfx s) (num_opt q) (s_opt s)).
Proof.
  intros s q. unfold gather. cbv zeta. destruct (Z.eqb _ 0); [reflexivity|]. destruct (Z.eqb _ 2); reflexivity.
Qed.
Lemma gather_num : forall s, o_num (s_opt (gather s)) = o_num (s_opt s).
Proof.
  intros s. unfold gather. cbv zeta. destruct (Z.eqb _ 0); [reflexivity|]. destruct (Z.eqb _ 2); reflexivity.
Qed.

(** prepare_objects *)
Lemma prepare_same : forall P s t, prepare_objects P s = Ok t ->
  s_opt t = s_opt s /\ s_pfx t = s_pfx s /\ s_ip t = s_ip s /\ s_dp t = s_dp s /\ s_algo t = s_algo s /\
  s_gens t = s_gens s /\ s_heus t = s_heus s /\ s_brm t = s_brm s.
Proof.
  intros P s t H. unfold prepare_objects in H.
  destruct (s_cont s); try discriminate H; cbn [bind] in H;
    apply bind_ok in H; destruct H as (l1 & H1 & H); apply bind_ok in H; destruct H as (k & H2 & H);
    assert (E : t = _) by (symmetry; injection H; exact (fun x => x)); subst t; cbn; repeat split.
Qed.

(** initializeBBB *)
Definition bbb_start (s : setup) : setup :=
  par_default NumberStrong "number_strong_branch" 1000 (par_default MinReliability "number_before_trust" 1 (wip SpecialOption 16 (wcont CNlp s))).
Definition bbb_opts (s : setup) : opts :=
  if snd (gi "variable_selection" s) then s_opt s else seti (s_pfx s ++ "variable_selection") 5 (s_opt s).
Definition bbb_rule (s : setup) : Z := if snd (gi "variable_selection" s) then fst (gi "variable_selection" s) else 5%Z.
Definition rule_brm (v : Z) : option brm :=
  match v with
  | 3 => Some (BChoose 1) | 4 => Some (BChoose 2) | 5 => Some (BChoose 0) | 6 => Some BOsiSimple | 7 => Some BOsiStrong
  | 8 => Some BRandom | _ => None
  end%Z.
Lemma par_default_rest : forall q n v s, s_pfx (par_default q n v s) = s_pfx s /\ s_dp (par_default q n v s) = s_dp s /\
  s_algo (par_default q n v s) = s_algo s /\ s_nobj (par_default q n v s) = s_nobj s /\ s_cont (par_default q n v s) = s_cont s /\
  s_gens (par_default q n v s) = s_gens s /\ s_heus (par_default q n v s) = s_heus s /\ s_brm (par_default q n v s) = s_brm s /\
  keeps (s_opt s) (s_opt (par_default q n v s)) /\ o_num (s_opt (par_default q n v s)) = o_num (s_opt s) /\
  (forall r, r <> q -> s_ip (par_default q n v s) r = s_ip s r).
Proof.
  intros q n v s. unfold par_default.
  destruct (snd (gi n s)); cbn; repeat split; try apply keeps_refl; try apply keeps_seti;
    try (intros; apply find_put_kept; assumption); auto; intros r N; destruct (ipar_dec q r); congruence.
Qed.
Lemma bbb_start_rest : forall s, s_pfx (bbb_start s) = s_pfx s /\ s_dp (bbb_start s) = s_dp s /\ s_algo (bbb_start s) = s_algo s /\
  s_nobj (bbb_start s) = s_nobj s /\ s_cont (bbb_start s) = CNlp /\ s_gens (bbb_start s) = s_gens s /\
  s_heus (bbb_start s) = s_heus s /\ s_brm (bbb_start s) = s_brm s /\ keeps (s_opt s) (s_opt (bbb_start s)) /\
  o_num (s_opt (bbb_start s)) = o_num (s_opt s).
Proof.
  intros s. unfold bbb_start.
  set (u := wip SpecialOption 16 (wcont CNlp s)).
  destruct (par_default_rest MinReliability "number_before_trust" 1%Z u) as (A1 & A2 & A3 & A4 & A5 & A6 & A7 & A8 & A9 & A10 & A11).
  set (w := par_default MinReliability "number_before_trust" 1%Z u) in *.
  destruct (par_default_rest NumberStrong "number_strong_branch" 1000%Z w) as (B1 & B2 & B3 & B4 & B5 & B6 & B7 & B8 & B9 & B10 & B11).
  rewrite B1, B2, B3, B4, B5, B6, B7, B8, B10, A1, A2, A3, A4, A5, A6, A7, A8, A10.
  repeat split; try apply (keeps_trans _ _ _ A9 B9).
Qed.
(** The options after the start and the choice of the rule. *)
Lemma bbb_branching_eq : forall P s,
  bbb_branching P s =
    let s1 := wopt (bbb_opts (bbb_start s)) (bbb_start s) in
    match rule_brm (bbb_rule (bbb_start s)) with
    | Some b => do s2 <- prepare_objects P s1; Ok (wbrm b s2)
    | None => Ok s1
    end.
Proof.
  intros P s. unfold bbb_branching. cbv zeta. fold (bbb_start s).
  unfold bbb_opts, bbb_rule. set (t := bbb_start s). clearbody t.
  assert (E : wopt (s_opt t) t = t) by (destruct t; reflexivity).
  destruct (snd (gi "variable_selection" t)) eqn:G; [rewrite E|].
  - destruct (fst (gi "variable_selection" t)) as [|p|p]; cbn; try reflexivity.
    do 4 (destruct p as [p|p|]; try reflexivity).
  - reflexivity.
Qed.
Lemma bbb_branching_same : forall P s t, bbb_branching P s = Ok t ->
  s_opt t = bbb_opts (bbb_start s) /\ s_pfx t = s_pfx s /\ s_ip t = s_ip (bbb_start s) /\ s_dp t = s_dp s /\ s_algo t = s_algo s /\
  s_gens t = s_gens s /\ s_heus t = s_heus s.
Proof.
  intros P s t H. rewrite bbb_branching_eq in H. cbv zeta in H.
  destruct (bbb_start_rest s) as (A1 & A2 & A3 & A4 & A5 & A6 & A7 & A8 & A9 & A10).
  destruct (rule_brm _) as [b|].
  - apply bind_ok in H. destruct H as (u & H1 & H2). apply prepare_same in H1.
    destruct H1 as (B1 & B2 & B3 & B4 & B5 & B6 & B7 & B8).
    assert (E : t = wbrm b u) by congruence. subst t. cbn in *. rewrite B1, B2, B3, B4, B5, B6, B7. repeat split; assumption.
  - assert (E : t = wopt (bbb_opts (bbb_start s)) (bbb_start s)) by congruence. subst t. cbn. repeat split; assumption.
Qed.
Lemma bbb_opts_keeps : forall s, keeps (s_opt s) (bbb_opts s).
Proof. intros s. unfold bbb_opts. destruct (snd _); kept. Qed.
Lemma bbb_opts_num : forall s, o_num (bbb_opts s) = o_num (s_opt s).
Proof. intros s. unfold bbb_opts. destruct (snd _); reflexivity. Qed.
Lemma initializeBBB_inv : forall P s t, initializeBBB P s = Ok t -> exists u,
  bbb_branching P s = Ok u /\ t = bbb_heuristics P u /\ same_heu u t.
Proof.
  intros P s t H. unfold initializeBBB in H. apply bind_ok in H. destruct H as (u & H1 & H2).
  exists u. assert (E : t = bbb_heuristics P u) by congruence. subst t. repeat split; try assumption; apply same_bbb_heus.
Qed.
Lemma initializeBBB_keeps : forall P s t, initializeBBB P s = Ok t -> keeps (s_opt s) (s_opt t).
Proof.
  intros P s t H. apply initializeBBB_inv in H. destruct H as (u & H1 & _ & (_ & K & _)).
  apply bbb_branching_same in H1. destruct H1 as (E & _). rewrite E in K.
  destruct (bbb_start_rest s) as (_ & _ & _ & _ & _ & _ & _ & _ & A & _).
  eapply keeps_trans; [exact A|]. eapply keeps_trans; [apply bbb_opts_keeps | exact K].
Qed.

(** initializeBHyb *)
Definition hyb_start (create : bool) (s : setup) : setup :=
  let s := if create then wcont (CLp []) s else s in
  let a := getAlgorithm s in
  let s := wopt (presets a (s_pfx s) (sub_prefix (s_pfx s)) (s_opt s)) s in
  if Z.eqb a 5 then wip BabLogLevel 0 s else s.
Lemma hyb_start_rest : forall c s, s_opt (hyb_start c s) = presets (getAlgorithm s) (s_pfx s) (sub_prefix (s_pfx s)) (s_opt s) /\
  s_pfx (hyb_start c s) = s_pfx s /\ s_dp (hyb_start c s) = s_dp s /\ s_algo (hyb_start c s) = s_algo s /\
  s_nobj (hyb_start c s) = s_nobj s /\ s_cont (hyb_start c s) = (if c then CLp [] else s_cont s) /\ s_gens (hyb_start c s) = s_gens s /\
  s_heus (hyb_start c s) = s_heus s /\ s_brm (hyb_start c s) = s_brm s /\
  (forall q, s_ip (hyb_start c s) q = if Z.eqb (getAlgorithm s) 5 then if ipar_dec BabLogLevel q then 0%Z else s_ip s q else s_ip s q).
Proof.
  intros c s. unfold hyb_start. cbv zeta.
  assert (E : getAlgorithm (if c then wcont (CLp []) s else s) = getAlgorithm s) by (destruct c; reflexivity).
  rewrite E. destruct (Z.eqb (getAlgorithm s) 5); destruct c; cbn; repeat split.
Qed.
Lemma hyb_branching_eq : forall P s,
  hyb_branching P s = match fst (gi "variable_selection" s) with
                      | 6%Z => do s <- prepare_objects P s; Ok (wbrm BOsiSimple s)
                      | 7%Z => do s <- prepare_objects P s; Ok (wbrm BOsiStrong s)
                      | _ => Ok s
                      end.
Proof. reflexivity. Qed.
Lemma hyb_branching_same : forall P s t, hyb_branching P s = Ok t ->
  s_opt t = s_opt s /\ s_pfx t = s_pfx s /\ s_ip t = s_ip s /\ s_dp t = s_dp s /\ s_algo t = s_algo s /\
  s_gens t = s_gens s /\ s_heus t = s_heus s.
Proof.
  intros P s t H. unfold hyb_branching in H.
  assert (A : forall b, (do s <- prepare_objects P s; Ok (wbrm b s)) = Ok t ->
     s_opt t = s_opt s /\ s_pfx t = s_pfx s /\ s_ip t = s_ip s /\ s_dp t = s_dp s /\ s_algo t = s_algo s /\
     s_gens t = s_gens s /\ s_heus t = s_heus s).
  { intros b K. apply bind_ok in K. destruct K as (u & H1 & H2). apply prepare_same in H1.
    destruct H1 as (B1 & B2 & B3 & B4 & B5 & B6 & B7 & B8).
    assert (E : t = wbrm b u) by congruence. subst t. cbn. repeat split; assumption. }
  assert (B : Ok s = Ok t -> s_opt t = s_opt s /\ s_pfx t = s_pfx s /\ s_ip t = s_ip s /\ s_dp t = s_dp s /\ s_algo t = s_algo s /\
     s_gens t = s_gens s /\ s_heus t = s_heus s) by (intros K; assert (E : t = s) by congruence; subst; repeat split).
  destruct (fst (gi "variable_selection" s)) as [|p|p]; auto.
  do 3 (destruct p as [p|p|]; auto). all: eauto.
Qed.
Lemma initializeBHyb_inv : forall P c dt s t, initializeBHyb P c dt s = Ok t -> exists u v,
  hyb_branching P (hyb_start c s) = Ok u /\ v = hyb_heuristics (hyb_gens (getAlgorithm s) u) /\
  s_opt t = s_opt v /\ s_pfx t = s_pfx v /\ s_ip t = s_ip v /\ s_algo t = s_algo v /\ s_nobj t = s_nobj v /\
  s_cont t = s_cont v /\ s_gens t = s_gens v /\ s_heus t = s_heus v /\ s_brm t = s_brm v /\
  (forall q, s_dp t q = if dpar_dec MaxTime q then eminus (s_dp v MaxTime) dt else s_dp v q).
Proof.
  intros P c dt s t H. unfold initializeBHyb in H. cbv zeta in H.
  assert (E : getAlgorithm (if c then wcont (CLp []) s else s) = getAlgorithm s) by (destruct c; reflexivity).
  fold (hyb_start c s) in H. apply bind_ok in H. destruct H as (u & H1 & H2). exists u.
  exists (hyb_heuristics (hyb_gens (getAlgorithm s) u)). split; [exact H1|]. split; [reflexivity|].
  rewrite E in H2. generalize dependent (hyb_heuristics (hyb_gens (getAlgorithm s) u)). intros v H2.
  assert (F : t = wdp MaxTime (eminus (s_dp v MaxTime) dt) v) by congruence. subst t. repeat split.
Qed.
Lemma initializeBHyb_keeps : forall P c dt s t, initializeBHyb P c dt s = Ok t -> keeps (s_opt s) (s_opt t).
Proof.
  intros P c dt s t H. apply initializeBHyb_inv in H. destruct H as (u & v & H1 & E & O1 & _). rewrite O1.
  pose proof (same_hyb_heus (hyb_gens (getAlgorithm s) u)) as (_ & K & _). rewrite <- E in K.
  pose proof (same_hyb_gens (getAlgorithm s) u) as (_ & G & _). rewrite G in K.
  apply hyb_branching_same in H1. destruct H1 as (O & _). rewrite O in K.
  destruct (hyb_start_rest c s) as (O2 & _). rewrite O2 in K.
  eapply keeps_trans; [apply keeps_presets | exact K].
Qed.

(** The three ways in. *)
Lemma initialize_keeps : forall P c dt s t, initialize P c dt s = Ok t -> keeps (s_opt s) (s_opt t).
Proof.
  intros P c dt s t H. unfold initialize in H. cbv zeta in H.
  pose proof (gather_keeps (wnobj [] s)) as K. cbn [s_opt wnobj] in K.
  destruct (Z.eqb _ 0); [apply initializeBBB_keeps in H | apply initializeBHyb_keeps in H]; cbn in H; eapply keeps_trans; eauto.
Qed.
Lemma initialize_nlp_keeps : forall P l c dt s t, initialize_nlp P l c dt s = Ok t -> keeps (s_opt s) (s_opt t).
Proof.
  intros P l c dt s t H. unfold initialize_nlp in H. cbv zeta in H.
  pose proof (gather_keeps (wnobj l s)) as K. cbn [s_opt wnobj] in K.
  destruct (Z.eqb _ 0); [apply initializeBBB_keeps in H | apply initializeBHyb_keeps in H]; eapply keeps_trans; eauto.
Qed.
Lemma copy_prefix_keeps : forall P l p dt s t, copy_prefix P l p dt s = Ok t -> keeps (s_opt s) (s_opt t).
Proof.
  intros P l p dt s t H. unfold copy_prefix in H. cbv zeta in H.
  match type of H with context[gather ?x] => pose proof (gather_keeps x) as K end. cbn [s_opt] in K.
  destruct (Z.eqb _ 0); [apply initializeBBB_keeps in H | apply initializeBHyb_keeps in H]; cbn in H; eapply keeps_trans; eauto.
Qed.

(** * Values under the main prefix *)
Lemma eqb_app : forall p a b, String.eqb (p ++ a) (p ++ b) = String.eqb a b.
Proof. induction p as [|c p IH]; intros a b; cbn [append String.eqb]; [reflexivity|]. rewrite Ascii.eqb_refl. apply IH. Qed.
Lemma bare_options : forall m n, In n options -> String.eqb ("bonmin." ++ m) n = false.
Proof.
  intros m n I. destruct (String.eqb _ n) eqn:E; [|reflexivity]. apply String.eqb_eq in E.
  assert (H : forallb (fun n => negb (String.prefix "bonmin." n)) options = true) by (vm_compute; reflexivity).
  rewrite forallb_forall in H. specialize (H _ I). rewrite <- E in H. cbn in H. destruct m; discriminate H.
Qed.
Lemma geti_main : forall m v o n, In n options -> n <> m -> geti "bonmin." n (seti ("bonmin." ++ m) v o) = geti "bonmin." n o.
Proof.
  intros m v o n I N. apply geti_seti_other; [rewrite eqb_app; apply String.eqb_neq; congruence | apply bare_options; exact I].
Qed.
Lemma geti_main_new : forall n v o, look "bonmin." n (o_int o) = None -> geti "bonmin." n (seti ("bonmin." ++ n) v o) = (v, true).
Proof. intros n v o H. unfold geti, seti. cbn [o_int]. rewrite look_put_none by exact H. reflexivity. Qed.
Lemma geti_none : forall p n o, snd (geti p n o) = false <-> look p n (o_int o) = None.
Proof. intros p n o. unfold geti. destruct (look p n (o_int o)); cbn; split; congruence. Qed.
Lemma look_geti : forall p n o o', geti p n o' = geti p n o -> look p n (o_int o) = None -> look p n (o_int o') = None.
Proof. intros p n o o' H L. apply geti_none. rewrite H. apply geti_none. exact L. Qed.
(** Bare names the file forbids to overwrite. *)
Definition locked (n : string) (o : opts) : Prop := exists e, find n (o_int o) = Some e /\ e_clob e = false.
Lemma locked_keeps : forall n o o', keeps o o' -> locked n o -> locked n o'.
Proof. intros n o o' [K _] (e & H & C). exists e. split; [apply K; assumption | exact C]. Qed.
Lemma seti_locked : forall n v o, locked n o -> seti n v o = o.
Proof. intros n v [i m] (e & H & C). unfold seti, put. cbn in *. rewrite H, C. reflexivity. Qed.

(** [same W o o']: all options but those in W are unchanged. *)
Definition same (W : list string) (o o' : opts) : Prop := forall n, In n options -> ~ In n W -> geti "bonmin." n o' = geti "bonmin." n o.
Lemma same_id : forall W o, same W o o.
Proof. intros W o n _ _. reflexivity. Qed.
Lemma same_comp : forall W a b c, same W a b -> same W b c -> same W a c.
Proof. intros W a b c H1 H2 n I N. rewrite H2, H1 by assumption. reflexivity. Qed.
Lemma same_weak : forall W W' o o', incl W W' -> same W o o' -> same W' o o'.
Proof. intros W W' o o' I H n J N. apply H; [exact J|]. intros K. apply N, I, K. Qed.
Lemma same_main : forall W m v o, In m W -> same W o (seti ("bonmin." ++ m) v o).
Proof. intros W m v o M n I N. apply geti_main; [exact I|]. congruence. Qed.
Lemma bare_bare : forall m n v o, In n options -> n <> m -> String.eqb m ("bonmin." ++ n) = false -> geti "bonmin." n (seti m v o) = geti "bonmin." n o.
Proof. intros m n v o I N E. apply geti_seti_other; [exact E | apply String.eqb_neq; congruence]. Qed.

Definition forced_vs (vs : Z) : list string :=
  if Z.eqb vs 0 then ["number_strong_branch"; "number_before_trust"]
  else if Z.eqb vs 2 then ["number_before_trust"] else [].
Definition forced_a (a : Z) : list string :=
  match a with
  | 1 => ["oa_decomposition"; "pump_for_minlp"]
  | 2 => ["oa_decomposition"; "pump_for_minlp"; "nlp_solve_frequency"]
  | 3 => ["oa_decomposition"; "pump_for_minlp"]
  | 4 => ["oa_decomposition"; "pump_for_minlp"; "nlp_solve_frequency"; "filmint_ecp_cuts"]
  | 5 => ["oa_decomposition"; "pump_for_minlp"; "nlp_solve_frequency"; "fp_pass_infeasible"]
  | _ => []
  end%Z.
Lemma forced_eq : forall a vs, forced a vs = (forced_vs vs ++ forced_a a)%list.
Proof. reflexivity. Qed.
Lemma gather_same : forall s, s_pfx s = "bonmin." ->
  same (forced_vs (fst (gi "variable_selection" s))) (s_opt s) (s_opt (gather s)).
Proof.
  intros s E. unfold gather, forced_vs, gi. cbv zeta.
  destruct (Z.eqb _ 0); [|destruct (Z.eqb _ 2)].
  - change (s_opt (wopt ?o _)) with o. eapply same_comp.
    + apply (same_main _ "number_strong_branch"). left; reflexivity.
    + apply (same_main _ "number_before_trust"). right; left; reflexivity.
  - change (s_opt (wopt ?o _)) with o. apply (same_main _ "number_before_trust"). left; reflexivity.
  - apply same_id.
Qed.
Lemma par_default_same : forall q m v s, s_pfx s = "bonmin." -> same [m] (s_opt s) (s_opt (par_default q m v s)).
Proof.
  intros q m v s E. unfold par_default. destruct (snd _); [apply same_id|].
  change (s_opt (wopt ?o _)) with o. rewrite E. apply same_main. left. reflexivity.
Qed.
(** Given options are left alone. *)
Definition keep_given (o o' : opts) : Prop := forall n, In n options -> snd (geti "bonmin." n o) = true -> geti "bonmin." n o' = geti "bonmin." n o.
Lemma given_id : forall o, keep_given o o.
Proof. intros o n _ _. reflexivity. Qed.
Lemma given_comp : forall a b c, keep_given a b -> keep_given b c -> keep_given a c.
Proof. intros a b c H1 H2 n I G. rewrite H2, H1; try assumption; try reflexivity. rewrite H1; assumption. Qed.
Lemma given_new : forall m v o, snd (geti "bonmin." m o) = false -> keep_given o (seti ("bonmin." ++ m) v o).
Proof. intros m v o N n I G. apply geti_main; [exact I|]. congruence. Qed.
Lemma same_given : forall o o', same [] o o' -> keep_given o o'.
Proof. intros o o' H n I _. apply H; auto. Qed.
Lemma par_default_given : forall q m v s, s_pfx s = "bonmin." -> keep_given (s_opt s) (s_opt (par_default q m v s)).
Proof.
  intros q m v s E. unfold par_default. destruct (snd (gi m s)) eqn:G; [apply given_id|].
  change (s_opt (wopt ?o _)) with o. unfold gi in G. rewrite E in *. apply given_new. exact G.
Qed.
Lemma bbb_start_opt : forall s, s_pfx s = "bonmin." ->
  same ["number_before_trust"; "number_strong_branch"] (s_opt s) (s_opt (bbb_start s)) /\ keep_given (s_opt s) (s_opt (bbb_start s)).
Proof.
  intros s E. unfold bbb_start. set (u := wip SpecialOption 16 (wcont CNlp s)).
  assert (U : s_pfx u = "bonmin.") by exact E. change (s_opt s) with (s_opt u). clearbody u.
  destruct (par_default_rest MinReliability "number_before_trust" 1%Z u) as (A & _). rewrite U in A.
  split.
  - eapply same_comp.
    + eapply same_weak; [|apply par_default_same; exact U]. intros n [<-|[]]. left. reflexivity.
    + eapply same_weak; [|apply par_default_same; exact A]. intros n [<-|[]]. right. left. reflexivity.
  - eapply given_comp; apply par_default_given; assumption.
Qed.
Lemma bbb_opts_opt : forall s, s_pfx s = "bonmin." ->
  same ["variable_selection"] (s_opt s) (bbb_opts s) /\ keep_given (s_opt s) (bbb_opts s).
Proof.
  intros s E. unfold bbb_opts. destruct (snd (gi "variable_selection" s)) eqn:G.
  - split; [apply same_id | apply given_id].
  - unfold gi in G. rewrite E in *. split; [apply same_main; left; reflexivity | apply given_new; exact G].
Qed.
Lemma heu_opts_same : forall h o, same [] o (heu_opts h o).
Proof. intros h o n I _. apply frame_heu. exact I. Qed.
(** Names no option is read under. *)
Lemma same_safe : forall W m v o, safe "bonmin." m = true -> same W o (seti m v o).
Proof. intros W m v o S n I _. apply geti_safe; assumption. Qed.
Lemma same_setn : forall W m v o, same W o (setn m v o).
Proof. intros W m v o n _ _. reflexivity. Qed.
(** The first algorithm writes two names without prefix. *)
Definition bare_a (a : Z) : list string := if Z.eqb a 1 then ["nlp_solve_frequency"; "bb_log_level"] else [].
Lemma same_unpref : forall m v o, existsb (fun n => String.eqb m ("bonmin." ++ n)) options = false -> same [m] o (seti m v o).
Proof.
  intros m v o S n I N. apply geti_seti_other.
  - destruct (String.eqb m ("bonmin." ++ n)) eqn:E; [|reflexivity].
    assert (K : existsb (fun n => String.eqb m ("bonmin." ++ n)) options = true) by (apply existsb_exists; exists n; auto). congruence.
  - apply String.eqb_neq. intros ->. apply N. left. reflexivity.
Qed.
Ltac step_same := repeat first
  [ apply same_id
  | match goal with
    | |- same _ _ (setn _ _ _) => eapply same_comp; [|apply same_setn]
    | |- same _ _ (seti ("bonmin." ++ _) _ _) => eapply same_comp; [|apply same_main; cbn; tauto]
    | |- same _ _ (seti ("" ++ _) _ _) => eapply same_comp; [|apply same_safe; vm_compute; reflexivity]
    | |- same _ _ (seti ("" ++ _) _ _) =>
        eapply same_comp; [|eapply same_weak; [|apply same_unpref; vm_compute; reflexivity]; intros ? [<-|[]]; cbn; tauto]
    end ].
Lemma presets_same : forall a o, same (forced_a a ++ bare_a a) o (presets a "bonmin." "" o).
Proof.
  intros a o. destruct (Z.eq_dec a 1) as [->|N1]; [|destruct (Z.eq_dec a 2) as [->|N2]; [|destruct (Z.eq_dec a 3) as [->|N3];
    [|destruct (Z.eq_dec a 4) as [->|N4]; [|destruct (Z.eq_dec a 5) as [->|N5]]]]]; unfold presets, bare_a, forced_a; cbn [Z.eqb Pos.eqb app].
  1-5: step_same.
  assert (E : presets a "bonmin." "" o = o).
  { unfold presets. destruct a as [|p|p]; try reflexivity. do 3 (destruct p as [p|p|]; try reflexivity; try lia). }
  intros n _ _. fold (presets a "bonmin." "" o). rewrite E. reflexivity.
Qed.
Lemma geti_locked : forall n m v o, locked n o -> String.eqb m ("bonmin." ++ n) = false ->
  geti "bonmin." n (seti m v o) = geti "bonmin." n o /\ locked n (seti m v o).
Proof.
  intros n m v o L E. split.
  - destruct (String.eqb m n) eqn:N.
    + apply String.eqb_eq in N. subst m. rewrite seti_locked by exact L. reflexivity.
    + apply geti_seti_other; assumption.
  - apply locked_keeps with o; [apply keeps_seti | exact L].
Qed.
Lemma presets_locked : forall a o n, In n options -> ~ In n (forced_a a) -> locked n o ->
  geti "bonmin." n (presets a "bonmin." "" o) = geti "bonmin." n o.
Proof.
  intros a o n I F L. destruct (in_dec string_dec n (bare_a a)) as [B|B].
  - unfold bare_a in B. destruct (Z.eqb a 1) eqn:A; [|destruct B]. apply Z.eqb_eq in A. subst a. unfold presets.
    destruct B as [<-|[<-|[]]].
    all: repeat match goal with
      | |- geti _ _ (seti ?m _ ?x) = _ =>
          let K := fresh in assert (K : locked _ x) by (repeat first [exact L | apply locked_keeps with (1 := keeps_seti _ _ _) | apply locked_keeps with (1 := keeps_setn _ _ _)]);
          rewrite (proj1 (geti_locked _ m _ _ K eq_refl)); clear K
      | |- geti _ _ (setn _ _ _) = _ => rewrite geti_setn
      end; reflexivity.
  - apply presets_same; [exact I|]. intros K. apply in_app_or in K. tauto.
Qed.

(** * Heuristics *)
Definition adds (W : list string) (l : list heu) (s t : setup) : Prop :=
  s_pfx t = s_pfx s /\ s_heus t = (s_heus s ++ l)%list /\ same W (s_opt s) (s_opt t) /\ keep_given (s_opt s) (s_opt t).
Lemma adds_nil : forall W s, adds W [] s s.
Proof. intros W s. unfold adds. rewrite app_nil_r. split; [reflexivity|]. split; [reflexivity|]. split; [apply same_id | apply given_id]. Qed.
Lemma adds_comp : forall W l l' s t u, adds W l s t -> adds W l' t u -> adds W (l ++ l') s u.
Proof.
  intros W l l' s t u (A1 & A2 & A3 & A4) (B1 & B2 & B3 & B4).
  split; [congruence|]. split; [rewrite B2, A2, app_assoc; reflexivity|].
  split; [eapply same_comp; eauto | eapply given_comp; eauto].
Qed.
Lemma adds_weak : forall W W' l s t, incl W W' -> adds W l s t -> adds W' l s t.
Proof. intros W W' l s t I (A & B & C & D). split; [exact A|]. split; [exact B|]. split; [apply same_weak with W; assumption | exact D]. Qed.
Lemma adds_add : forall h s, s_pfx s = "bonmin." -> adds [] [h] s (add_heu h s).
Proof.
  intros h s E. unfold adds. cbn [add_heu wheu wopt s_pfx s_heus s_opt]. split; [reflexivity|]. split; [reflexivity|]. split; [apply heu_opts_same | apply same_given, heu_opts_same].
Qed.
Lemma adds_if : forall n h s, s_pfx s = "bonmin." -> adds [] (if asked n (s_opt s) then [h] else []) s (heu_if n h s).
Proof.
  intros n h s E. unfold heu_if.
  assert (Y : yes n s = asked n (s_opt s)) by (unfold yes, gi, asked, value; rewrite E; reflexivity).
  rewrite Y. destruct (asked n (s_opt s)); [apply adds_add; exact E | apply adds_nil].
Qed.
Lemma asked_same : forall W o o' n, same W o o' -> In n options -> ~ In n W -> asked n o' = asked n o /\ given n o' = given n o.
Proof. intros W o o' n H I N. unfold asked, given, value. rewrite (H n I N). split; reflexivity. Qed.
(** A step that reads [n] from a state that differs from the first one in W only. *)
Lemma adds_step : forall W l s t n h, s_pfx s = "bonmin." -> In n options -> ~ In n W -> adds W l s t ->
  adds W (l ++ if asked n (s_opt s) then [h] else []) s (heu_if n h t).
Proof.
  intros W l s t n h E I N A. eapply adds_comp; [exact A|].
  destruct A as (A1 & _ & A3 & _). destruct (asked_same _ _ _ _ A3 I N) as [<- _].
  apply adds_weak with []; [intros ? []|]. apply adds_if. congruence.
Qed.
(** The same with a default of "yes" written back. *)
Definition heu_yes (n : string) (h : heu) (s : setup) : setup :=
  if snd (gi n s) then heu_if n h s else add_heu h (wopt (seti (s_pfx s ++ n) 1 (s_opt s)) s).
Lemma adds_step_yes : forall W l s t n h, s_pfx s = "bonmin." -> In n options -> ~ In n W -> adds W l s t ->
  adds (n :: W) (l ++ if (negb (given n (s_opt s)) || asked n (s_opt s))%bool then [h] else []) s (heu_yes n h t).
Proof.
  intros W l s t n h E I N A. eapply adds_comp; [eapply adds_weak; [|exact A]; intros k; right; exact H|].
  destruct A as (A1 & _ & A3 & _). destruct (asked_same _ _ _ _ A3 I N) as [Ea Eg]. rewrite <- Ea, <- Eg.
  assert (T : s_pfx t = "bonmin.") by congruence.
  unfold heu_yes.
  assert (G : snd (gi n t) = given n (s_opt t)) by (unfold gi, given; rewrite T; reflexivity).
  rewrite G. destruct (given n (s_opt t)) eqn:Gv; cbn [negb orb].
  - apply adds_weak with []; [intros ? []|]. apply adds_if. exact T.
  - apply (adds_comp _ [] [h] t (wopt (seti (s_pfx t ++ n) 1 (s_opt t)) t)).
    + unfold adds. rewrite app_nil_r. cbn [s_pfx s_heus s_opt wopt]. rewrite T. split; [reflexivity|]. split; [reflexivity|]. split.
      * apply same_main. left. reflexivity.
      * apply given_new. exact Gv.
    + apply adds_weak with []; [intros ? []|]. apply adds_add. exact T.
Qed.
Lemma bbb_heus_eq : forall P s, bbb_heuristics P s =
  heu_if "MILP_rounding_heuristic" HMilpRounding (heu_if "pump_for_minlp" HPumpMinlp
   (heu_if "heuristic_local_branching" HLocalBranching (heu_if "heuristic_RINS" HRins
   (heu_if "dummy_pump_heuristic" HDummyPump (heu_if "fix_and_solve_heuristic" HFixSolve
   (let s := heu_if "heuristic_dive_MIP_vectorLength" HDiveMipVec
      (heu_yes "heuristic_dive_MIP_fractional" HDiveMipFrac
      (heu_if "heuristic_dive_vectorLength" HDiveVec (heu_if "heuristic_dive_fractional" HDiveFrac s))) in
    if p_genint P then s else heu_yes "heuristic_feasibility_pump" HFPump s)))))).
Proof. reflexivity. Qed.
Lemma filter_cons_if : forall {A} (f : A -> bool) a l, filter f (a :: l) = ((if f a then [a] else []) ++ filter f l)%list.
Proof. intros A f a l. cbn. destruct (f a); reflexivity. Qed.
Ltac notin := cbn; intuition discriminate.
Lemma bbb_heus_adds : forall P s, s_pfx s = "bonmin." ->
  adds ["heuristic_feasibility_pump"; "heuristic_dive_MIP_fractional"] (filter (runs_bbb (p_genint P) (s_opt s)) order_bbb) s (bbb_heuristics P s).
Proof.
  intros P s E. rewrite bbb_heus_eq. unfold order_bbb. rewrite !filter_cons_if. cbn [filter runs_bbb heu_option]. rewrite app_nil_r.
  rewrite !app_assoc.
  do 6 (apply adds_step; [exact E | inopt | notin |]).
  cbv zeta.
  assert (A : adds ["heuristic_dive_MIP_fractional"]
     (((((if asked "heuristic_dive_fractional" (s_opt s) then [HDiveFrac] else []) ++
       (if asked "heuristic_dive_vectorLength" (s_opt s) then [HDiveVec] else [])) ++
       (if (negb (given "heuristic_dive_MIP_fractional" (s_opt s)) || asked "heuristic_dive_MIP_fractional" (s_opt s))%bool then [HDiveMipFrac] else [])) ++
       (if asked "heuristic_dive_MIP_vectorLength" (s_opt s) then [HDiveMipVec] else [])))%list s
     (heu_if "heuristic_dive_MIP_vectorLength" HDiveMipVec
      (heu_yes "heuristic_dive_MIP_fractional" HDiveMipFrac
      (heu_if "heuristic_dive_vectorLength" HDiveVec (heu_if "heuristic_dive_fractional" HDiveFrac s))))).
  { apply adds_step; [exact E | inopt | notin |]. apply adds_step_yes; [exact E | inopt | notin |].
    apply adds_step; [exact E | inopt | notin |].
    change (if asked "heuristic_dive_fractional" (s_opt s) then [HDiveFrac] else [])
      with ([] ++ if asked "heuristic_dive_fractional" (s_opt s) then [HDiveFrac] else [])%list.
    apply adds_step; [exact E | inopt | notin |]. apply adds_nil. }
  destruct (p_genint P); cbn [negb andb].
  - rewrite app_nil_r. eapply adds_weak; [|exact A]. intros k K. right. exact K.
  - apply adds_step_yes; [exact E | inopt | notin |]. exact A.
Qed.
Lemma hyb_heus_adds : forall s, s_pfx s = "bonmin." -> adds [] (filter (runs_hyb (s_opt s)) order_hyb) s (hyb_heuristics s).
Proof.
  intros s E. unfold hyb_heuristics. cbv zeta. unfold order_hyb. rewrite !filter_cons_if. cbn [filter runs_hyb heu_option]. rewrite app_nil_r.
  rewrite !app_assoc.
  do 7 (apply adds_step; [exact E | inopt | notin |]).
  apply adds_add. exact E.
Qed.

(** * initialize on a new set-up *)
Definition start (o : opts) : setup := walgo (Some (value "algorithm" o)) (gather (wnobj [] (init o))).
Lemma start_same : forall o, same (forced_vs (value "variable_selection" o)) o (s_opt (start o)).
Proof. intros o. apply (gather_same (wnobj [] (init o))). reflexivity. Qed.
Lemma start_keeps : forall o, keeps o (s_opt (start o)).
Proof. intros o. apply (gather_keeps (wnobj [] (init o))). Qed.
Lemma forced_vs_not : forall vs n, n <> "number_strong_branch" -> n <> "number_before_trust" -> ~ In n (forced_vs vs).
Proof.
  intros vs n N1 N2. unfold forced_vs. destruct (Z.eqb vs 0); [|destruct (Z.eqb vs 2)]; cbn; intuition congruence.
Qed.
Lemma gather_algorithm : forall o, getAlgorithm (gather (wnobj [] (init o))) = value "algorithm" o.
Proof.
  intros o. pose proof (gather_rest (wnobj [] (init o))) as (A & B & _). unfold getAlgorithm. rewrite B. cbn [s_algo wnobj init].
  unfold gi. rewrite A. cbn [s_pfx wnobj init]. unfold value.
  rewrite (gather_same (wnobj [] (init o)) eq_refl "algorithm"); [reflexivity | inopt |].
  apply forced_vs_not; discriminate.
Qed.
Lemma start_rest : forall o, s_pfx (start o) = "bonmin." /\ s_algo (start o) = Some (value "algorithm" o) /\ s_nobj (start o) = [] /\
  s_cont (start o) = CNull /\ s_gens (start o) = [] /\ s_heus (start o) = [] /\ s_brm (start o) = None /\
  getAlgorithm (start o) = value "algorithm" o.
Proof.
  intros o. pose proof (gather_rest (wnobj [] (init o))) as (A & B & C & D & E & F & G).
  unfold start. cbn [walgo s_pfx s_algo s_nobj s_cont s_gens s_heus s_brm]. rewrite A, C, D, E, F, G. repeat split.
Qed.
Lemma initialize_eq : forall P c dt o, initialize P c dt (init o) =
  if Z.eqb (value "algorithm" o) 0 then initializeBBB P (start o) else initializeBHyb P c dt (start o).
Proof. intros P c dt o. unfold initialize, start. cbv zeta. rewrite gather_algorithm. reflexivity. Qed.

(** Values at the end. *)
Lemma bbb_values : forall P o s, initializeBBB P (start o) = Ok s ->
  same (forced_vs (value "variable_selection" o) ++ ["number_before_trust"; "number_strong_branch"; "variable_selection";
        "heuristic_feasibility_pump"; "heuristic_dive_MIP_fractional"]) o (s_opt s) /\
  keep_given (s_opt (start o)) (s_opt s) /\ s_heus s = filter (runs_bbb (p_genint P) o) order_bbb.
Proof.
  intros P o s H. apply initializeBBB_inv in H. destruct H as (u & H1 & -> & _).
  apply bbb_branching_same in H1. destruct H1 as (Eo & Ep & _ & _ & _ & _ & Eh).
  destruct (start_rest o) as (S1 & S2 & S3 & S4 & S5 & S6 & S7 & S8).
  destruct (bbb_start_opt (start o) S1) as [A1 A2].
  destruct (bbb_start_rest (start o)) as (B & _). rewrite S1 in B.
  destruct (bbb_opts_opt _ B) as [C1 C2]. rewrite <- Eo in C1, C2.
  assert (U : s_pfx u = "bonmin.") by congruence.
  destruct (bbb_heus_adds P u U) as (_ & D2 & D3 & D4).
  set (W := (forced_vs (value "variable_selection" o) ++ ["number_before_trust"; "number_strong_branch"; "variable_selection";
        "heuristic_feasibility_pump"; "heuristic_dive_MIP_fractional"])%list).
  assert (W1 : same W o (s_opt (start o))) by (eapply same_weak; [|apply start_same]; subst W; apply incl_appl, incl_refl).
  assert (W2 : same W o (s_opt u)).
  { eapply same_comp; [exact W1|]. eapply same_comp; eapply same_weak; try eassumption;
      subst W; apply incl_appr; intros k; cbn; tauto. }
  split; [|split].
  - eapply same_comp; [exact W2|]. eapply same_weak; [|exact D3]. subst W; apply incl_appr; intros k; cbn; tauto.
  - eapply given_comp; [exact A2|]. eapply given_comp; [exact C2|]. exact D4.
  - rewrite D2, Eh, S6. cbn [app].
    assert (X : same (forced_vs (value "variable_selection" o) ++ ["number_before_trust"; "number_strong_branch"; "variable_selection"]) o (s_opt u)).
    { eapply same_comp; [eapply same_weak; [|apply start_same]; apply incl_appl, incl_refl|].
      eapply same_comp; eapply same_weak; try eassumption; apply incl_appr; intros k; cbn; tauto. }
    clear - X. unfold order_bbb. apply filter_ext_in. intros h I.
    assert (F : forall n, In n options -> n <> "number_strong_branch" -> n <> "number_before_trust" -> n <> "variable_selection" ->
      asked n (s_opt u) = asked n o /\ given n (s_opt u) = given n o).
    { intros n J N1 N2 N3. apply (asked_same _ _ _ _ X J). intros K. apply in_app_or in K. destruct K as [K|K].
      - revert K. apply forced_vs_not; assumption.
      - cbn in K. intuition congruence. }
    destruct h; cbn [runs_bbb heu_option];
      repeat match goal with
      | |- context[asked ?n (s_opt u)] => rewrite (proj1 (F n ltac:(inopt) ltac:(discriminate) ltac:(discriminate) ltac:(discriminate)))
      | |- context[given ?n (s_opt u)] => rewrite (proj2 (F n ltac:(inopt) ltac:(discriminate) ltac:(discriminate) ltac:(discriminate)))
      end; reflexivity.
Qed.
Lemma hyb_values : forall P c dt o s, initializeBHyb P c dt (start o) = Ok s ->
  let a := value "algorithm" o in
  same (forced a (value "variable_selection" o) ++ bare_a a) o (s_opt s) /\
  (forall n, In n options -> geti "bonmin." n (s_opt s) = geti "bonmin." n (presets a "bonmin." "" (s_opt (start o)))) /\
  s_heus s = filter (runs_hyb o) order_hyb.
Proof.
  intros P c dt o s H a. apply initializeBHyb_inv in H.
  destruct (start_rest o) as (S1 & S2 & S3 & S4 & S5 & S6 & S7 & S8). rewrite S8 in H.
  destruct H as (u & v & H1 & Ev & O & _ & _ & _ & _ & _ & _ & Hh & _).
  apply hyb_branching_same in H1. destruct H1 as (Eo & Ep & _ & _ & _ & _ & Eh).
  destruct (hyb_start_rest c (start o)) as (B1 & B2 & _ & _ & _ & _ & _ & B8 & _).
  rewrite S1, S8 in B1. fold a in B1. change (sub_prefix "bonmin.") with "" in B1.
  destruct (same_hyb_gens a u) as ((Gp & _) & Go & Gh). fold a in Ev. set (w := hyb_gens a u) in *. clearbody w.
  assert (U : s_pfx w = "bonmin.") by congruence.
  destruct (hyb_heus_adds w U) as (_ & D2 & D3 & _). rewrite <- Ev in D2, D3. clear Ev.
  rewrite Go, Eo, B1 in D3. rewrite <- O in D3.
  assert (X : same (forced a (value "variable_selection" o) ++ bare_a a) o (s_opt w)).
  { rewrite Go, Eo, B1, forced_eq. rewrite <- app_assoc.
    eapply same_comp; [eapply same_weak; [|apply start_same]; apply incl_appl, incl_refl|].
    eapply same_weak; [|apply presets_same]. apply incl_appr, incl_refl. }
  split; [|split].
  - eapply same_comp; [exact X|]. intros n I _. rewrite Go, Eo, B1. apply D3; [exact I | intros []].
  - intros n I. apply D3; [exact I | intros []].
  - rewrite Hh, D2, Gh, Eh, B8, S6. cbn [app].
    clear - X. unfold order_hyb. apply filter_ext_in. intros h I.
    assert (F : forall n, In n options -> ~ In n (["number_strong_branch"; "number_before_trust"; "oa_decomposition"; "pump_for_minlp"; "nlp_solve_frequency"; "filmint_ecp_cuts"; "fp_pass_infeasible"; "bb_log_level"]) ->
      asked n (s_opt w) = asked n o).
    { intros n J N. apply (asked_same _ _ _ _ X J). intros K. apply N. clear - K. rewrite forced_eq in K.
      apply in_app_or in K. destruct K as [K|K]; [apply in_app_or in K; destruct K as [K|K]|].
      - unfold forced_vs in K. destruct (Z.eqb _ 0); [|destruct (Z.eqb _ 2)]; cbn in *; tauto.
      - unfold forced_a in K. clearbody a. destruct a as [|p|p]; try contradiction. do 3 (try destruct p as [p|p|]; try contradiction); cbn in *; tauto.
      - unfold bare_a in K. destruct (Z.eqb a 1); cbn in *; tauto. }
    destruct h; cbn in I; try (exfalso; intuition discriminate); cbn [runs_hyb heu_option]; try reflexivity;
      (rewrite F; [reflexivity | inopt | notin]).
Qed.

(** * Parameters *)
Lemma int_doc : forall q, int_opt q = doc_int q.
Proof. destruct q; reflexivity. Qed.
Lemma num_doc : forall q, num_opt q = doc_num q.
Proof. destruct q; reflexivity. Qed.
Lemma start_ip : forall o q, s_ip (start o) q =
  let vs := value "variable_selection" o in
  match q with
  | NumberStrong => if Z.eqb vs 0 then 0%Z else value "number_strong_branch" o
  | MinReliability => if Z.eqb vs 0 then 0%Z else if Z.eqb vs 2 then 10%Z else value "number_before_trust" o
  | SpecialOption => 0%Z
  | q => match int_opt q with Some n => value n o | None => 0%Z end
  end.
Proof.
  intros o q. unfold start, gather. cbv zeta. cbn [s_opt s_pfx wnobj init walgo]. fold (value "variable_selection" o).
  destruct (Z.eqb (value "variable_selection" o) 0); [|destruct (Z.eqb (value "variable_selection" o) 2)]; destruct q; reflexivity.
Qed.
Lemma start_opt : forall o, s_opt (start o) =
  let vs := value "variable_selection" o in
  if Z.eqb vs 0 then seti ("bonmin." ++ "number_before_trust") 0 (seti ("bonmin." ++ "number_strong_branch") 0 o)
  else if Z.eqb vs 2 then seti ("bonmin." ++ "number_before_trust") 10 o else o.
Proof.
  intros o. unfold start, gather. cbv zeta. cbn [s_opt s_pfx wnobj init walgo]. fold (value "variable_selection" o).
  destruct (Z.eqb (value "variable_selection" o) 0); [|destruct (Z.eqb (value "variable_selection" o) 2)]; reflexivity.
Qed.
Lemma geti_main_self : forall n v o, geti "bonmin." n (seti ("bonmin." ++ n) v o) =
  (match find ("bonmin." ++ n) (o_int o) with Some e => if e_clob e then v else e_val e | None => v end, true).
Proof.
  intros n v o. unfold geti, look, seti. cbn [o_int]. rewrite find_put_self.
  destruct (find ("bonmin." ++ n) (o_int o)) as [e|]; [destruct (e_clob e)|]; reflexivity.
Qed.
Lemma par_default_ip : forall q n v s, s_pfx s = "bonmin." -> s_ip (par_default q n v s) q =
  if given n (s_opt s) then value n (s_opt s) else v.
Proof.
  intros q n v s E. unfold par_default, gi, given, value. rewrite E.
  destruct (snd (geti "bonmin." n (s_opt s))); cbn; destruct (ipar_dec q q); congruence.
Qed.
Lemma bbb_ip : forall o q, value "algorithm" o = 0%Z -> s_ip (bbb_start (start o)) q = par_value o q.
Proof.
  intros o q A. unfold bbb_start. set (u := wip SpecialOption 16 (wcont CNlp (start o))).
  destruct (start_rest o) as (S1 & _).
  assert (U : s_pfx u = "bonmin.") by exact S1.
  assert (Uo : s_opt u = s_opt (start o)) by reflexivity.
  assert (Ui : forall r, s_ip u r = if ipar_dec SpecialOption r then 16%Z else s_ip (start o) r) by reflexivity.
  clearbody u.
  destruct (par_default_rest MinReliability "number_before_trust" 1%Z u) as (B1 & _ & _ & _ & _ & _ & _ & _ & _ & _ & B11).
  pose proof (par_default_ip MinReliability "number_before_trust" 1%Z u U) as B12.
  pose proof (par_default_same MinReliability "number_before_trust" 1%Z u U) as B13.
  set (w := par_default MinReliability "number_before_trust" 1%Z u) in *. clearbody w. rewrite U in B1.
  destruct (par_default_rest NumberStrong "number_strong_branch" 1000%Z w) as (_ & _ & _ & _ & _ & _ & _ & _ & _ & _ & C11).
  pose proof (par_default_ip NumberStrong "number_strong_branch" 1000%Z w B1) as C12.
  set (z := par_default NumberStrong "number_strong_branch" 1000%Z w) in *. clearbody z.
  unfold par_value. cbv zeta. rewrite A. cbn [Z.eqb].
  assert (R : forall r, r <> NumberStrong -> r <> MinReliability -> r <> SpecialOption -> s_ip z r = s_ip (start o) r).
  { intros r N1 N2 N3. rewrite C11, B11, Ui by assumption. destruct (ipar_dec SpecialOption r); congruence. }
  destruct q; try (rewrite R by discriminate; rewrite start_ip; reflexivity).
  - (* NumberStrong *)
    rewrite C12.
    assert (G : geti "bonmin." "number_strong_branch" (s_opt w) = geti "bonmin." "number_strong_branch" (s_opt (start o))).
    { rewrite (B13 "number_strong_branch"); [rewrite Uo; reflexivity | inopt | notin]. }
    unfold given, value at 1. rewrite G. rewrite start_opt. cbv zeta.
    destruct (Z.eqb (value "variable_selection" o) 0); [|destruct (Z.eqb (value "variable_selection" o) 2)].
    + rewrite (geti_main "number_before_trust") by (try inopt; discriminate). rewrite geti_main_self. reflexivity.
    + rewrite (geti_main "number_before_trust") by (try inopt; discriminate). reflexivity.
    + reflexivity.
  - (* MinReliability *)
    rewrite C11, B12 by discriminate. unfold given, value at 1. rewrite Uo, start_opt. cbv zeta.
    destruct (Z.eqb (value "variable_selection" o) 0); [|destruct (Z.eqb (value "variable_selection" o) 2)].
    + rewrite geti_main_self. cbn [snd fst].
      replace (find ("bonmin." ++ "number_before_trust") (o_int (seti ("bonmin." ++ "number_strong_branch") 0 o)))
        with (find ("bonmin." ++ "number_before_trust") (o_int o)); [reflexivity|].
      unfold seti. cbn [o_int]. rewrite find_put_other by reflexivity. reflexivity.
    + rewrite geti_main_self. reflexivity.
    + unfold value at 1. unfold given. destruct (snd (geti "bonmin." "number_before_trust" o)); reflexivity.
  - (* SpecialOption *) rewrite C11, B11, Ui by discriminate. reflexivity.
Qed.
Lemma hyb_ip : forall c o q, value "algorithm" o <> 0%Z -> s_ip (hyb_start c (start o)) q = par_value o q.
Proof.
  intros c o q A. destruct (hyb_start_rest c (start o)) as (_ & _ & _ & _ & _ & _ & _ & _ & _ & H). rewrite H. clear H.
  destruct (start_rest o) as (_ & _ & _ & _ & _ & _ & _ & ->).
  apply Z.eqb_neq in A. rewrite start_ip. unfold par_value. cbv zeta. rewrite A. cbn [andb].
  destruct (Z.eqb (value "algorithm" o) 5); destruct q; cbn [int_opt]; try reflexivity;
    try (destruct (ipar_dec BabLogLevel _) as [E|E]; [discriminate E|]; reflexivity);
    try (destruct (ipar_dec BabLogLevel BabLogLevel) as [E|E]; [reflexivity | congruence]);
    try (destruct (Z.eqb (value "variable_selection" o) 0); [|destruct (Z.eqb (value "variable_selection" o) 2)]; reflexivity);
    try (destruct (ipar_dec BabLogLevel _) as [E|E]; [discriminate E|];
         destruct (Z.eqb (value "variable_selection" o) 0); [|destruct (Z.eqb (value "variable_selection" o) 2)]; reflexivity).
Qed.
Lemma start_dp : forall o q, s_dp (start o) q = nvalue (num_opt q) o.
Proof. intros o q. exact (gather_dp (wnobj [] (init o)) q). Qed.
Lemma parameters : forall P c dt o s q, initialize P c dt (init o) = Ok s -> s_ip s q = par_value o q.
Proof.
  intros P c dt o s q H. rewrite initialize_eq in H. destruct (Z.eqb (value "algorithm" o) 0) eqn:A.
  - apply Z.eqb_eq in A. apply initializeBBB_inv in H. destruct H as (u & H1 & _ & ((_ & E & _) & _)).
    rewrite E. apply bbb_branching_same in H1. destruct H1 as (_ & _ & -> & _). apply bbb_ip; exact A.
  - apply Z.eqb_neq in A. apply initializeBHyb_inv in H. destruct (start_rest o) as (_ & _ & _ & _ & _ & _ & _ & S8). rewrite S8 in H.
    destruct H as (u & v & H1 & Ev & _ & _ & Hi & _). rewrite Hi.
    pose proof (same_hyb_heus (hyb_gens (value "algorithm" o) u)) as ((_ & E & _) & _). rewrite <- Ev in E. rewrite E. clear Ev E.
    pose proof (same_hyb_gens (value "algorithm" o) u) as ((_ & E & _) & _). rewrite E. clear E.
    apply hyb_branching_same in H1. destruct H1 as (_ & _ & -> & _). apply hyb_ip; exact A.
Qed.
Lemma num_parameters : forall P c dt o s q, initialize P c dt (init o) = Ok s -> s_dp s q = num_value o dt q.
Proof.
  intros P c dt o s q H. rewrite initialize_eq in H. unfold num_value. destruct (Z.eqb (value "algorithm" o) 0) eqn:A.
  - apply initializeBBB_inv in H. destruct H as (u & H1 & _ & ((_ & _ & E & _) & _)).
    rewrite E. apply bbb_branching_same in H1. destruct H1 as (_ & _ & _ & -> & _). rewrite start_dp. destruct q; reflexivity.
  - apply initializeBHyb_inv in H. destruct (start_rest o) as (_ & _ & _ & _ & _ & _ & _ & S8). rewrite S8 in H.
    destruct H as (u & v & H1 & Ev & _ & _ & _ & _ & _ & _ & _ & _ & _ & Hd). rewrite Hd.
    pose proof (same_hyb_heus (hyb_gens (value "algorithm" o) u)) as ((_ & _ & E & _) & _). rewrite <- Ev in E. rewrite E. clear Ev E.
    pose proof (same_hyb_gens (value "algorithm" o) u) as ((_ & _ & E & _) & _). rewrite E. clear E.
    apply hyb_branching_same in H1. destruct H1 as (_ & _ & _ & -> & _).
    destruct (hyb_start_rest c (start o)) as (_ & _ & -> & _).
    destruct q; rewrite ?start_dp; try reflexivity.
Qed.

(** * Cut generators *)
Definition one (p : string) (o : opts) (n : string) (k : gkind) : list gen :=
  if Z.eqb (fst (geti p n o)) 0 then [] else [plain_gen k (fst (geti p n o))].
Fixpoint milps (p : string) (o : opts) (k : nat) (l : list string) : list gen :=
  match l with [] => [] | n :: l => (one p o n (GMilp k) ++ milps p o (S k) l)%list end.
Definition dec1 (n : string) (k : gkind) (sub : string) (s : setup) : list gen :=
  if negb (Z.eqb (fst (gi n s)) 0) then [mkGen k (-99) false true false (Some (dec_limits sub s))] else [].
Lemma gen_if_gens : forall n k s, s_gens (gen_if n k s) = (s_gens s ++ one (s_pfx s) (s_opt s) n k)%list.
Proof. intros n k s. unfold gen_if, one, gi. cbv zeta. destruct (Z.eqb _ 0); [rewrite app_nil_r; reflexivity | reflexivity]. Qed.
Lemma milp_gens : forall l k s, s_gens (add_milp k l s) = (s_gens s ++ milps (s_pfx s) (s_opt s) k l)%list.
Proof.
  induction l as [|n l IH]; intros k s; cbn [add_milp milps]; [rewrite app_nil_r; reflexivity|].
  rewrite IH, gen_if_gens. destruct (same_gens_if n (GMilp k) s) as ((-> & _) & -> & _). rewrite app_assoc. reflexivity.
Qed.
Lemma dec_gens : forall n k sub s, s_gens (dec_gen_if n k sub s) = (s_gens s ++ dec1 n k sub s)%list.
Proof. intros n k sub s. unfold dec_gen_if, dec1, yes. destruct (negb _); [reflexivity | rewrite app_nil_r; reflexivity]. Qed.
Lemma dec1_same : forall n k sub s t, same_gens s t -> dec1 n k sub t = dec1 n k sub s.
Proof.
  intros n k sub s t ((A & B & C & _) & D & _). unfold dec1, dec_limits, gi. rewrite A, B, C, D. reflexivity.
Qed.
Definition pre_gens (a : Z) (s : setup) : list gen :=
  (one (s_pfx s) (s_opt s) "nlp_solve_frequency" GNlp ++ one (s_pfx s) (s_opt s) "filmint_ecp_cuts" GEcp ++
   (if (Z.eqb a 3 || Z.eqb a 4)%bool then milps (s_pfx s) (s_opt s) 0 milp_opts else []) ++
   dec1 "pump_for_minlp" GPump "pump_for_minlp." s ++ dec1 "oa_decomposition" GOa "oa_decomposition." s)%list.
Lemma hyb_gens_list : forall a s, s_gens (hyb_gens a s) = (s_gens s ++ pre_gens a s ++ [check_all; check_sol])%list.
Proof.
  intros a s. unfold hyb_gens. cbv zeta.
  set (s1 := gen_if "nlp_solve_frequency" GNlp s).
  assert (A1 : same_gens s s1) by apply same_gens_if.
  assert (L1 : s_gens s1 = (s_gens s ++ one (s_pfx s) (s_opt s) "nlp_solve_frequency" GNlp)%list) by apply gen_if_gens.
  clearbody s1. set (s2 := gen_if "filmint_ecp_cuts" GEcp s1).
  assert (A2 : same_gens s s2) by (eapply same_gens_trans; [exact A1 | apply same_gens_if]).
  assert (L2 : s_gens s2 = (s_gens s1 ++ one (s_pfx s) (s_opt s) "filmint_ecp_cuts" GEcp)%list).
  { subst s2. rewrite gen_if_gens. destruct A1 as ((-> & _) & -> & _). reflexivity. }
  clearbody s2. set (s3 := if (Z.eqb a 3 || Z.eqb a 4)%bool then add_milp 0 milp_opts s2 else s2).
  assert (A3 : same_gens s s3).
  { subst s3. destruct (_ || _)%bool; [eapply same_gens_trans; [exact A2 | apply same_gens_milp] | exact A2]. }
  assert (L3 : s_gens s3 = (s_gens s2 ++ if (Z.eqb a 3 || Z.eqb a 4)%bool then milps (s_pfx s) (s_opt s) 0 milp_opts else [])%list).
  { subst s3. destruct (_ || _)%bool; [|rewrite app_nil_r; reflexivity]. rewrite milp_gens. destruct A2 as ((-> & _) & -> & _). reflexivity. }
  clearbody s3. set (s4 := dec_gen_if "pump_for_minlp" GPump "pump_for_minlp." s3).
  assert (A4 : same_gens s s4) by (eapply same_gens_trans; [exact A3 | apply same_gens_dec]).
  assert (L4 : s_gens s4 = (s_gens s3 ++ dec1 "pump_for_minlp" GPump "pump_for_minlp." s)%list).
  { subst s4. rewrite dec_gens. rewrite (dec1_same _ _ _ _ _ A3). reflexivity. }
  clearbody s4. set (s5 := dec_gen_if "oa_decomposition" GOa "oa_decomposition." s4).
  assert (L5 : s_gens s5 = (s_gens s4 ++ dec1 "oa_decomposition" GOa "oa_decomposition." s)%list).
  { subst s5. rewrite dec_gens. rewrite (dec1_same _ _ _ _ _ A4). reflexivity. }
  clearbody s5. cbn [wgen s_gens]. rewrite L5, L4, L3, L2, L1. unfold pre_gens. rewrite <- !app_assoc. reflexivity.
Qed.
Definition no_check (l : list gen) : Prop := filter is_check l = [].
Lemma one_nocheck : forall p o n k, (forall b, k <> GCheck b) -> filter is_check (one p o n k) = [].
Proof. intros p o n k N. unfold one. destruct (Z.eqb _ 0); [reflexivity|]. destruct k; try reflexivity. destruct (N reassign eq_refl). Qed.
Lemma milps_nocheck : forall p o l k, filter is_check (milps p o k l) = [].
Proof.
  induction l as [|n l IH]; intros k; cbn [milps]; [reflexivity|]. rewrite filter_app, IH, one_nocheck by discriminate. reflexivity.
Qed.
Lemma pre_nocheck : forall a s, filter is_check (pre_gens a s) = [].
Proof.
  intros a s. unfold pre_gens. rewrite !filter_app, !one_nocheck by discriminate.
  assert (M : filter is_check (if (Z.eqb a 3 || Z.eqb a 4)%bool then milps (s_pfx s) (s_opt s) 0 milp_opts else []) = []).
  { destruct (_ || _)%bool; [apply milps_nocheck | reflexivity]. }
  rewrite M. unfold dec1. destruct (negb _), (negb _); reflexivity.
Qed.
Lemma one_milp : forall p o n k j, filter (is_milp j) (one p o n k) =
  if (Z.eqb (fst (geti p n o)) 0 || negb (is_milp j (plain_gen k 0)))%bool then [] else [plain_gen k (fst (geti p n o))].
Proof.
  intros p o n k j. unfold one. destruct (Z.eqb _ 0); cbn [filter orb]; [reflexivity|].
  destruct k; cbn; try reflexivity. destruct (Nat.eqb k j); reflexivity.
Qed.
Lemma milps_milp : forall p o l i j, filter (is_milp j) (milps p o i l) =
  if Nat.ltb j i then [] else match nth_error l (j - i) with Some n => one p o n (GMilp j) | None => [] end.
Proof.
  induction l as [|n l IH]; intros i j; cbn [milps].
  - cbn [filter]. destruct (Nat.ltb j i); [reflexivity|]. destruct (j - i)%nat; reflexivity.
  - rewrite filter_app, IH, one_milp. cbn [is_milp g_kind plain_gen].
    destruct (Nat.ltb_spec j i), (Nat.ltb_spec j (S i)); try lia.
    + destruct (Nat.eqb_spec i j); [lia|]. rewrite orb_true_r. reflexivity.
    + assert (j = i) by lia. subst. rewrite Nat.eqb_refl, Nat.sub_diag. cbn [nth_error negb]. rewrite orb_false_r.
      unfold one. destruct (Z.eqb _ 0); reflexivity.
    + destruct (Nat.eqb_spec i j); [lia|]. rewrite orb_true_r. cbn [app].
      replace (j - i)%nat with (S (j - S i)) by lia. reflexivity.
Qed.
Lemma pre_milp : forall a s k, filter (is_milp k) (pre_gens a s) =
  if (Z.eqb a 3 || Z.eqb a 4)%bool
  then match nth_error milp_opts k with Some n => one (s_pfx s) (s_opt s) n (GMilp k) | None => [] end else [].
Proof.
  intros a s k. unfold pre_gens. rewrite !filter_app, !one_milp. cbn [is_milp g_kind plain_gen negb]. rewrite !orb_true_r.
  cbn [app].
  assert (D : forall n j sub, (forall i, j <> GMilp i) -> filter (is_milp k) (dec1 n j sub s) = []).
  { intros n j sub N. unfold dec1. destruct (negb _); [|reflexivity]. destruct j; try reflexivity. destruct (N k0 eq_refl). }
  rewrite !D by discriminate. rewrite !app_nil_r.
  destruct (_ || _)%bool; [|reflexivity]. rewrite milps_milp. cbn [Nat.ltb Nat.leb]. rewrite Nat.sub_0_r. reflexivity.
Qed.
(** The generators of a set-up. *)
Lemma hyb_result_gens : forall P c dt o s, initializeBHyb P c dt (start o) = Ok s -> exists u,
  s_gens s = (pre_gens (value "algorithm" o) u ++ [check_all; check_sol])%list /\ s_pfx u = "bonmin." /\
  s_opt u = presets (value "algorithm" o) "bonmin." "" (s_opt (start o)) /\
  s_ip u = s_ip s /\ s_dp u = s_dp (start o).
Proof.
  intros P c dt o s H. apply initializeBHyb_inv in H. destruct (start_rest o) as (S1 & S2 & S3 & S4 & S5 & S6 & S7 & S8). rewrite S8 in H.
  destruct H as (u & v & H1 & Ev & _ & _ & Hi & _ & _ & _ & Hg & _). exists u.
  pose proof (same_hyb_heus (hyb_gens (value "algorithm" o) u)) as ((_ & E & _) & _ & G). rewrite <- Ev in E, G. clear Ev.
  pose proof (same_hyb_gens (value "algorithm" o) u) as ((_ & F & _) & _).
  apply hyb_branching_same in H1. destruct H1 as (A & B & C & D & _ & K & _).
  destruct (hyb_start_rest c (start o)) as (X1 & X2 & X3 & _ & _ & _ & X7 & _).
  rewrite Hg, G, hyb_gens_list, K, X7, S5. rewrite S1, S8 in X1. change (sub_prefix "bonmin.") with "" in X1.
  repeat split; congruence.
Qed.
Lemma bbb_result_gens : forall P o s, initializeBBB P (start o) = Ok s -> s_gens s = [].
Proof.
  intros P o s H. apply initializeBBB_inv in H. destruct H as (u & H1 & _ & (_ & _ & G)). rewrite G.
  apply bbb_branching_same in H1. destruct H1 as (_ & _ & _ & _ & _ & -> & _).
  destruct (start_rest o) as (_ & _ & _ & _ & S5 & _). exact S5.
Qed.

(** * Presets *)
Lemma preset_value : forall a o n v, In (n, v) (preset_table a) ->
  find ("bonmin." ++ n) (o_int o) = None -> (a = 1%Z -> n = "nlp_solve_frequency" -> find n (o_int o) = None) ->
  value n (presets a "bonmin." "" o) = v.
Proof.
  intros a o n v I F B.
  assert (D : (a = 1 \/ a = 2 \/ a = 3 \/ a = 4 \/ a = 5)%Z).
  { unfold preset_table in I. destruct a as [|p|p]; try contradiction. do 3 (try destruct p as [p|p|]; try contradiction); cbn in I; lia || tauto. }
  unfold value, geti, look.
  destruct D as [E|[E|[E|[E|E]]]]; subst a; cbn [preset_table In] in I;
    repeat (destruct I as [I|I]; [apply pair_equal_spec in I; destruct I as [<- <-]|]);
    try contradiction; unfold presets, seti, setn; cbn [o_int o_num];
    change ("" ++ "nlp_solve_frequency") with "nlp_solve_frequency";
    repeat first [rewrite find_put_other by reflexivity | rewrite find_put_self]; rewrite ?F; try reflexivity.
  rewrite B by reflexivity. reflexivity.
Qed.

(** * Branching objects *)
Lemma rd_nth : forall {A} (d : A) l i, (i < List.length l)%nat -> rd i l = Ok (nth i l d).
Proof.
  intros A d l i H. unfold rd. destruct (nth_error l i) as [a|] eqn:E.
  - rewrite (nth_error_nth _ _ d E). reflexivity.
  - apply nth_error_None in E. lia.
Qed.
Lemma any_nz_ok : forall k i l, (i + k <= List.length l)%nat ->
  exists b, any_nz i k l = Ok b /\ (b = false -> forall j, (i <= j < i + k)%nat -> nth j l 0%Z = 0%Z).
Proof.
  induction k as [|k IH]; intros i l L; cbn [any_nz].
  - exists false. split; [reflexivity|]. intros _ j J. lia.
  - rewrite (rd_nth 0%Z) by lia. cbn [bind]. destruct (Z.eqb_spec (nth i l 0%Z) 0) as [Z0|Z0].
    + destruct (IH (S i) l) as (b & E & F); [lia|]. exists b. split; [exact E|]. intros B j J.
      destruct (Nat.eq_dec j i) as [->|N]; [exact Z0 | apply F; [exact B | lia]].
    + exists true. split; [reflexivity | discriminate].
Qed.
Lemma sos_objs_ok : forall has sp n k, match sp with Some l => (k + n <= List.length l)%nat | None => True end ->
  (has = false -> match sp with Some l => forall j, (k <= j < k + n)%nat -> nth j l 0%Z = 0%Z | None => True end) ->
  sos_objs k n has sp = Ok (map (fun j => OSos j (match sp with Some l => if Z.eqb (nth j l 0%Z) 0 then 10%Z else nth j l 0%Z | None => 10%Z end)) (seq k n)).
Proof.
  intros has sp. induction n as [|n IH]; intros k L F; cbn [sos_objs seq map]; [reflexivity|].
  assert (X : (match sp with Some l => if has then do v <- rd k l; Ok (if Z.eqb v 0 then 10%Z else v) else Ok 10%Z | None => Ok 10%Z end) =
              Ok (match sp with Some l => if Z.eqb (nth k l 0%Z) 0 then 10%Z else nth k l 0%Z | None => 10%Z end)).
  { destruct sp as [l|]; [|reflexivity]. destruct has.
    - rewrite (rd_nth 0%Z) by lia. reflexivity.
    - rewrite (F eq_refl k) by lia. reflexivity. }
  rewrite X. cbn [bind]. rewrite IH; [reflexivity | |].
  - destruct sp; [lia | exact Logic.I].
  - intros H. specialize (F H). destruct sp; [|exact Logic.I]. intros j J. apply F. lia.
Qed.
Definition sos_list (off : bool) (u : user) : list obj :=
  if off then [] else map (fun k => OSos k (sosprio_of u k)) (seq 0 (match u_sos u with Some n => n | None => 0 end)).
Lemma add_sos_ok : forall n P off m, wf n P -> (m <= n)%nat -> add_sos off (p_user P) m = Ok (sos_list off (p_user P)).
Proof.
  intros n P off m W M. destruct W. unfold add_sos, sos_list. set (u := p_user P) in *.
  destruct (u_sos u) as [k|] eqn:Sk; [|destruct off; reflexivity]. destruct k as [|k]; [destruct off; reflexivity|].
  destruct off; [reflexivity|].
  assert (A : exists a, nz m (u_prio u) = Ok a).
  { unfold nz. destruct (u_prio u) as [l|]; [|eauto]. cbn in wf_prio. destruct (any_nz_ok m 0 l) as (b & E & _); [lia|]. eauto. }
  destruct A as (a & ->). cbn [bind]. unfold nz.
  assert (B : exists b, (match u_sosp u with None => Ok false | Some l => any_nz 0 (S k) l end) = Ok b /\
    (b = false -> match u_sosp u with Some l => forall j, (0 <= j < 0 + S k)%nat -> nth j l 0%Z = 0%Z | None => True end)).
  { destruct (u_sosp u) as [l|]; [|eauto]. cbn in wf_sosp. apply any_nz_ok. lia. }
  destruct B as (b & -> & B). cbn [bind].
  rewrite sos_objs_ok; [reflexivity | |].
  - destruct (u_sosp u); [cbn in wf_sosp; lia | exact Logic.I].
  - intros H. apply orb_false_iff in H. destruct H as [_ H]. apply B. exact H.
Qed.
Lemma sos_list_cobj : forall off u, map to_cobj (sos_list off u) = sos_wanted off u.
Proof. intros off u. unfold sos_list, sos_wanted. destruct off; [reflexivity|]. rewrite map_map. reflexivity. Qed.
Lemma mapo_ok : forall {A B} (f : A -> outcome B) g l, (forall a, In a l -> f a = Ok (g a)) -> mapo f l = Ok (map g l).
Proof.
  induction l as [|a l IH]; intros H; cbn [mapo map]; [reflexivity|]. rewrite H by (left; reflexivity). cbn [bind].
  rewrite IH by (intros b I; apply H; right; exact I). reflexivity.
Qed.
Lemma cbc_ints_ok : forall n P, wf n P -> mapo (cbc_int (p_user P)) (p_icols P) =
  Ok (map (fun j => CInt j (prio_of (p_user P) j) (way_of 0 (p_user P) j) (psc_of (p_user P) j)) (p_icols P)).
Proof.
  intros n P W. apply mapo_ok. intros j I. destruct W. rewrite Forall_forall in wf_cols. specialize (wf_cols _ I).
  unfold cbc_int, prio_of, way_of, psc_of. set (u := p_user P) in *.
  destruct (u_prio u) as [lp|]; [rewrite (rd_nth 0%Z) by (cbn in *; lia)|]; cbn [bind];
  (destruct (u_dir u) as [ld|]; [rewrite (rd_nth 0%Z) by (cbn in *; lia)|]; cbn [bind]);
  (destruct (u_up u) as [lu|]; [destruct (u_down u) as [ldn|]; [rewrite !(rd_nth 0) by (cbn in *; lia)|discriminate]|]; reflexivity).
Qed.
(** With no object in the continuous solver. *)
Lemma cbc_objects_cbc : forall n P s, wf n P -> (s_cont s = CNlp /\ s_nobj s = [] \/ s_cont s = CLp []) ->
  cbc_objects P s = Ok (cbc_list P (negb (Z.eqb (s_ip s DisableSos) 0)), None).
Proof.
  intros n P s W C. unfold cbc_objects.
  assert (E : (match s_cont s with CNull => NullDeref | CNlp => Ok (s_nobj s) | CLp l => Ok l end) = Ok []).
  { destruct C as [[-> ->]| ->]; reflexivity. }
  rewrite E. cbn [bind]. rewrite (cbc_ints_ok n P W). cbn [bind].
  rewrite (add_sos_ok n P _ _ W); [|rewrite map_length; apply W]. cbn [bind]. rewrite sos_list_cobj. reflexivity.
Qed.
Definition int_objs (P : prob) : list obj := map (fun j => OInt j 1000 (-1)) (p_icols P).
Lemma find_integers_nil : forall l, find_integers l [] = map (fun j => OInt j 1000 (-1)) l.
Proof. intros l. unfold find_integers. cbn. rewrite app_nil_r. reflexivity. Qed.
Definition osi_ints (P : prob) : list obj := map (fun j => OInt j (prio_of (p_user P) j) (way_of (-1) (p_user P) j)) (p_icols P).
Lemma set_priorities_ok : forall n P l, wf n P -> set_priorities (p_user P) (int_objs P) = Ok l -> l = osi_ints P.
Proof.
  intros n P l W H. unfold set_priorities in H. unfold int_objs, osi_ints in *. destruct W. set (u := p_user P) in *.
  destruct (isnull (u_prio u) && isnull (u_dir u) && negb (isnull (u_up u)))%bool eqn:B.
  - injection H as <-. apply map_ext. intros j. unfold prio_of, way_of.
    destruct (u_prio u), (u_dir u); try discriminate B. reflexivity.
  - revert l H. rewrite Forall_forall in wf_cols. revert wf_cols. generalize (p_icols P). clear wf_num.
    induction l as [|j l IH]; intros F r H; cbn [map mapo] in H; [injection H as <-; reflexivity|].
    apply bind_ok in H. destruct H as (x & H1 & H). apply bind_ok in H. destruct H as (y & H2 & H). injection H as <-.
    cbn [map]. f_equal; [|apply IH; [intros k K; apply F; right; exact K | exact H2]].
    specialize (F j (or_introl eq_refl)). unfold set_prio1 in H1. unfold prio_of, way_of.
    destruct (u_prio u) as [lp|]; [rewrite (rd_nth 0%Z) in H1 by (cbn in *; lia)|]; cbn [bind] in H1;
    (destruct (u_dir u) as [ld|]; [rewrite (rd_nth 0%Z) in H1 by (cbn in *; lia)|]; cbn [bind] in H1);
    (destruct (u_up u); [discriminate H1 | injection H1 as <-; reflexivity]).
Qed.
(** When it is refused: pseudo-costs together with priorities or directions. *)
Lemma set_priorities_run : forall n P, wf n P -> set_priorities (p_user P) (int_objs P) =
  if (isnull (u_up (p_user P)) || isnull (u_prio (p_user P)) && isnull (u_dir (p_user P)) || match p_icols P with [] => true | _ => false end)%bool
  then Ok (osi_ints P) else Thrown.
Proof.
  intros n P W. pose proof (fun l => set_priorities_ok n P l W) as X.
  assert (Y : match set_priorities (p_user P) (int_objs P) with
              | Ok _ => (isnull (u_up (p_user P)) || isnull (u_prio (p_user P)) && isnull (u_dir (p_user P)) || match p_icols P with [] => true | _ => false end)%bool = true
              | Thrown => (isnull (u_up (p_user P)) || isnull (u_prio (p_user P)) && isnull (u_dir (p_user P)) || match p_icols P with [] => true | _ => false end)%bool = false
              | _ => False
              end).
  { clear X. unfold set_priorities, int_objs. destruct W. set (u := p_user P) in *.
    destruct (isnull (u_prio u) && isnull (u_dir u) && negb (isnull (u_up u)))%bool eqn:B.
    - apply andb_prop in B. destruct B as [B _]. rewrite B, orb_true_r. reflexivity.
    - destruct (u_up u) as [up|] eqn:U.
      + cbn [isnull negb] in *. rewrite andb_true_r in B. rewrite B. cbn [orb isnull].
        destruct (p_icols P) as [|j l]; [reflexivity|]. inversion wf_cols as [|? ? Hj Hl]; subst. cbn [map mapo set_prio1].
        destruct (u_prio u) as [lp|]; [rewrite (rd_nth 0%Z) by (cbn in *; lia)|]; cbn [bind];
        (destruct (u_dir u) as [ld|]; [rewrite (rd_nth 0%Z) by (cbn in *; lia)|]; cbn [bind]); rewrite U; reflexivity.
      + cbn [isnull orb]. rewrite (mapo_ok _ (fun o => match o with OInt j p w => OInt j (match u_prio u with Some l => nth j l 0%Z | None => p end) (match u_dir u with Some l => nth j l 0%Z | None => w end) | o => o end)); [reflexivity|].
        intros o I. apply in_map_iff in I. destruct I as (j & <- & I). rewrite Forall_forall in wf_cols. specialize (wf_cols _ I).
        unfold set_prio1. rewrite U.
        destruct (u_prio u) as [lp|]; [rewrite (rd_nth 0%Z) by (cbn in *; lia)|]; cbn [bind];
        (destruct (u_dir u) as [ld|]; [rewrite (rd_nth 0%Z) by (cbn in *; lia)|]; cbn [bind]); reflexivity. }
  destruct (set_priorities (p_user P) (int_objs P)) as [l| | | | | | |]; try contradiction.
  - rewrite Y. rewrite (X l eq_refl). reflexivity.
  - rewrite Y. reflexivity.
Qed.
Lemma vs_start : forall o, geti "bonmin." "variable_selection" (s_opt (bbb_start (start o))) = geti "bonmin." "variable_selection" o.
Proof.
  intros o. destruct (start_rest o) as (S1 & _). destruct (bbb_start_opt (start o) S1) as [A _].
  rewrite (A "variable_selection"); [|inopt | notin]. apply start_same; [inopt | apply forced_vs_not; discriminate].
Qed.
Lemma rule_range : forall v, rule_brm v = None <-> (Z.leb 3 v && Z.leb v 8)%bool = false.
Proof.
  intros v. destruct (Z.leb_spec 3 v), (Z.leb_spec v 8); cbn [andb].
  - assert (D : (v = 3 \/ v = 4 \/ v = 5 \/ v = 6 \/ v = 7 \/ v = 8)%Z) by lia.
    destruct D as [E|[E|[E|[E|[E|E]]]]]; subst; cbn; split; discriminate.
  - split; [reflexivity|]. intros _. unfold rule_brm. destruct v as [|p|p]; try reflexivity. do 4 (try destruct p as [p|p|]; try reflexivity); lia.
  - split; [reflexivity|]. intros _. unfold rule_brm. destruct v as [|p|p]; try reflexivity. do 4 (try destruct p as [p|p|]; try reflexivity); lia.
  - lia.
Qed.
Lemma bbb_osi : forall o, value "algorithm" o = 0%Z -> osi_rule o = match rule_brm (bbb_rule (bbb_start (start o))) with Some _ => true | None => false end.
Proof.
  intros o A. unfold osi_rule. rewrite A. change (Z.eqb 0 0) with true. cbv iota zeta.
  destruct (start_rest o) as (S1 & _). destruct (bbb_start_rest (start o)) as (B & _). rewrite S1 in B.
  unfold bbb_rule, gi. rewrite B, vs_start. unfold given, value. destruct (snd _); cbn [negb orb]; [|reflexivity].
  set (v := fst _). clearbody v. destruct (rule_brm v) eqn:R.
  - destruct (Z.leb 3 v && Z.leb v 8)%bool eqn:L; [reflexivity|]. apply rule_range in L. congruence.
  - apply rule_range. exact R.
Qed.
(** When the simple branch-and-bound can be set up, and with which objects. *)
Definition refused (P : prob) : bool :=
  negb (isnull (u_up (p_user P)) || isnull (u_prio (p_user P)) && isnull (u_dir (p_user P)) || match p_icols P with [] => true | _ => false end)%bool.
Lemma bbb_branching_run : forall n P o, wf n P -> value "algorithm" o = 0%Z ->
  match bbb_branching P (start o) with
  | Ok s => (osi_rule o && refused P)%bool = false /\ s_cont s = CNlp /\
            s_nobj s = (if osi_rule o then (osi_ints P ++ sos_list (sos_off o) (p_user P))%list else []) /\
            (osi_rule o = true -> s_brm s <> None)
  | Thrown => (osi_rule o && refused P)%bool = true
  | _ => False
  end.
Proof.
  intros n P o W A. rewrite (bbb_osi o A). rewrite bbb_branching_eq. cbv zeta.
  destruct (start_rest o) as (S1 & S2 & S3 & S4 & S5 & S6 & S7 & S8).
  destruct (bbb_start_rest (start o)) as (B1 & B2 & B3 & B4 & B5 & B6 & B7 & B8 & B9 & B10).
  assert (D : s_ip (bbb_start (start o)) DisableSos = value "sos_constraints" o) by (rewrite bbb_ip by exact A; reflexivity).
  rewrite S3 in B4. clear S1 S2 S3 S4 S5 S6 S7 S8 B1 B2 B3 B6 B7 B8 B9 B10.
  generalize dependent (bbb_start (start o)). intros t B4 B5 D.
  destruct (rule_brm (bbb_rule t)) as [b|].
  - unfold prepare_objects. cbn [s_cont wopt]. rewrite B5. cbn [bind]. cbn [s_nobj wopt wnobj s_ip]. rewrite B4, find_integers_nil.
    fold (int_objs P). rewrite (set_priorities_run n P W). unfold refused. cbn [andb].
    destruct (_ || _ || _)%bool; [|reflexivity]. cbn [bind negb]. rewrite D. fold (asked "sos_constraints" o). fold (sos_off o).
    rewrite (add_sos_ok n P _ _ W); [|unfold osi_ints; rewrite map_length; apply W]. cbn [bind s_cont s_nobj s_brm wbrm wnobj wopt].
    repeat split; [exact B5 | discriminate].
  - cbn [andb s_cont s_nobj wopt]. repeat split; [exact B5 | exact B4 | discriminate].
Qed.
Lemma bbb_run : forall n P o, wf n P -> value "algorithm" o = 0%Z ->
  match initializeBBB P (start o) with
  | Ok s => (osi_rule o && refused P)%bool = false /\ s_cont s = CNlp /\
            s_nobj s = (if osi_rule o then (osi_ints P ++ sos_list (sos_off o) (p_user P))%list else []) /\
            (osi_rule o = true -> s_brm s <> None)
  | Thrown => (osi_rule o && refused P)%bool = true
  | _ => False
  end.
Proof.
  intros n P o W A. pose proof (bbb_branching_run n P o W A) as H. unfold initializeBBB.
  destruct (bbb_branching P (start o)) as [u| | | | | | |]; cbn [bind]; try exact H.
  pose proof (same_bbb_heus P u) as ((_ & _ & _ & _ & E5 & E6 & E7 & _) & _).
  generalize dependent (bbb_heuristics P u). intros z E5 E6 E7. rewrite E5, E6, E7. exact H.
Qed.
Lemma vs_hyb : forall c o, geti "bonmin." "variable_selection" (s_opt (hyb_start c (start o))) = geti "bonmin." "variable_selection" o.
Proof.
  intros c o. destruct (start_rest o) as (S1 & _ & _ & _ & _ & _ & _ & S8). destruct (hyb_start_rest c (start o)) as (A & _). rewrite A, S1, S8.
  change (sub_prefix "bonmin.") with "". rewrite presets_same; [|inopt|].
  - apply start_same; [inopt | apply forced_vs_not; discriminate].
  - intros K. apply in_app_or in K. destruct K as [K|K].
    + unfold forced_a in K. destruct (value "algorithm" o) as [|p|p]; try contradiction.
      do 3 (try destruct p as [p|p|]; try contradiction); cbn in K; intuition discriminate.
    + unfold bare_a in K. destruct (Z.eqb _ 1); cbn in K; intuition discriminate.
Qed.
Lemma hyb_osi : forall P c o, value "algorithm" o <> 0%Z -> hyb_branching P (hyb_start c (start o)) =
  if osi_rule o then do s <- prepare_objects P (hyb_start c (start o)); Ok (wbrm (if Z.eqb (value "variable_selection" o) 6 then BOsiSimple else BOsiStrong) s)
  else Ok (hyb_start c (start o)).
Proof.
  intros P c o A. unfold hyb_branching. destruct (start_rest o) as (S1 & _). destruct (hyb_start_rest c (start o)) as (_ & B & _). rewrite S1 in B.
  unfold gi. rewrite B, vs_hyb. fold (value "variable_selection" o). unfold osi_rule.
  apply Z.eqb_neq in A. rewrite A. cbv zeta. set (z := hyb_start c (start o)). clearbody z.
  destruct (value "variable_selection" o) as [|p|p]; try reflexivity. do 4 (try destruct p as [p|p|]; try reflexivity).
Qed.
Lemma initializeBHyb_ok : forall P c dt s u, hyb_branching P (hyb_start c s) = Ok u -> exists t, initializeBHyb P c dt s = Ok t.
Proof. intros P c dt s u H. unfold initializeBHyb. cbv zeta. fold (hyb_start c s). rewrite H. cbn [bind]. eauto. Qed.
Lemma hyb_run : forall n P dt o, wf n P -> value "algorithm" o <> 0%Z ->
  exists s, initializeBHyb P true dt (start o) = Ok s /\ s_algo s = Some (value "algorithm" o) /\
            s_nobj s = (if osi_rule o then sos_list (sos_off o) (p_user P) else []) /\
            s_cont s = CLp (if osi_rule o then int_objs P else []) /\ (osi_rule o = true -> s_brm s <> None).
Proof.
  intros n P dt o W A.
  destruct (start_rest o) as (S1 & S2 & S3 & S4 & S5 & S6 & S7 & S8).
  destruct (hyb_start_rest true (start o)) as (X1 & X2 & X3 & X4 & X5 & X6 & X7 & X8 & X9 & X10).
  assert (D : s_ip (hyb_start true (start o)) DisableSos = value "sos_constraints" o) by (rewrite hyb_ip by exact A; reflexivity).
  assert (R : exists u, hyb_branching P (hyb_start true (start o)) = Ok u /\ s_algo u = Some (value "algorithm" o) /\
            s_nobj u = (if osi_rule o then sos_list (sos_off o) (p_user P) else []) /\
            s_cont u = CLp (if osi_rule o then int_objs P else []) /\ (osi_rule o = true -> s_brm u <> None)).
  { rewrite (hyb_osi P true o A). destruct (osi_rule o).
    - unfold prepare_objects. rewrite X6. cbn [bind]. cbn [s_nobj wcont s_ip]. rewrite X5, S3, find_integers_nil.
      assert (E : set_priorities (p_user P) [] = Ok []) by (unfold set_priorities; destruct (_ && _)%bool; reflexivity).
      rewrite E. cbn [bind List.length]. rewrite D. fold (asked "sos_constraints" o). fold (sos_off o).
      rewrite (add_sos_ok n P _ _ W) by lia. cbn [bind app].
      eexists. split; [reflexivity|]. cbn [s_algo s_nobj s_cont s_brm wbrm wnobj wcont]. rewrite X4, S2. repeat split. discriminate.
    - eexists. split; [reflexivity|]. rewrite X4, X5, X6, S2, S3. repeat split. discriminate. }
  destruct R as (u & R & R1 & R2 & R3 & R4).
  assert (I : exists s, initializeBHyb P true dt (start o) = Ok s).
  { apply (initializeBHyb_ok _ _ _ _ _ R). }
  destruct I as (s & I). exists s. split; [exact I|]. apply initializeBHyb_inv in I. rewrite S8 in I.
  destruct I as (u' & v & I1 & Ev & _ & _ & _ & I4 & I5 & I6 & _ & _ & I9 & _). assert (u' = u) by congruence. subst u'.
  rewrite I4, I5, I6, I9.
  pose proof (same_hyb_heus (hyb_gens (value "algorithm" o) u)) as ((_ & _ & _ & E4 & E5 & E6 & E7 & _) & _). rewrite <- Ev in E4, E5, E6, E7. clear Ev.
  pose proof (same_hyb_gens (value "algorithm" o) u) as ((_ & _ & _ & F4 & F5 & F6 & F7 & _) & _).
  rewrite E4, E5, E6, E7, F4, F5, F6, F7. repeat split; assumption.
Qed.

(** * Second searches *)
Definition sub_start (p : string) (l : list obj) (s : setup) : setup :=
  gather (mkSetup (s_opt s) p default_ip default_dp None l CNull [] [] None 0 0).
Lemma heu_prefix_sub : forall h p, heu_prefix h = Some p -> In p sub_prefixes.
Proof. intros h p H. destruct h; try discriminate H; injection H as <-; cbn; tauto. Qed.
Lemma sub_rest : forall p l s, s_pfx (sub_start p l s) = p /\ s_algo (sub_start p l s) = None /\ s_nobj (sub_start p l s) = l /\
  s_cont (sub_start p l s) = CNull /\ s_gens (sub_start p l s) = [] /\ s_heus (sub_start p l s) = [] /\ s_brm (sub_start p l s) = None.
Proof. intros p l s. apply (gather_rest (mkSetup (s_opt s) p default_ip default_dp None l CNull [] [] None 0 0)). Qed.
Lemma sub_geti : forall p l s n, In p sub_prefixes -> In n options -> geti p n (s_opt (sub_start p l s)) = geti p n (s_opt s).
Proof.
  intros p l s n I J. unfold sub_start, gather. cbv zeta. cbn [s_opt s_pfx].
  assert (A : safe p "bonmin.number_before_trust" = true /\ safe p "bonmin.number_strong_branch" = true).
  { destruct I as [<-|[<-|[<-|[]]]]; split; vm_compute; reflexivity. }
  destruct A as [A B].
  destruct (Z.eqb _ 0); [|destruct (Z.eqb _ 2)]; cbn [s_opt wopt]; rewrite ?geti_safe by assumption; reflexivity.
Qed.
Lemma copy_prefix_eq : forall P l p dt s, In p sub_prefixes -> copy_prefix P l p dt s =
  let g := walgo (Some (sub_algo p s)) (sub_start p l s) in
  if Z.eqb (sub_algo p s) 0 then initializeBBB P g else initializeBHyb P true dt g.
Proof.
  intros P l p dt s I. unfold copy_prefix. cbv zeta. fold (sub_start p l s).
  assert (E : getAlgorithm (sub_start p l s) = sub_algo p s).
  { destruct (sub_rest p l s) as (A & B & _). unfold getAlgorithm. rewrite B. unfold gi. rewrite A. rewrite sub_geti by (exact I || inopt). reflexivity. }
  rewrite E. reflexivity.
Qed.
Lemma gather_ip : forall s q n, int_opt q = Some n -> q <> NumberStrong -> q <> MinReliability -> s_ip (gather s) q = fst (geti (s_pfx s) n (s_opt s)).
Proof.
  intros s q n E N1 N2. unfold gather. cbv zeta. destruct (Z.eqb _ 0); [|destruct (Z.eqb _ 2)]; cbn [s_ip wopt wip]; rewrite ?E;
  repeat (destruct (ipar_dec _ q); [congruence|]); rewrite ?E; reflexivity.
Qed.
Lemma bbb_start_ip : forall s q, q <> NumberStrong -> q <> MinReliability -> q <> SpecialOption -> s_ip (bbb_start s) q = s_ip s q.
Proof.
  intros s q N1 N2 N3. unfold bbb_start.
  match goal with |- s_ip (par_default ?a ?b ?c ?x) q = _ => destruct (par_default_rest a b c x) as (_ & _ & _ & _ & _ & _ & _ & _ & _ & _ & A) end.
  rewrite A by exact N1. clear A.
  match goal with |- s_ip (par_default ?a ?b ?c ?x) q = _ => destruct (par_default_rest a b c x) as (_ & _ & _ & _ & _ & _ & _ & _ & _ & _ & A) end.
  rewrite A by exact N2. cbn [s_ip wip wcont]. destruct (ipar_dec SpecialOption q); congruence.
Qed.
Lemma sub_params : forall P l p dt s t, In p sub_prefixes -> copy_prefix P l p dt s = Ok t ->
  (forall q n, int_opt q = Some n -> q <> NumberStrong -> q <> MinReliability -> q <> BabLogLevel -> s_ip t q = fst (geti p n (s_opt s))) /\
  (forall q, s_dp t q = if dpar_dec MaxTime q then (if Z.eqb (sub_algo p s) 0 then fst (getn p "time_limit" (s_opt s)) else eminus (fst (getn p "time_limit" (s_opt s))) dt)
                        else fst (getn p (num_opt q) (s_opt s))) /\ s_algo t = Some (sub_algo p s).
Proof.
  intros P l p dt s t I H. rewrite copy_prefix_eq in H by exact I. cbv zeta in H.
  assert (D : forall q, s_dp (sub_start p l s) q = fst (getn p (num_opt q) (s_opt s))) by (intros q; apply (gather_dp (mkSetup (s_opt s) p default_ip default_dp None l CNull [] [] None 0 0))).
  assert (J : forall q n, int_opt q = Some n -> q <> NumberStrong -> q <> MinReliability -> s_ip (sub_start p l s) q = fst (geti p n (s_opt s))).
  { intros q n E N1 N2. apply (gather_ip (mkSetup (s_opt s) p default_ip default_dp None l CNull [] [] None 0 0)); assumption. }
  assert (Sp : forall q, int_opt q = None -> q = SpecialOption) by (intros q; destruct q; cbn; congruence).
  set (g := walgo (Some (sub_algo p s)) (sub_start p l s)) in *.
  assert (Dg : forall q, s_dp g q = fst (getn p (num_opt q) (s_opt s))) by exact D.
  assert (Jg : forall q n, int_opt q = Some n -> q <> NumberStrong -> q <> MinReliability -> s_ip g q = fst (geti p n (s_opt s))) by exact J.
  assert (Ag : s_algo g = Some (sub_algo p s)) by reflexivity. clearbody g. clear D J.
  destruct (Z.eqb (sub_algo p s) 0).
  - apply initializeBBB_inv in H. destruct H as (u & H1 & _ & ((_ & E & F & G & _) & _)).
    rewrite E, F, G. apply bbb_branching_same in H1. destruct H1 as (_ & _ & -> & -> & -> & _).
    split; [|split; [|exact Ag]].
    + intros q n Q N1 N2 N3. rewrite bbb_start_ip; [apply Jg; assumption | exact N1 | exact N2 | intros ->; discriminate Q].
    + intros q. rewrite Dg. destruct (dpar_dec MaxTime q) as [<-|]; reflexivity.
  - apply initializeBHyb_inv in H. destruct H as (u & v & H1 & Ev & _ & _ & Hi & Ha & _ & _ & _ & _ & _ & Hd).
    assert (GA : getAlgorithm g = sub_algo p s) by (unfold getAlgorithm; rewrite Ag; reflexivity). rewrite GA in Ev.
    pose proof (same_hyb_heus (hyb_gens (sub_algo p s) u)) as ((_ & E2 & E3 & E4 & _) & _). rewrite <- Ev in E2, E3, E4. clear Ev.
    pose proof (same_hyb_gens (sub_algo p s) u) as ((_ & F2 & F3 & F4 & _) & _).
    apply hyb_branching_same in H1. destruct H1 as (_ & _ & A1 & A2 & A3 & _).
    destruct (hyb_start_rest true g) as (_ & _ & X3 & X4 & _ & _ & _ & _ & _ & X10).
    split; [|split].
    + intros q n Q N1 N2 N3. rewrite Hi, E2, F2, A1, X10. rewrite <- (Jg q n Q N1 N2).
      destruct (Z.eqb (getAlgorithm g) 5); [|reflexivity]. destruct (ipar_dec BabLogLevel q); [congruence | reflexivity].
    + intros q. rewrite Hd, E3, F3, A2, X3, !Dg. destruct (dpar_dec MaxTime q) as [<-|]; reflexivity.
    + rewrite Ha, E4, F4, A3, X4. exact Ag.
Qed.
(** An LP based second search. *)
Lemma sub_vs : forall p l s, In p sub_prefixes ->
  geti p "variable_selection" (s_opt (hyb_start true (walgo (Some (sub_algo p s)) (sub_start p l s)))) = geti p "variable_selection" (s_opt s).
Proof.
  intros p l s I. destruct (hyb_start_rest true (walgo (Some (sub_algo p s)) (sub_start p l s))) as (X & _). rewrite X. clear X.
  change (getAlgorithm (walgo (Some (sub_algo p s)) (sub_start p l s))) with (sub_algo p s).
  change (s_pfx (walgo (Some (sub_algo p s)) (sub_start p l s))) with (s_pfx (sub_start p l s)).
  destruct (sub_rest p l s) as (-> & _). cbn [s_opt walgo].
  rewrite <- (sub_geti p l s "variable_selection" I) by inopt. generalize (s_opt (sub_start p l s)). intros o.
  generalize (sub_algo p s). intros a.
  assert (Q : sub_prefix p = p) by (destruct I as [<-|[<-|[<-|[]]]]; reflexivity). rewrite Q.
  assert (N : a = 1%Z \/ a = 2%Z \/ a = 3%Z \/ a = 4%Z \/ a = 5%Z \/ presets a p p o = o).
  { unfold presets. destruct a as [|k|k]; auto 8. do 3 (try destruct k as [k|k|]; auto 8). }
  destruct N as [N|[N|[N|[N|[N|N]]]]]; [subst a|subst a|subst a|subst a|subst a|rewrite N; reflexivity];
    destruct I as [<-|[<-|[<-|[]]]]; unfold presets;
    repeat first [rewrite geti_setn | rewrite geti_seti_other by reflexivity]; reflexivity.
Qed.
Lemma sub_lp : forall n P l p dt s, wf n P -> In p sub_prefixes -> sub_algo p s <> 0%Z -> sub_rule p s <> 6%Z -> sub_rule p s <> 7%Z ->
  exists t, copy_prefix P l p dt s = Ok t /\ s_cont t = CLp [] /\ s_nobj t = l /\ s_brm t = None.
Proof.
  intros n P l p dt s W I A V1 V2. rewrite copy_prefix_eq by exact I. cbv zeta. apply Z.eqb_neq in A. rewrite A.
  set (g := walgo (Some (sub_algo p s)) (sub_start p l s)).
  assert (R : hyb_branching P (hyb_start true g) = Ok (hyb_start true g)).
  { rewrite hyb_branching_eq. unfold gi. destruct (hyb_start_rest true g) as (_ & -> & _). 
    change (s_pfx g) with (s_pfx (sub_start p l s)). destruct (sub_rest p l s) as (-> & _). subst g. rewrite sub_vs by exact I.
    fold (sub_rule p s). destruct (sub_rule p s) as [|k|k]; try reflexivity. do 3 (try destruct k as [k|k|]; try reflexivity); congruence. }
  destruct (initializeBHyb_ok P true dt g _ R) as (t & T). exists t. split; [exact T|].
  apply initializeBHyb_inv in T. destruct T as (u & v & T1 & Ev & _ & _ & _ & _ & T5 & T6 & _ & _ & T9 & _).
  assert (u = hyb_start true g) by congruence. subst u.
  pose proof (same_hyb_heus (hyb_gens (getAlgorithm g) (hyb_start true g))) as ((_ & _ & _ & _ & E5 & E6 & E7 & _) & _). rewrite <- Ev in E5, E6, E7. clear Ev.
  pose proof (same_hyb_gens (getAlgorithm g) (hyb_start true g)) as ((_ & _ & _ & _ & F5 & F6 & F7 & _) & _).
  destruct (hyb_start_rest true g) as (_ & _ & _ & _ & X5 & X6 & _ & _ & X9 & _).
  rewrite T6, E6, F6, X6, T5, E5, F5, X5, T9, E7, F7, X9.
  destruct (sub_rest p l s) as (_ & _ & S3 & _ & _ & _ & S7). change (s_nobj g) with (s_nobj (sub_start p l s)). change (s_brm g) with (s_brm (sub_start p l s)).
  rewrite S3, S7. repeat split.
Qed.
(** A simple branch-and-bound again, without special ordered sets and pseudo-costs. *)
Lemma find_col : forall (f : nat -> obj) l j, (forall i, has_col j (f i) = Nat.eqb i j) -> In j l -> List.find (has_col j) (map f l) = Some (f j).
Proof.
  induction l as [|i l IH]; intros j H I; [destruct I|]. cbn [map List.find]. rewrite H.
  destruct (Nat.eqb_spec i j) as [->|N]; [reflexivity|]. apply IH; [exact H|]. destruct I as [<-|I]; [congruence | exact I].
Qed.
Lemma find_integers_again : forall P, find_integers (p_icols P) (osi_ints P) = osi_ints P.
Proof.
  intros P. unfold find_integers, osi_ints.
  rewrite (map_ext_in _ (fun j => OInt j (prio_of (p_user P) j) (way_of (-1) (p_user P) j))).
  - rewrite <- app_nil_r. f_equal.
    induction (p_icols P) as [|j l IH]; [reflexivity|]. cbn. exact IH.
  - intros j I. rewrite (find_col (fun j => OInt j (prio_of (p_user P) j) (way_of (-1) (p_user P) j))); [reflexivity | reflexivity | exact I].
Qed.
Lemma set_again : forall n P, wf n P -> u_up (p_user P) = None -> set_priorities (p_user P) (osi_ints P) = Ok (osi_ints P).
Proof.
  intros n P W U. unfold set_priorities. rewrite U. cbn [isnull negb]. rewrite andb_false_r. unfold osi_ints.
  rewrite (mapo_ok _ (fun o => o)); [rewrite map_id; reflexivity|]. intros o I. apply in_map_iff in I. destruct I as (j & <- & I).
  destruct W. rewrite Forall_forall in wf_cols. specialize (wf_cols _ I). unfold set_prio1, prio_of, way_of. rewrite U.
  destruct (u_prio (p_user P)) as [lp|]; [rewrite (rd_nth 0%Z) by (cbn in *; lia)|]; cbn [bind];
  (destruct (u_dir (p_user P)) as [ld|]; [rewrite (rd_nth 0%Z) by (cbn in *; lia)|]; cbn [bind]); reflexivity.
Qed.
Lemma par_default_geti : forall q m v s n, String.eqb (s_pfx s ++ m) (s_pfx s ++ n) = false -> String.eqb (s_pfx s ++ m) n = false ->
  geti (s_pfx s) n (s_opt (par_default q m v s)) = geti (s_pfx s) n (s_opt s).
Proof.
  intros q m v s n H1 H2. unfold par_default. destruct (snd _); [reflexivity|]. cbn [s_opt wopt]. apply geti_seti_other; assumption.
Qed.
Lemma sub_vs_bbb : forall p l a s, In p sub_prefixes ->
  geti p "variable_selection" (s_opt (bbb_start (walgo a (sub_start p l s)))) = geti p "variable_selection" (s_opt s).
Proof.
  intros p l a s I. rewrite <- (sub_geti p l s "variable_selection" I) by inopt.
  unfold bbb_start. set (u := wip SpecialOption 16 (wcont CNlp (walgo a (sub_start p l s)))).
  assert (U : s_pfx u = p) by apply (sub_rest p l s). change (s_opt (sub_start p l s)) with (s_opt u). clearbody u.
  destruct (par_default_rest MinReliability "number_before_trust" 1%Z u) as (A & _). rewrite U in A.
  pose proof (par_default_geti MinReliability "number_before_trust" 1%Z u "variable_selection") as B. rewrite U in B.
  pose proof (par_default_geti NumberStrong "number_strong_branch" 1000%Z (par_default MinReliability "number_before_trust" 1%Z u) "variable_selection") as C.
  rewrite A in C. rewrite C, B; [reflexivity | | | |]; destruct I as [<-|[<-|[<-|[]]]]; reflexivity.
Qed.
Lemma sub_bbb : forall n P p dt s, wf n P -> In p sub_prefixes -> sub_algo p s = 0%Z -> sub_osi p s = true ->
  u_up (p_user P) = None -> sos_wanted false (p_user P) = [] ->
  exists t, copy_prefix P (osi_ints P) p dt s = Ok t /\ s_cont t = CNlp /\ s_nobj t = osi_ints P /\ s_brm t <> None.
Proof.
  intros n P p dt s W I A V U S. rewrite copy_prefix_eq by exact I. cbv zeta. rewrite A. change (Z.eqb 0 0) with true. cbv iota.
  set (g := walgo (Some 0%Z) (sub_start p (osi_ints P) s)).
  assert (R : exists u, bbb_branching P g = Ok u /\ s_cont u = CNlp /\ s_nobj u = osi_ints P /\ s_brm u <> None).
  { rewrite bbb_branching_eq. cbv zeta.
    destruct (bbb_start_rest g) as (B1 & _ & _ & B4 & B5 & _).
    pose proof (sub_vs_bbb p (osi_ints P) (Some 0%Z) s I) as E. fold g in E.
    destruct (sub_rest p (osi_ints P) s) as (S1 & _ & S3 & _). change (s_pfx g) with (s_pfx (sub_start p (osi_ints P) s)) in B1. rewrite S1 in B1.
    change (s_nobj g) with (s_nobj (sub_start p (osi_ints P) s)) in B4. rewrite S3 in B4.
    assert (Rl : rule_brm (bbb_rule (bbb_start g)) <> None).
    { unfold bbb_rule, gi. rewrite B1, E. unfold sub_osi in V. cbv zeta in V. destruct (snd _); cbn [negb orb] in V; [|discriminate].
      intros K. apply rule_range in K. congruence. }
    clearbody g. generalize dependent (bbb_start g). intros z B1 B4 B5 E Rl. destruct (rule_brm (bbb_rule z)) as [b|]; [|congruence].
    unfold prepare_objects. cbn [s_cont wopt]. rewrite B5. cbn [bind]. cbn [s_nobj wopt wnobj s_ip]. rewrite B4, find_integers_again.
    rewrite (set_again n P W U). cbn [bind]. rewrite (add_sos_ok n P _ _ W); [|unfold osi_ints; rewrite map_length; apply W]. cbn [bind].
    assert (L : forall off, sos_list off (p_user P) = []).
    { intros off. unfold sos_list, sos_wanted in *. destruct off; [reflexivity|]. destruct (u_sos (p_user P)) as [[|k]|]; [reflexivity | discriminate S | reflexivity]. }
    rewrite L, app_nil_r. eexists. split; [reflexivity|]. cbn [s_cont s_nobj s_brm wbrm wnobj wopt]. repeat split; [exact B5 | discriminate]. }
  clearbody g. destruct R as (u & R & R1 & R2 & R3). unfold initializeBBB. rewrite R. cbn [bind].
  pose proof (same_bbb_heus P u) as ((_ & _ & _ & _ & E5 & E6 & E7 & _) & _).
  generalize dependent (bbb_heuristics P u). intros z E5 E6 E7. exists z. rewrite E5, E6, E7. repeat split; assumption.
Qed.

(** * Initialising again *)
Lemma hyb_gens_again : forall P c dt s t, initializeBHyb P c dt s = Ok t -> exists l,
  s_gens t = (s_gens s ++ l ++ [check_all; check_sol])%list /\ filter is_check l = [] /\ s_algo t = s_algo s.
Proof.
  intros P c dt s t H. apply initializeBHyb_inv in H. destruct H as (u & v & H1 & Ev & _ & _ & _ & Ha & _ & _ & Hg & _).
  pose proof (same_hyb_heus (hyb_gens (getAlgorithm s) u)) as ((_ & _ & _ & E & _) & _ & G). rewrite <- Ev in E, G. clear Ev.
  pose proof (same_hyb_gens (getAlgorithm s) u) as ((_ & _ & _ & F & _) & _).
  apply hyb_branching_same in H1. destruct H1 as (_ & _ & _ & _ & A & K & _).
  destruct (hyb_start_rest c s) as (_ & _ & _ & X4 & _ & _ & X7 & _).
  exists (pre_gens (getAlgorithm s) u). rewrite Hg, G, hyb_gens_list, K, X7, Ha, E, F, A, X4. repeat split. apply pre_nocheck.
Qed.
