(** Theorems for problem descriptions, diagnostic files, option tables and the C interface. *)
From Verif Require Import Base Arr Io_Model Io_Spec Io_Proofs.
#[local] Open Scope Q_scope.

(** ** C31: copying an SOS description *)
Definition sos1 : sos := {| s_num := 1; s_types := Some [Some 1%Z]; s_prior := Some [Some 5%Z]; s_nnz := 2;
  s_starts := Some [Some 0%Z; Some 2%Z]; s_ind := Some [Some 3%Z; Some 4%Z]; s_wgt := Some [Some 1; Some 2] |}.
Lemma sos1_ok : sos_ok sos1.
Proof.
  right. split; [cbn; lia|]. split; [exists [1%Z]; auto|]. split; [exists [5%Z]; auto|]. split; [exists [0; 2]%Z; auto|].
  split; [exists [3; 4]%Z; auto|exists [1; 2]; auto].
Qed.
Theorem C31_refuted : ~ C31_full.
Proof. intros H. specialize (H sos1 sos1_ok). vm_compute in H. discriminate. Qed.
Print Assumptions C31_refuted.
(** Only the description without sets is copied; otherwise nothing of the sets is left, neither in
    the copy nor in the original. *)
Theorem C31_partial : forall s, sos_ok s ->
  (s_num s = 0%nat -> sos_copy s = Ok (s, s)) /\
  ((0 < s_num s)%nat -> exists c s', sos_copy s = Ok (c, s') /\ sos_lost c (s_num s) (s_nnz s) /\ sos_lost s' (s_num s) (s_nnz s) /\ ~ sos_ok c /\ ~ sos_ok s').
Proof.
  intros s OK. split; intros N.
  - destruct OK as [(Z & A & B & C & D & E)|(P & _)]; [|lia]. unfold sos_copy. rewrite Z, A, B, C, D, E. cbn. destruct s; cbn in *; subst; reflexivity.
  - destruct (sos_copy_lost s OK N) as (c & s' & E & L & L' & N1 & N2 & _ & _). exists c, s'. split; [exact E|]. split; [exact L|]. split; [exact L'|].
    split; intros [(Z & _)|(P & F & _)]; try lia.
    + rewrite N1 in *. destruct L as (L2 & _). exact (filled_not_lost _ _ N F L2).
    + rewrite N2 in *. destruct L' as (L2 & _). exact (filled_not_lost _ _ N F L2).
Qed.
Print Assumptions C31_partial.
(** What copying relies on: arrays exactly when there are sets; otherwise it aborts. *)
Theorem C31_aborts : forall s,
  (s_num s = 0%nat -> ~ (s_types s = None /\ s_prior s = None /\ s_starts s = None /\ s_ind s = None /\ s_wgt s = None) -> sos_copy s = AssertFail) /\
  ((0 < s_num s)%nat -> s_types s = None \/ s_prior s = None \/ s_starts s = None \/ s_ind s = None \/ s_wgt s = None -> sos_copy s = AssertFail).
Proof.
  intros s. split; intros N H; unfold sos_copy.
  - rewrite N. cbn [Nat.ltb Nat.leb]. destruct (s_types s), (s_prior s), (s_starts s), (s_ind s), (s_wgt s); try reflexivity. exfalso. apply H. repeat split.
  - apply Nat.ltb_lt in N. rewrite N. destruct (s_types s), (s_prior s), (s_starts s), (s_ind s), (s_wgt s); try reflexivity.
    exfalso. destruct H as [H|[H|[H|[H|H]]]]; discriminate H.
Qed.
Print Assumptions C31_aborts.
Example C31_example : sos_copy sos1 = Ok
  ({| s_num := 1; s_types := Some [None]; s_prior := Some [None]; s_nnz := 2; s_starts := Some [None; None]; s_ind := Some [None; None]; s_wgt := Some [None; None] |},
   {| s_num := 1; s_types := Some [None]; s_prior := Some [None]; s_nnz := 2; s_starts := Some [None; Some 2%Z]; s_ind := Some [None; None]; s_wgt := Some [None; None] |}).
Proof. vm_compute. reflexivity. Qed.

(** ** C69: copying branching information *)
Definition br1 : binfo := {| b_size := 2; b_prior := Some [1; 2]%Z; b_dir := None; b_up := Some [3; 4]; b_down := None |}.
Theorem C69_refuted : ~ C69_full.
Proof.
  intros H. specialize (H (true, false, false, false) br1). assert (OK : binfo_ok br1) by (repeat split).
  specialize (H OK). discriminate.
Qed.
Print Assumptions C69_refuted.
(** The copy is right exactly when the memory in which it is built happens to hold four NULL pointers. *)
Theorem C69_partial : forall left b, binfo_ok b -> (binfo_copy left b = Ok b <-> left = (false, false, false, false)).
Proof.
  intros (((a, b0), c), d) b (A & B & C & D). unfold binfo_copy. split.
  - destruct a, b0, c, d; cbn; congruence.
  - intros E. injection E as -> -> -> ->. cbn [orb]. rewrite (copy_array_ok _ _ A), (copy_array_ok _ _ B), (copy_array_ok _ _ C), (copy_array_ok _ _ D).
    cbn [bind]. destruct b; reflexivity.
Qed.
Print Assumptions C69_partial.
Example C69_example : binfo_copy (false, false, false, false) br1 = Ok br1 /\ binfo_copy (false, true, false, false) br1 = Dangling.
Proof. split; reflexivity. Qed.

(** ** C70: perturbation radii *)
Theorem C70_refuted : ~ C70_full.
Proof.
  intros H. specialize (H 1%nat [Some [1]; None]). assert (F : Forall (opt_len 1) [Some [1]; None]) by (repeat constructor).
  specialize (H F). discriminate.
Qed.
Print Assumptions C70_refuted.
(** The array read is the last one set exactly when no NULL was given after an array. *)
Theorem C70_partial : forall n h, Forall (opt_len n) h ->
  ((do p <- setPerturbations n h PNull; getPerturbation p) = Ok (last h None) <-> nulls_first h).
Proof.
  intros n h F. split.
  - intros H. destruct (nulls_dec h) as [N|(k & ls & l & r & ->)]; [exact N|]. exfalso.
    rewrite setPs_app, set_nulls in H. cbn [bind] in H. rewrite setPs_app in H.
    apply Forall_app in F. destruct F as (_ & F). apply Forall_app in F. destruct F as (F & _).
    rewrite set_arrays in H; [|apply Forall_forall; intros x Hx; rewrite Forall_forall in F; exact (F (Some x) (in_map Some _ _ Hx))|discriminate].
    cbn [bind] in H. destruct (ls ++ [l]) eqn:E; [apply app_eq_nil in E; destruct E; discriminate|].
    cbn [setPerturbations] in H. cbn [setPerturbation del bind] in H. rewrite freed_bad in H. discriminate.
  - intros (k & ls & ->). rewrite setPs_app, set_nulls. cbn [bind].
    apply Forall_app in F. destruct F as (_ & F).
    rewrite set_arrays; [|apply Forall_forall; intros x Hx; rewrite Forall_forall in F; exact (F (Some x) (in_map Some _ _ Hx))|discriminate].
    cbn [bind]. destruct ls as [|l ls].
    + cbn [map]. rewrite app_nil_r. cbn [getPerturbation]. f_equal. clear. induction k as [|[|k] IH]; [reflexivity|reflexivity|exact IH].
    + rewrite last_app_some by discriminate. rewrite (last_map_some (l :: ls) []) by discriminate. reflexivity.
Qed.
Print Assumptions C70_partial.
Example C70_example : (do p <- setPerturbations 1 [None; Some [1]; Some [2]] PNull; getPerturbation p) = Ok (Some [2]) /\
  setPerturbations 1 [Some [1]; None; Some [2]] PNull = Dangling.
Proof. split; reflexivity. Qed.

(** ** C71: general integer variables *)
(** False for a variable fixed at 0 or 1. *)
Theorem C71_refuted : ~ C71_full.
Proof.
  intros H. specialize (H [(INT, Fin 0, Fin 0)]). destruct H as (H & _). specialize (H eq_refl).
  apply Exists_cons in H. destruct H as [(_ & z & N & _ & L & U)|H]; [|inversion H].
  cbn [lo_ok up_ok] in L, U. change 0 with (inject_Z 0) in L, U. rewrite <- Zle_Qle in L, U. lia.
Qed.
Print Assumptions C71_refuted.
(** No problem with a value other than 0 and 1 is missed; with integer bounds the answer is no exactly
    when every integer variable has the bounds 0 and 1. *)
Theorem C71_partial : forall vs,
  (Exists takes_other vs -> hasGeneralInteger vs = true) /\
  (Forall int_bounds vs -> (hasGeneralInteger vs = false <-> Forall (fun v => fst (fst v) = INT -> zero_one v) vs)).
Proof.
  intros vs. split.
  - intros E. apply hgi_exists. eapply Exists_impl; [|exact E]. intros v. apply takes_other_odd.
  - intros IB. split.
    + intros H. apply Forall_forall. intros v Hv T. rewrite Forall_forall in IB. specialize (IB v Hv).
      destruct (odd_bounds v) eqn:O.
      * assert (X : hasGeneralInteger vs = true) by (apply hgi_exists, Exists_exists; eauto). congruence.
      * destruct v as ((t, l), u). cbn [fst] in T. subst t.
        destruct (odd_int _ IB) as (_ & K). cbn [fst] in K.
        cbn [int_bounds] in IB. destruct IB as (L & U).
        destruct L as [->|(a & ->)]; [discriminate O|]. destruct U as [->|(b & ->)]; [cbn in O; rewrite orb_true_r in O; discriminate|].
        destruct (Z.eq_dec a 0) as [->|Na]; [|exfalso; rewrite K in O; [discriminate|]; split; [reflexivity|]; intros (E & _); injection E; congruence].
        destruct (Z.eq_dec b 1) as [->|Nb]; [|exfalso; rewrite K in O; [discriminate|]; split; [reflexivity|]; intros (_ & E); injection E; congruence].
        split; reflexivity.
    + intros F. destruct (hasGeneralInteger vs) eqn:H; [|reflexivity]. apply hgi_exists, Exists_exists in H. destruct H as (v & Hv & O).
      rewrite Forall_forall in IB, F. apply (odd_int v (IB v Hv)) in O. destruct O as (T & N). exfalso. exact (N (F v Hv T)).
Qed.
Print Assumptions C71_partial.
Example C71_example : hasGeneralInteger [(BIN, Fin 0, Fin 1); (INT, Fin 0, Fin 1); (CONT, MInf, PInf)] = false /\ hasGeneralInteger [(INT, Fin 0, Fin 2)] = true /\ hasGeneralInteger [(INT, Fin 1, Fin 1)] = true.
Proof. repeat split; reflexivity. Qed.

(** ** C32: bounds files *)
Definition nochange : list bnd := [((0, 1), (0, 1))].
Theorem C32_refuted : ~ C32_full.
Proof. intros H. destruct (H nochange) as (lo & up & E & _). vm_compute in E. discriminate. Qed.
Print Assumptions C32_refuted.
(** No file written by the solver can be read back without undefined behaviour or program end: a
    file with differences makes the reader use variables never set, a file without ends the program. *)
Theorem C32_strict_refuted : forall prt vs,
  readAndApply false (write_bounds prt 0 vs) (map org_l vs) (map org_u vs) = Uninit /\ Exists changed vs \/
  readAndApply false (write_bounds prt 0 vs) (map org_l vs) (map org_u vs) = Thrown /\ ~ Exists changed vs.
Proof.
  intros prt vs. pose proof (changed_dec vs) as D. unfold readAndApply. rewrite write_diffs, read_lines.
  pose proof (diffs_nil prt vs 0%Z) as X. destruct (diffs prt 0 vs) as [|e es].
  - right. split; [reflexivity|]. apply X. reflexivity.
  - left. split; [reflexivity|]. destruct D as [D|D]; [exact D|]. apply X in D. discriminate.
Qed.
Print Assumptions C32_strict_refuted.
(** If the loop variables keep their storage from one iteration to the next, every bound that
    changed is restored to its printed value, the others keep their original value; when nothing
    changed the program ends. *)
Theorem C32_partial : forall prt vs,
  (Exists changed vs ->
   readAndApply true (write_bounds prt 0 vs) (map org_l vs) (map org_u vs) = Ok (map (exp_l prt) vs, map (exp_u prt) vs)) /\
  (~ Exists changed vs -> readAndApply true (write_bounds prt 0 vs) (map org_l vs) (map org_u vs) = Thrown).
Proof.
  intros prt vs. unfold readAndApply. rewrite write_diffs, read_lines. pose proof (diffs_nil prt vs 0%Z) as X.
  split; intros D.
  - assert (N : diffs prt 0 vs <> []) by (intros E; apply X in E; contradiction).
    pose proof (set_dup LO _ _ _ N (apply_lo prt vs [])) as E1. pose proof (set_dup UP _ _ _ N (apply_up prt vs [])) as E2.
    cbn [app length Z.of_nat] in E1, E2. destruct (diffs prt 0 vs) as [|e es]; [congruence|]. cbn [bind].
    rewrite E1. cbn [bind]. rewrite E2. reflexivity.
  - apply X in D. rewrite D. reflexivity.
Qed.
Print Assumptions C32_partial.
(** So the bounds come back exactly when printing keeps every changed bound and unchanged means equal. *)
Theorem C32_precision : forall prt vs lo up, Exists changed vs ->
  readAndApply true (write_bounds prt 0 vs) (map org_l vs) (map org_u vs) = Ok (lo, up) ->
  (same lo (map cur_l vs) /\ same up (map cur_u vs) <->
   Forall (fun v => (if releq (cur_l v) (org_l v) then org_l v else prt (cur_l v)) == cur_l v /\
                    (if releq (cur_u v) (org_u v) then org_u v else prt (cur_u v)) == cur_u v) vs).
Proof.
  intros prt vs lo up D E. rewrite (proj1 (C32_partial prt vs) D) in E. injection E as <- <-. clear D. unfold same.
  induction vs as [|v vs IH]; cbn [map].
  - split; [constructor|]. intros _. split; constructor.
  - rewrite Forall_cons_iff. split.
    + intros (A & B). inversion A; subst. inversion B; subst. split; [split; assumption|]. apply IH. split; assumption.
    + intros ((A & B) & F). apply IH in F. destruct F as (F1 & F2). split; constructor; assumption.
Qed.
Print Assumptions C32_precision.
(** A hand-written file whose last line has no end of line is read correctly. *)
Theorem C32_no_final_newline : forall reuse es, es <> [] -> read_bounds reuse (no_final_nl es) = Ok (of_side LO es, of_side UP es).
Proof.
  intros reuse es N. destruct (exists_last N) as (es0 & e & ->). unfold read_bounds.
  change (sopen (no_final_nl (es0 ++ [e]))) with (clean (no_final_nl (es0 ++ [e]))).
  rewrite pass1_nofinal by lia. cbn [bind]. rewrite pass2_nofinal; [reflexivity|lia|cbn [length]; lia|cbn [length]; lia].
Qed.
Print Assumptions C32_no_final_newline.
Definition twochanges : list bnd := [((1, 5), (0, 5)); ((0, 1), (0, 1)); ((2, 3), (0, 9))].
Example C32_example :
  readAndApply true (write_bounds (fun q => q) 0 twochanges) [0; 0; 0] [5; 1; 9] = Ok ([1; 0; 2], [5; 1; 3]) /\
  readAndApply false (write_bounds (fun q => q) 0 twochanges) [0; 0; 0] [5; 1; 9] = Uninit /\
  readAndApply false (no_final_nl [(LO, 0%Z, 1); (UP, 2%Z, 3); (LO, 2%Z, 2)]) [0; 0; 0] [5; 1; 9] = Ok ([1; 0; 2], [5; 1; 3]).
Proof. repeat split; vm_compute; reflexivity. Qed.
Example C32_example_changed : Exists changed twochanges.
Proof. left. left. reflexivity. Qed.

(** ** C72: starting point files *)
Theorem C72_refuted : ~ C72_full.
Proof. intros H. specialize (H 1%nat 0%nat [1] None eq_refl Logic.I). vm_compute in H. discriminate. Qed.
Print Assumptions C72_refuted.
(** With multipliers the file restores exactly what was written; without, using it reads memory
    never set. *)
Theorem C72_partial : forall n m primals, length primals = n -> (0 < n)%nat ->
  (forall duals, length duals = (2 * n + m)%nat ->
     readStart n m (Some (write_start n m primals (Some duals))) = Ok (true, Some primals, Some duals)) /\
  readStart n m (Some (write_start n m primals None)) = Uninit.
Proof.
  intros n m primals L N.
  assert (FN : forall {A} (l : list A) k, length l = k -> firstn k l = l) by (intros A l k <-; apply firstn_all).
  assert (PR : forall d, readStart n m (Some ([TInt (Z.of_nat n); TInt (Z.of_nat (2 * n + m)); TNL] ++ nums primals ++ d)) =
     let (du, s4) := read_reals (2 * n + m) (clean (TNL :: d)) in do dd <- agets (2 * n + m) du; Ok (true, Some primals, Some dd)).
  { intros d. unfold readStart, read_int, next_tok, sopen. cbn [eofb failb rest app orb skip_nl].
    assert (P1 : (0 <=? Z.of_nat n)%Z = true) by (apply Z.leb_le; lia).
    assert (P2 : (0 <=? Z.of_nat (2 * n + m))%Z = true) by (apply Z.leb_le; lia).
    rewrite P1, P2. cbn [andb]. rewrite !Nat2Z.id.
    change {| rest := TNL :: nums primals ++ d; eofb := false; failb := false |} with (clean (TNL :: nums primals ++ d)).
    pose proof (read_nums primals d) as R. rewrite L in R. rewrite R by (destruct d; [left; reflexivity|right; eauto]).
    assert (M : clean match primals with [] => TNL :: d | _ :: _ => TNL :: d end = clean (TNL :: d)) by (destruct primals; reflexivity).
    rewrite M. pose proof (agets_map primals) as AG. rewrite L in AG. rewrite AG. cbn [bind].
    destruct (read_reals (2 * n + m) (clean (TNL :: d))). reflexivity. }
  split.
  - intros duals LD. unfold write_start. rewrite (FN _ _ _ L), (FN _ _ _ LD). fold (nums primals). fold (nums duals). rewrite (PR (nums duals)).
    pose proof (read_nums duals []) as R. rewrite app_nil_r, LD in R. rewrite R by (left; reflexivity).
    pose proof (agets_map duals) as AG. rewrite LD in AG. rewrite AG. reflexivity.
  - unfold write_start. rewrite (FN _ _ _ L). fold (nums primals). rewrite PR.
    destruct (2 * n + m)%nat as [|k] eqn:K; [lia|]. cbn [read_reals]. unfold read_real, next_tok, clean. cbn [eofb failb orb rest skip_nl].
    destruct (read_reals k {| rest := []; eofb := true; failb := true |}). reflexivity.
Qed.
Print Assumptions C72_partial.
Example C72_example : readStart 1 1 (Some (write_start 1 1 [7] (Some [1; 2; 3]))) = Ok (true, Some [7], Some [1; 2; 3]) /\
  readStart 2 0 (Some (write_start 1 0 [7] (Some [1; 2]))) = OutOfBounds.
Proof. split; vm_compute; reflexivity. Qed.

(** ** C43: option validity *)
(** The first declaration for an option that had none makes it invalid for all other algorithms. *)
Theorem C43_refuted : ~ C43_full.
Proof.
  intros H. specialize (H (fun _ => true) [] 0%nat QG BBB [] [(0%nat, 2%Z)] eq_refl ltac:(discriminate) eq_refl). destruct H as (_ & H). discriminate.
Qed.
Print Assumptions C43_refuted.
(** After any history an option is valid for an algorithm exactly when nothing was said about it, or
    it was declared valid for this algorithm since the last code set or by that code. *)
Theorem C43_partial : forall known h m o a, oruns known h [] = Ok m -> known o = true ->
  exists b, isValid known o a m = Ok b /\ (b = true <-> ~ Exists (about o) h \/ declared o a (rev h)).
Proof.
  intros known h m o a R K. rewrite <- (rev_involutive h) in R. pose proof (oruns_state known (rev h) m R o) as S.
  assert (EX : Exists (about o) (rev h) <-> Exists (about o) h).
  { rewrite !Exists_exists. split; intros (x & I & A); exists x; (split; [|exact A]); [apply in_rev; exact I|apply in_rev in I; exact I]. }
  unfold isValid. rewrite K. eexists. split; [reflexivity|]. destruct (find o m) as [c|].
  - rewrite land_bit. destruct S as (E & T). rewrite T. rewrite EX in E. tauto.
  - rewrite EX in S. split; [intros _; left; exact S|reflexivity].
Qed.
Print Assumptions C43_partial.
(** In particular, once something was said about an option, a further declaration changes its
    validity for that algorithm only, and no declaration touches another option. *)
Theorem C43_independent : forall known h o a m m', oruns known h [] = Ok m -> ostep known (Declare_ o a) m = Ok m' ->
  isValid known o a m' = Ok true /\
  (forall b, b <> a -> Exists (about o) h -> isValid known o b m' = isValid known o b m) /\
  (forall o' b, o' <> o -> isValid known o' b m' = isValid known o' b m).
Proof.
  intros known h o a m m' R S. cbn [ostep] in S. destruct (known o) eqn:K; [|discriminate]. injection S as <-.
  rewrite <- (rev_involutive h) in R. pose proof (oruns_state known (rev h) m R o) as ST.
  split; [|split].
  - unfold isValid. rewrite K, find_put, Nat.eqb_refl, land_bit, bit_lor, Z.eqb_refl, orb_true_r. reflexivity.
  - intros b N E. unfold isValid. rewrite K, find_put, Nat.eqb_refl, land_bit, bit_lor. unfold code_of.
    assert (NB : Z.eqb (abit a) (abit b) = false) by (apply Z.eqb_neq; intros X; apply abit_inj in X; congruence).
    rewrite NB, orb_false_r. destruct (find o m) as [c|].
    + rewrite land_bit. reflexivity.
    + exfalso. apply ST. apply Exists_exists in E. destruct E as (x & I & A). apply Exists_exists. exists x. split; [|exact A]. apply in_rev. rewrite rev_involutive. exact I.
  - intros o' b N. unfold isValid. destruct (known o'); [|reflexivity]. rewrite find_put. destruct (Nat.eqb_spec o o'); [congruence|reflexivity].
Qed.
Print Assumptions C43_independent.
Example C43_example : (do m <- oruns (fun o => Nat.ltb o 5) [SetInfo 1 23; Declare_ 2 OAdec; Declare_ 1 BBB; Declare_ 2 CbcPar] [];
   do a <- isValid (fun o => Nat.ltb o 5) 1 BBB m; do b <- isValid (fun o => Nat.ltb o 5) 1 IFP m; do c <- isValid (fun o => Nat.ltb o 5) 2 OAdec m;
   do d <- isValid (fun o => Nat.ltb o 5) 2 BBB m; do e <- isValid (fun o => Nat.ltb o 5) 3 BBB m; Ok (a, b, c, d, e)) = Ok (true, false, true, false, true).
Proof. vm_compute. reflexivity. Qed.

(** ** C75: option tables *)
(** The table lists exactly the options of the wanted kind of category, each once, in one section per
    category with its header, sections and names in increasing order. ([0] stands for the empty
    category name, under which nothing is registered.) *)
Theorem C75 : forall sort catinfo which opts, lsort_ok sort -> NoDup opts -> Forall (fun o => 0 < fst o)%nat opts ->
  exists gs, table 0 (chooseOptions sort catinfo which opts) = flat_map section_of gs /\
    increasing (map fst gs) /\ Forall (fun g => snd g <> [] /\ increasing (snd g)) gs /\
    forall c n, (exists ns, In (c, ns) gs /\ In n ns) <-> In (c, n) opts /\ catinfo c = which.
Proof.
  intros sort catinfo which opts SO ND C. unfold chooseOptions.
  set (l := filter (fun o : opt => Nat.eqb (catinfo (fst o)) which) opts).
  assert (NDl : NoDup l) by (apply NoDup_filter; exact ND).
  destruct (SO l) as (P & O).
  assert (NDs : NoDup (sort optcmp l)) by (eapply Permutation_NoDup; [exact P|exact NDl]).
  pose proof (sorted_of_contract _ NDs O) as S.
  assert (POS : Forall (fun o => 0 < fst o)%nat (sort optcmp l)).
  { apply Forall_forall. intros o Ho. apply (Permutation_in _ (Permutation_sym P)) in Ho. apply filter_In in Ho. destruct Ho as (Ho & _).
    rewrite Forall_forall in C. exact (C _ Ho). }
  destruct (table_sections _ 0%nat S POS) as (gs & T & I & _ & F & E). exists gs. split; [exact T|]. split; [exact I|]. split; [exact F|].
  intros c n. transitivity (In (c, n) (sort optcmp l)).
  - rewrite E. rewrite in_flat_map. split.
    + intros (ns & Hg & Hn). exists (c, ns). split; [exact Hg|]. cbn [fst snd]. apply in_map_iff. eauto.
    + intros ((c', ns) & Hg & Hn). cbn [fst snd] in Hn. apply in_map_iff in Hn. destruct Hn as (n' & En & Hn). injection En as -> ->. eauto.
  - split; intros H.
    + apply (Permutation_in _ (Permutation_sym P)) in H. apply filter_In in H. destruct H as (H & W). apply Nat.eqb_eq in W. auto.
    + apply (Permutation_in _ P). apply filter_In. destruct H as (H & W). split; [exact H|]. apply Nat.eqb_eq. exact W.
Qed.
Print Assumptions C75.
(** A sort meeting the contract: insertion. *)
Fixpoint oinsert (a : opt) (l : list opt) : list opt := match l with [] => [a] | b :: l' => if optcmp b a then b :: oinsert a l' else a :: l end.
Definition osort_ins (_ : opt -> opt -> bool) (l : list opt) : list opt := fold_right oinsert [] l.
Lemma optcmp_le a b c : optcmp b a = false -> optcmp c b = false -> optcmp c a = false.
Proof.
  destruct a as (a1, a2), b as (b1, b2), c as (c1, c2). unfold optcmp. cbn [fst snd].
  destruct (Nat.eqb_spec b1 a1), (Nat.eqb_spec c1 b1), (Nat.eqb_spec c1 a1); rewrite ?Nat.ltb_ge; intros; lia.
Qed.
Lemma optcmp_asym a b : optcmp b a = true -> optcmp a b = false.
Proof.
  destruct a as (a1, a2), b as (b1, b2). unfold optcmp. cbn [fst snd].
  destruct (Nat.eqb_spec b1 a1), (Nat.eqb_spec a1 b1); rewrite ?Nat.ltb_ge, ?Nat.ltb_lt; intros; lia.
Qed.
Inductive noless : list opt -> Prop :=
| nl_nil : noless []
| nl_cons : forall a l, Forall (fun b => optcmp b a = false) l -> noless l -> noless (a :: l).
Lemma oinsert_perm a l : Permutation (a :: l) (oinsert a l).
Proof.
  induction l as [|b l IH]; [reflexivity|]. cbn [oinsert]. destruct (optcmp b a); [|reflexivity]. rewrite <- IH. apply perm_swap.
Qed.
Lemma oinsert_noless a l : noless l -> noless (oinsert a l).
Proof.
  induction l as [|b l IH]; intros S; [constructor; constructor|]. inversion S; subst. cbn [oinsert]. destruct (optcmp b a) eqn:E.
  - constructor; [|apply IH; assumption]. apply (Permutation_Forall (oinsert_perm a l)). constructor; [apply optcmp_asym; exact E|assumption].
  - constructor; [|exact S]. constructor; [exact E|]. eapply Forall_impl; [|eassumption]. intros c Hc. apply (optcmp_le a b c); assumption.
Qed.
Lemma osort_ok : lsort_ok osort_ins.
Proof.
  intros l. split.
  - unfold osort_ins. induction l as [|a l IH]; [reflexivity|]. cbn [fold_right]. rewrite <- oinsert_perm. constructor. exact IH.
  - assert (N : noless (osort_ins optcmp l)) by (unfold osort_ins; induction l as [|a l IH]; [constructor|apply oinsert_noless; exact IH]).
    revert N. generalize (osort_ins optcmp l). clear l. intros l N. induction N as [|c l F N IH]; intros i j a b L A B.
    + destruct i; discriminate.
    + destruct j as [|j]; [lia|]. destruct i as [|i].
      * cbn in A, B. injection A as <-. rewrite Forall_forall in F. exact (F _ (nth_error_In _ _ B)).
      * apply (IH i j); [lia|exact A|exact B].
Qed.
Example C75_example : table 0 (chooseOptions osort_ins (fun c => Nat.modulo c 2) 1 [(3, 1); (1, 2); (2, 3); (3, 0); (1, 5)]%nat) =
  [Header 1; Line (1, 2); Line (1, 5); Header 3; Line (3, 0); Line (3, 1)]%nat.
Proof. vm_compute. reflexivity. Qed.

(** ** C44: the C interface *)
Definition req1 : creq := {| q_n := 1; q_xl := Some [0]; q_xu := Some [9]; q_m := 1; q_gl := Some [1]; q_gu := Some [2]; q_jac := 1; q_hess := 1; q_style := 0;
  q_f := true; q_g := true; q_grad := true; q_jacf := true; q_h := true; q_vt := Some [2%Z]; q_vl := Some [0%Z]; q_cl := Some [0%Z]; q_sos := Some sos1; q_br := None |}.
Definition out1 : cout := {| o_x := Some [3]; o_g := Some [0]; o_obj := Some 0; o_mg := None; o_ml := None; o_mu := None |}.
Definition found1 : found := {| f_x := [5]; f_g := [1]; f_obj := 8 |}.
Theorem C44_refuted : ~ C44_full.
Proof.
  intros H. destruct (createProblem req1) as [[p|]| | | | | | |] eqn:E; try discriminate E.
  specialize (H (false, false) req1 p out1 [3] (fun _ => Some found1)).
  assert (S1 : req_sizes req1) by (repeat split). assert (S2 : out_sizes 1 1 out1) by (repeat split).
  destruct (H S1 E S2 eq_refl) as (v & o' & B & T & _). vm_compute in E. injection E as <-. vm_compute in B. injection B as <- <-. discriminate.
Qed.
Print Assumptions C44_refuted.
(** Whatever the branch-and-bound finds, the solve returns 0 and the caller's arrays are unchanged:
    the solution is never delivered. *)
Theorem C44_outputs_refuted : forall left p o solver c v o', bonminSolve left p o solver = Ok (c, v, o') -> c = 0%Z /\ o' = o.
Proof.
  intros left p o solver c v o' H. unfold bonminSolve in H. destruct (o_x o) as [x|]; [|injection H as <- _ <-; split; reflexivity].
  repeat (apply bind_ok in H; destruct H as (? & _ & H)). destruct (fst left || snd left)%bool; [discriminate|].
  destruct (solver _); injection H as <- _ <-; split; reflexivity.
Qed.
Print Assumptions C44_outputs_refuted.
(** What holds: a problem is created exactly from well-formed arguments; if the two fields never
    written happen to be NULL the solver sees the sizes, bounds, types, starting point and scaling
    given, but no SOS constraints and no branching information; otherwise the solve crashes. *)
Theorem C44_partial : forall q, req_sizes q ->
  (req_valid q <-> exists p, createProblem q = Ok (Some p)) /\ (~ req_valid q -> createProblem q = Ok None) /\
  forall p o x left solver, createProblem q = Ok (Some p) -> out_sizes (Z.to_nat (q_n q)) (Z.to_nat (q_m q)) o -> o_x o = Some x ->
    match left with
    | (false, false) => exists v, bonminSolve left p o solver = Ok (0%Z, Some v, o) /\ forwards q v /\
        t_x0 v = x /\ t_lam0 v = o_mg o /\ t_zl0 v = o_ml o /\ t_zu0 v = o_mu o /\ t_os v = 1 /\ t_xs v = None /\ t_gs v = None /\ t_sos v = None /\ t_br v = None
    | _ => bonminSolve left p o solver = NullDeref
    end.
Proof.
  intros q SZ. assert (DEC : req_valid q \/ ~ req_valid q).
  { rewrite <- invalid_iff. destruct (invalid q); [right; discriminate|left; reflexivity]. }
  assert (NV : ~ req_valid q -> createProblem q = Ok None).
  { intros N. rewrite <- invalid_iff in N. unfold createProblem. fold (invalid q). destruct (invalid q); [reflexivity|congruence]. }
  split; [|split; [exact NV|]].
  - split.
    + intros V. destruct (create_ok q SZ V) as (p & E & _). eauto.
    + intros (p & E). destruct DEC as [V|N]; [exact V|]. rewrite NV in E by exact N. discriminate.
  - intros p o x left solver E OS X.
    destruct DEC as [V|N]; [|rewrite NV in E by exact N; discriminate].
    destruct (create_ok q SZ V) as (p' & E' & PN & PM & PJ & PH & PST & PXL & PXU & PVT & PVL & _ & POS & PXS & PGS & PG0 & PG1).
    rewrite E in E'. injection E' as <-.
    destruct OS as (O1 & O2 & O3 & O4 & O5). rewrite X in O1. cbn [opt_len] in O1.
    assert (NN : p_n p = Z.to_nat (q_n q)) by lia. assert (MM : p_m p = Z.to_nat (q_m q)) by lia.
    assert (GV : exists gl gu, (if Nat.ltb 0 (p_m p) then deref (p_gl p) else Ok []) = Ok gl /\ (if Nat.ltb 0 (p_m p) then deref (p_gu p) else Ok []) = Ok gu /\
       ((0 < q_m q)%Z -> q_gl q = Some gl /\ q_gu q = Some gu)).
    { destruct (Nat.ltb 0 (p_m p)) eqn:LT.
      - apply Nat.ltb_lt in LT. destruct PG1 as (G1 & G2 & G3 & G4 & _); [lia|]. rewrite G1, G2.
        destruct (q_gl q) as [gl|]; [|congruence]. destruct (q_gu q) as [gu|]; [|congruence]. exists gl, gu. split; [reflexivity|]. split; [reflexivity|]. auto.
      - apply Nat.ltb_ge in LT. exists [], []. split; [reflexivity|]. split; [reflexivity|]. lia. }
    destruct GV as (gl & gu & GL & GU & GQ).
    assert (BS : bonminSolve left p o solver =
      if (fst left || snd left)%bool then NullDeref else
      let v := {| t_n := p_n p; t_m := p_m p; t_jac := p_jac p; t_hess := p_hess p; t_fortran := negb (Z.eqb (p_style p) 0);
        t_xl := p_xl p; t_xu := p_xu p; t_gl := gl; t_gu := gu; t_vt := p_vt p; t_vl := p_vl p; t_cl := p_cl p;
        t_x0 := x; t_lam0 := o_mg o; t_zl0 := o_ml o; t_zu0 := o_mu o; t_os := p_os p; t_xs := p_xs p; t_gs := p_gs p; t_sos := None; t_br := None |} in
      match solver v with Some r => Ok (0%Z, Some v, finalize r o) | None => Ok (0%Z, Some v, o) end).
    { unfold bonminSolve. rewrite X, NN, MM in *. rewrite (take_ok _ x O1). cbn [bind].
      rewrite (opt_take_ok _ _ O3), (opt_take_ok _ _ O4), (opt_take_ok _ _ O5). cbn [bind]. rewrite GL. cbn [bind]. rewrite GU. cbn [bind]. reflexivity. }
    rewrite BS. destruct left as ([|], [|]); try reflexivity. cbn [fst snd orb]. cbv zeta.
    eexists. split; [match goal with |- context [solver ?a] => destruct (solver a) end; reflexivity|].
    cbn [t_x0 t_lam0 t_zl0 t_zu0 t_os t_xs t_gs t_sos t_br].
    split; [|rewrite POS, PXS, PGS; auto 10].
    unfold forwards. cbn [t_n t_m t_jac t_hess t_fortran t_xl t_xu t_vt t_vl t_gl t_gu t_cl].
    split; [exact PN|]. split; [exact PM|]. split; [exact PJ|]. split; [exact PH|].
    split; [rewrite PST, negb_false_iff; apply Z.eqb_eq|].
    split; [exact PXL|]. split; [exact PXU|]. split; [exact PVT|]. split; [exact PVL|].
    intros P. destruct (GQ P) as (Q1 & Q2). split; [exact Q1|]. split; [exact Q2|]. apply PG1, P.
Qed.
Print Assumptions C44_partial.
(** The scaling is the last one set, and nothing else changes. *)
Theorem C44_scaling : forall os xs gs p, opt_len (p_n p) xs -> opt_len (p_m p) gs ->
  exists p', setScaling os xs gs p = Ok p' /\ p_os p' = os /\ p_xs p' = xs /\ p_gs p' = gs /\
    p_n p' = p_n p /\ p_xl p' = p_xl p /\ p_xu p' = p_xu p /\ p_m p' = p_m p /\ p_gl p' = p_gl p /\ p_gu p' = p_gu p /\ p_vt p' = p_vt p.
Proof.
  intros os xs gs p X G. unfold setScaling.
  change (match xs with Some l => do r <- take (p_n p) l; Ok (Some r) | None => Ok None end) with (match xs with None => Ok None | Some l => do r <- take (p_n p) l; Ok (Some r) end).
  assert (EX : match xs with Some l => do r <- take (p_n p) l; Ok (Some r) | None => Ok None end = Ok xs).
  { destruct xs as [l|]; [|reflexivity]. cbn [opt_len] in X. rewrite (take_ok _ l X). reflexivity. }
  assert (EG : match gs with Some l => do r <- take (p_m p) l; Ok (Some r) | None => Ok None end = Ok gs).
  { destruct gs as [l|]; [|reflexivity]. cbn [opt_len] in G. rewrite (take_ok _ l G). reflexivity. }
  rewrite EX. cbn [bind]. rewrite EG. cbn [bind]. eexists. split; [reflexivity|]. cbn. auto 20.
Qed.
Print Assumptions C44_scaling.
Example C44_example : (do p <- createProblem req1; match p with Some p => do ' (c, v, o) <- bonminSolve (false, false) p out1 (fun _ => Some found1); Ok (c, o_x o, o_obj o) | None => Thrown end) = Ok (0%Z, Some [3], Some 0).
Proof. vm_compute. reflexivity. Qed.

(** ** C73: user functions see the point being evaluated *)
Theorem C73 : forall n has_h cs, calls_ok n has_h None cs -> exists seen, eval_calls n has_h cs None = Ok seen /\ Forall2 sees cs seen.
Proof. intros n has_h cs OK. apply (eval_calls_ok n has_h cs None None); [discriminate|exact OK]. Qed.
Print Assumptions C73.
Definition calls1 : list ecall :=
  [{| e_kind := KJac; e_mode := Struct; e_x := None; e_new := false |}; {| e_kind := KF; e_mode := Values; e_x := Some [1]; e_new := true |};
   {| e_kind := KG; e_mode := Values; e_x := Some [1]; e_new := false |}; {| e_kind := KH; e_mode := Struct; e_x := None; e_new := false |};
   {| e_kind := KJac; e_mode := Values; e_x := Some [1]; e_new := false |}; {| e_kind := KGrad; e_mode := Values; e_x := Some [2]; e_new := true |}].
Example C73_example : eval_calls 1 true calls1 None = Ok [Some None; Some (Some [1]); Some (Some [1]); Some (Some [1]); Some (Some [1]); Some (Some [2])] /\ calls_ok 1 true None calls1.
Proof. split; [vm_compute; reflexivity|]. cbn. repeat split; auto; try discriminate; intuition discriminate. Qed.

(** ** C74: storage of a C interface problem *)
(** With no constraints one array is never released. *)
Theorem C74_refuted : ~ C74_full.
Proof. intros H. specialize (H 0%nat []). discriminate. Qed.
Print Assumptions C74_refuted.
(** After any sequence of scaling calls freeing never releases anything twice, and releases
    everything when there is a constraint. *)
Theorem C74_partial : forall m h, (do c <- mem_scalings h (mem_create m); mem_free m c) = Ok (if Nat.ltb 0 m then [] else [Bcl]).
Proof.
  intros m h. destruct (mem_steps m h (mem_create m)) as (c & -> & I); [left; repeat split|]. cbn [bind]. apply mem_free_ok, I.
Qed.
Print Assumptions C74_partial.
Example C74_example : (do c <- mem_scalings [(true, false); (true, true); (false, true)] (mem_create 2); Ok (h_live c)) = Ok [Bgs; Binfo; BxL; BxU; BgL; BgU; Bvt; Bvl; Bcl].
Proof. vm_compute. reflexivity. Qed.
