(** Theorems: heuristics built on a second branch-and-bound, copies of the set-up
    (C107 - C114). *)
From Coq Require Import Sorted.
From Verif Require Import Base Arr Oad_Model Loc_Model Loc_Spec Loc_Proofs.
#[local] Open Scope Q_scope.

(** ** A concrete case *)
(** Two variables, the first integer in [0,4]; the incumbent is (2,1), the current point
    (2,0); the inner search answers (2,0) with value 3 = f(2,0), f(x) = x0 + x1 + 1. *)
Definition exF (x : list Q) : Q := nth 0 x 0 + nth 1 x 0 + 1.
Definition exC := mkCols [Fin 0; MInf] [Fin 4; PInf].
Definition exE := mkEnv 0 1 1 (Some [2; 1]) [2; 0] [(0%nat, (Fin 0, Fin 4))] None exC (Fin 4).
Definition exE0 := mkEnv 0 1 0 None [2; 0] [(0%nat, (Fin 0, Fin 4))] None exC PInf.
Definition exO : prefix -> problem -> ext -> option (list Q * Q) := fun _ P c =>
  match q_goal P with Distance _ _ => None | _ => if ext_ltb (Fin 3) c then Some ([2; 0], 3) else None end.
Definition exBB : prefix -> bool := fun _ => false.
Definition exSt := mkSetup (Some 0%nat) (Some 1%nat) [] 3 true.
Definition exH := mkHeap [1%nat; 0%nat] 2.
Lemma exH_ok : heap_ok exH.
Proof. split; cbn; [repeat constructor; simpl; intuition lia|intros i [<-|[<-|[]]]; lia]. Qed.
Lemma exE_ok : env_ok 2 exE.
Proof.
  split; cbn; try reflexivity.
  - intros b H. injection H as <-. reflexivity.
  - intros i b [H|[]]. injection H as <- <-. lia.
  - intros c H. discriminate H.
  - split; reflexivity.
Qed.
Lemma exE0_ok : env_ok 2 exE0.
Proof.
  split; cbn; try reflexivity; try discriminate.
  - intros i b [H|[]]. injection H as <- <-. lia.
  - split; reflexivity.
Qed.
Lemma exO_sizes : sizes_ok 2 exO.
Proof. intros px P c x v. unfold exO. destruct (q_goal P); [|discriminate|]; destruct (ext_ltb (Fin 3) c); intros H; try discriminate H; injection H as <- <-; reflexivity. Qed.
Lemma exSt_ok : setup_ok exSt exH.
Proof.
  repeat split; cbn; try (constructor; fail); try (intros; contradiction); intros i H; injection H as <-; auto.
Qed.

(** ** C107 *)
Theorem C107_refuted : ~ C107_full.
Proof.
  intros H. destruct (H 2%nat exO exBB exSt exE0 rins0 (lb0 1) [] [true; false] 0 [0; 0] exH exH_ok exSt_ok exE0_ok exO_sizes eq_refl eq_refl)
    as (_ & _ & (r & F & _) & _).
  - intros v f c [].
  - vm_compute in F. discriminate F.
Qed.
Print Assumptions C107_refuted.

(** Fix-and-solve, whenever it gets to its local search, releases its solver twice. *)
Definition fs_due (e : env) : Prop := (e_nsol e <= 0)%Z /\ (e_node e <= 1000)%nat /\ (e_node e mod 100 = 0)%nat.
Lemma fs_fix_run : forall os c k, (forall v f c, In (v, f) os -> f c = Ok c) ->
  fs_fix os c k = Ok (c, (k + length (filter (fun p => Qeq_bool (fst p) 0) os))%nat).
Proof.
  induction os as [|[v f] os IH]; intros c k HF; [cbn; rewrite Nat.add_0_r; reflexivity|].
  cbn [fs_fix filter fst]. assert (HF' : forall v f c, In (v, f) os -> f c = Ok c) by (intros v' f' c' I; apply (HF v' f'); right; exact I).
  destruct (Qeq_bool v 0).
  - rewrite (HF v f c (or_introl eq_refl)). cbn [bind length]. rewrite IH by exact HF'. do 2 f_equal. lia.
  - apply IH. exact HF'.
Qed.
(** The bounds feasibleRegion sets do not matter: any effect that keeps the number of
    columns. *)
Lemma fs_fix_any n : forall os c k, (forall v f c, In (v, f) os -> cols_n n c -> exists c', f c = Ok c' /\ cols_n n c') -> cols_n n c ->
  exists c', fs_fix os c k = Ok (c', (k + length (filter (fun p => Qeq_bool (fst p) 0) os))%nat) /\ cols_n n c'.
Proof.
  induction os as [|[v f] os IH]; intros c k HF CN; [exists c; cbn; rewrite Nat.add_0_r; auto|].
  cbn [fs_fix filter fst].
  assert (HF' : forall v f c, In (v, f) os -> cols_n n c -> exists c', f c = Ok c' /\ cols_n n c') by (intros v' f' c' I; apply (HF v' f'); right; exact I).
  destruct (Qeq_bool v 0).
  - destruct (HF v f c (or_introl eq_refl) CN) as (c1 & E1 & CN1). rewrite E1. cbn [bind length].
    destruct (IH c1 (S k) HF' CN1) as (c' & E & CN'). exists c'. rewrite E. split; [do 2 f_equal; lia|exact CN'].
  - apply IH; assumption.
Qed.
Theorem C107_fix_and_solve : forall n O bb s e os val buf h, heap_ok h -> s_objs s = [] -> env_ok n e -> sizes_ok n O -> length buf = n ->
  (forall v f c, In (v, f) os -> cols_n n c -> exists c', f c = Ok c' /\ cols_n n c') ->
  let enough := (length os / 3 <= length (filter (fun p => Qeq_bool (fst p) 0) os))%nat in
  (fs_due e /\ enough -> fs_solution O bb s e os val buf h = Dangling) /\
  (fs_due e /\ ~ enough -> exists r, fs_solution O bb s e os val buf h = Ok r /\ r_ret r = 0%nat /\ r_log r = None /\ h_live (r_heap r) = h_next h :: h_live h) /\
  (~ fs_due e -> fs_solution O bb s e os val buf h = Ok (nothing val buf h)).
Proof.
  intros n O bb s e os val buf h HO SO EO SZ LB HF enough.
  assert (DUE : fs_due e -> fs_solution O bb s e os val buf h =
    (let nlp := alloc h in
     let base := match e_nlp e with Some c => c | None => e_setup e end in
     do ' (c, n) <- fs_fix os base 0;
     if Nat.ltb n (length os / 3) then Ok (nothing val buf (snd nlp))
     else do r <- doLocalSearch O bb s LocalSolver (fst nlp) (mkProblem c Original) (e_cutoff e) buf val (snd nlp);
          do h <- release (fst nlp) (r_heap r); Ok (mkRes (r_ret r) (r_val r) (r_sol r) h (r_log r)))).
  { intros (D1 & D2 & D3). unfold fs_solution. replace (Z.ltb 0 (e_nsol e)) with false by (symmetry; apply Z.ltb_ge; exact D1).
    replace (Nat.ltb 1000 (e_node e)) with false by (symmetry; apply Nat.ltb_ge; exact D2).
    rewrite D3. rewrite Nat.eqb_refl. reflexivity. }
  set (base := match e_nlp e with Some c => c | None => e_setup e end) in *.
  assert (CB : cols_n n base).
  { unfold base. destruct (e_nlp e) as [c|] eqn:E; [exact (eo_nlp n e EO c E)|exact (eo_setup n e EO)]. }
  destruct (fs_fix_any n os base 0 HF CB) as (c & EF & CN). cbn [Nat.add] in EF.
  split; [|split].
  - intros [D E]. rewrite (DUE D). cbv zeta. rewrite EF. cbn [bind].
    replace (Nat.ltb _ (length os / 3)) with false by (symmetry; apply Nat.ltb_ge; exact E).
    unfold alloc. cbn [fst snd].
    destruct (dls_ok n O bb s LocalSolver (mkProblem c Original) (e_cutoff e) buf val (h_live h) (h_next h) SO (fresh_next h HO) CN SZ LB) as (nx & R).
    rewrite R. clear R. cbn [bind].
    rewrite release_gone; [reflexivity|].
    destruct (O LocalSolver (mkProblem c Original) (e_cutoff e)) as [[x v]|]; cbn [r_heap h_live]; intros I; apply (fresh_next h HO) in I; lia.
  - intros [D E]. rewrite (DUE D). cbv zeta. rewrite EF. cbn [bind].
    replace (Nat.ltb _ (length os / 3)) with true by (symmetry; apply Nat.ltb_lt; unfold enough in E; lia).
    eexists. split; [reflexivity|]. repeat split.
  - intros ND. unfold fs_solution. destruct (Z.ltb 0 (e_nsol e)) eqn:E1; [reflexivity|]. destruct (Nat.ltb 1000 (e_node e)) eqn:E2; [reflexivity|].
    destruct (Nat.eqb (e_node e mod 100) 0) eqn:E3; [|reflexivity].
    exfalso. apply ND. apply Z.ltb_ge in E1. apply Nat.ltb_ge in E2. apply Nat.eqb_eq in E3. split; [exact E1|split; assumption].
Qed.
Print Assumptions C107_fix_and_solve.

(** The dummy pump always does so at the root. *)
Lemma dp_point_run : forall ty i x, (i + length ty <= length x)%nat -> exists p, dp_point i ty x = Ok p.
Proof.
  induction ty as [|t ty IH]; intros i x L; [eexists; reflexivity|]. cbn [dp_point length] in *. destruct t.
  - rewrite (rd_get i x 0) by lia. cbn [bind]. destruct (IH (S i) x) as ([vs is] & E); [lia|]. rewrite E. eexists. reflexivity.
  - apply IH. lia.
Qed.
Theorem C107_dummy_pump : forall n O bb s e ty val buf h, heap_ok h -> s_objs s = [] -> env_ok n e -> sizes_ok n O -> length buf = n -> length ty = n ->
  dp_solution O bb s e ty val buf h = if (Nat.eqb (e_node e) 0 && Nat.leb (e_pass e) 1)%bool then Dangling else Ok (nothing val buf h).
Proof.
  intros n O bb s e ty val buf h HO SO EO SZ LB LT. unfold dp_solution.
  destruct (Nat.eqb (e_node e) 0); cbn [negb orb andb]; [|reflexivity].
  destruct (Nat.leb (e_pass e) 1) eqn:P.
  - apply Nat.leb_le in P. replace (Nat.ltb 1 (e_pass e)) with false by (symmetry; apply Nat.ltb_ge; exact P). cbv zeta.
    destruct (dp_point_run ty 0 (e_cur e)) as ([vs is] & E); [rewrite (eo_cur n e EO); lia|]. rewrite E. cbn [bind].
    unfold alloc. cbn [fst snd].
    destruct (dls_ok n O bb s LocalSolver (mkProblem (e_setup e) (Distance vs is)) (e_cutoff e) buf val (h_live h) (h_next h) SO (fresh_next h HO) (eo_setup n e EO) SZ LB) as (nx & R).
    rewrite R. clear R. cbn [bind].
    rewrite release_gone; [reflexivity|].
    destruct (O _ _ _) as [[x v]|]; cbn [r_heap h_live]; intros I; apply (fresh_next h HO) in I; lia.
  - apply Nat.leb_gt in P. replace (Nat.ltb 1 (e_pass e)) with true by (symmetry; apply Nat.ltb_lt; exact P). reflexivity.
Qed.
Print Assumptions C107_dummy_pump.

(** RINS keeps its solver for ever exactly when it had an incumbent, it was its turn and
    not more than a tenth of the integer variables agreed. *)
Definition rins_due (e : env) (R : rins) : Prop := n_often R <> 0%Z /\ Z.rem (Z.of_nat (e_node e)) (n_often R) = 0%Z.
Definition agreeing (e : env) (best : list Q) : nat := length (filter (agrees best (e_cur e)) (e_ints e)).
Definition base_cols (e : env) : cols := match e_nlp e with Some c => c | None => e_setup e end.
Lemma base_n n e : env_ok n e -> cols_n n (base_cols e).
Proof. intros EO. unfold base_cols. destruct (e_nlp e) as [c|] eqn:E; [exact (eo_nlp n e EO c E)|exact (eo_setup n e EO)]. Qed.
Lemma rins_cases n O bb s e R val buf h : heap_ok h -> s_objs s = [] -> env_ok n e -> sizes_ok n O -> length buf = n ->
  (~ rins_due e R -> rins_solution O bb s e R val buf h = Ok (R, nothing val buf h)) /\
  (rins_due e R -> e_best e = None -> rins_solution O bb s e R val buf h = Ok (mkRins (n_often R) (e_nsol e), nothing val buf h)) /\
  (forall best, rins_due e R -> e_best e = Some best ->
    exists c nx, cols_n n c /\ rins_fix (e_ints e) best (e_cur e) (base_cols e) 0 = Ok (c, agreeing e best) /\
    rins_solution O bb s e R val buf h =
      if Nat.ltb (length (e_ints e) / 10) (agreeing e best) then
        match O Rins (mkProblem c Original) (e_cutoff e) with
        | Some (x, v) => Ok (mkRins (Z.max 10 (Z.quot (n_often R) 2)) (e_nsol e + 1), mkRes 1 v x (mkHeap (h_live h) nx) (Some (Rins, mkProblem c Original, e_cutoff e)))
        | None => Ok (mkRins (Z.min 10000 (2 * n_often R)) (e_nsol e), mkRes 0 val buf (mkHeap (h_live h) nx) (Some (Rins, mkProblem c Original, e_cutoff e)))
        end
      else Ok (mkRins (Z.min 10000 (2 * n_often R)) (e_nsol e - 1), nothing val buf (snd (alloc h)))).
Proof.
  intros HO SO EO SZ LB. unfold rins_solution, rins_due.
  destruct (Z.eqb (n_often R) 0) eqn:E0.
  { apply Z.eqb_eq in E0. split; [reflexivity|]. split; intros; tauto. }
  apply Z.eqb_neq in E0. destruct (Z.eqb (Z.rem (Z.of_nat (e_node e)) (n_often R)) 0) eqn:E1; cbn [negb].
  2:{ apply Z.eqb_neq in E1. split; [reflexivity|]. split; intros; tauto. }
  apply Z.eqb_eq in E1. split; [intros H; exfalso; apply H; auto|]. split; [intros _ B; rewrite B; reflexivity|].
  intros best _ B. rewrite B. cbv zeta. fold (base_cols e).
  destruct (rins_fix_run n (e_ints e) best (e_cur e) (base_cols e) 0 (base_n n e EO) (eo_best n e EO best B) (eo_cur n e EO) (eo_ints n e EO)) as (c & EF & CN & _).
  cbn [Nat.add] in EF. fold (agreeing e best) in EF. rewrite EF. cbn [bind].
  destruct (dls_ok n O bb s Rins (mkProblem c Original) (e_cutoff e) buf val (h_live h) (h_next h) SO (fresh_next h HO) CN SZ LB) as (nx & D).
  exists c, nx. split; [exact CN|]. split; [reflexivity|]. unfold alloc. cbn [fst snd].
  destruct (Nat.ltb (length (e_ints e) / 10) (agreeing e best)).
  - rewrite D. cbn [bind]. destruct (O Rins (mkProblem c Original) (e_cutoff e)) as [[x v]|]; reflexivity.
  - reflexivity.
Qed.
Theorem C107_rins_partial : forall n O bb s e R val buf h, heap_ok h -> s_objs s = [] -> env_ok n e -> sizes_ok n O -> length buf = n ->
  exists R' r, rins_solution O bb s e R val buf h = Ok (R', r) /\
    ((exists best, rins_due e R /\ e_best e = Some best /\ (agreeing e best <= length (e_ints e) / 10)%nat) /\ h_live (r_heap r) = h_next h :: h_live h \/
     ~ (exists best, rins_due e R /\ e_best e = Some best /\ (agreeing e best <= length (e_ints e) / 10)%nat) /\ h_live (r_heap r) = h_live h).
Proof.
  intros n O bb s e R val buf h HO SO EO SZ LB. destruct (rins_cases n O bb s e R val buf h HO SO EO SZ LB) as (A & B & C).
  assert (D : rins_due e R \/ ~ rins_due e R).
  { unfold rins_due. destruct (Z.eq_dec (n_often R) 0); [tauto|]. destruct (Z.eq_dec (Z.rem (Z.of_nat (e_node e)) (n_often R)) 0); tauto. }
  destruct D as [D|D].
  - destruct (e_best e) as [best|] eqn:EB.
    + destruct (C best D eq_refl) as (c & nx & CN & EF & ->). destruct (Nat.ltb (length (e_ints e) / 10) (agreeing e best)) eqn:E.
      * apply Nat.ltb_lt in E.
        assert (NO : ~ (exists best0, rins_due e R /\ Some best = Some best0 /\ (agreeing e best0 <= length (e_ints e) / 10)%nat)).
        { intros (b & _ & Eb & L). injection Eb as <-. lia. }
        destruct (O Rins (mkProblem c Original) (e_cutoff e)) as [[x v]|]; do 2 eexists; (split; [reflexivity|]); right; (split; [exact NO|reflexivity]).
      * apply Nat.ltb_ge in E. do 2 eexists. split; [reflexivity|]. left. split; [|reflexivity]. exists best. auto.
    + rewrite (B D eq_refl). do 2 eexists. split; [reflexivity|]. right. split; [|reflexivity]. intros (b & _ & X & _). discriminate X.
  - rewrite (A D). do 2 eexists. split; [reflexivity|]. right. split; [|reflexivity]. intros (b & X & _). tauto.
Qed.
Print Assumptions C107_rins_partial.

(** Local branching and the pump for MINLPs release what they clone, once. *)
Lemma gather_run : forall ints x, (forall i b, In (i, b) ints -> (i < length x)%nat) -> gather ints x = Ok (map (fun p => nth (fst p) x 0) ints).
Proof.
  induction ints as [|[i b] ints IH]; intros x H; [reflexivity|]. cbn [gather map fst].
  rewrite (rd_get i x 0) by (apply (H i b); left; reflexivity). cbn [bind]. rewrite IH; [reflexivity|]. intros i' b' I. apply (H i' b'). right. exact I.
Qed.
Definition lb_problem (e : env) (best : list Q) : problem :=
  mkProblem (e_setup e) (LocalBranch (map (fun p => nth (fst p) best 0) (e_ints e)) (map fst (e_ints e)) (inject_Z (Z.of_nat (length (e_ints e) / 2)))).
Lemma lb_cases n O bb s e L val buf h : heap_ok h -> s_objs s = [] -> env_ok n e -> sizes_ok n O -> length buf = n ->
  exists nx, lb_solution O bb s e L val buf h =
    if Z.leb (e_nsol e) (l_sols L) then Ok (L, nothing val buf h)
    else match e_best e with
         | None => Ok (mkLb (e_nsol e) (l_when L), nothing val buf h)
         | Some best => match O LocalSolver (lb_problem e best) (e_cutoff e) with
            | Some (x, v) => Ok (mkLb (e_nsol e + 1) (l_when L), mkRes 1 v x (mkHeap (h_live h) nx) (Some (LocalSolver, lb_problem e best, e_cutoff e)))
            | None => Ok (mkLb (e_nsol e) (l_when L), mkRes 0 val buf (mkHeap (h_live h) nx) (Some (LocalSolver, lb_problem e best, e_cutoff e)))
            end
         end.
Proof.
  intros HO SO EO SZ LB. unfold lb_solution. destruct (Z.leb (e_nsol e) (l_sols L)); [exists 0%nat; reflexivity|].
  destruct (e_best e) as [best|] eqn:EB; [|exists 0%nat; reflexivity]. cbv zeta.
  rewrite gather_run by (intros i b I; rewrite (eo_best n e EO best EB); apply (eo_ints n e EO i b I)). cbn [bind]. fold (lb_problem e best).
  assert (CN : cols_n n (q_cols (lb_problem e best))) by exact (eo_setup n e EO).
  destruct (dls_ok n O bb s LocalSolver (lb_problem e best) (e_cutoff e) buf val (h_live h) (h_next h) SO (fresh_next h HO) CN SZ LB) as (nx & D).
  exists nx. unfold alloc. cbn [fst snd]. rewrite D. cbn [bind]. destruct (O LocalSolver (lb_problem e best) (e_cutoff e)) as [[x v]|]; reflexivity.
Qed.
Theorem C107_others_partial : forall n O bb s e L val buf h, heap_ok h -> s_objs s = [] -> env_ok n e -> sizes_ok n O -> length buf = n ->
  (exists L' r, lb_solution O bb s e L val buf h = Ok (L', r) /\ h_live (r_heap r) = h_live h) /\
  (exists r, pm_solution O bb s e val buf h = Ok r /\ h_live (r_heap r) = h_live h).
Proof.
  intros n O bb s e L val buf h HO SO EO SZ LB. split.
  - destruct (lb_cases n O bb s e L val buf h HO SO EO SZ LB) as (nx & ->). destruct (Z.leb _ _); [do 2 eexists; split; reflexivity|].
    destruct (e_best e); [|do 2 eexists; split; reflexivity]. destruct (O _ _ _) as [[x v]|]; do 2 eexists; split; reflexivity.
  - unfold pm_solution. destruct (negb _ || _)%bool; [eexists; split; reflexivity|]. destruct (negb _); [eexists; split; reflexivity|]. cbv zeta.
    destruct (dls_ok n O bb s PumpMinlp (mkProblem (e_setup e) Original) (e_cutoff e) buf val (h_live h) (h_next h) SO (fresh_next h HO) (eo_setup n e EO) SZ LB) as (nx & D).
    unfold alloc. cbn [fst snd]. rewrite D. destruct (O _ _ _) as [[x v]|]; eexists; split; reflexivity.
Qed.
Print Assumptions C107_others_partial.
Example C107_example :
  fs_solution exO exBB exSt exE0 [] 0 [0; 0] exH = Dangling /\
  dp_solution exO exBB exSt exE0 [true; false] 0 [0; 0] exH = Dangling /\
  (do ' (_, r) <- rins_solution exO exBB exSt exE rins0 9 [0; 0] exH; Ok (r_ret r, r_val r, r_sol r, h_live (r_heap r))) = Ok (1%nat, 3, [2; 0], [1%nat; 0%nat]) /\
  (do ' (_, r) <- rins_solution exO exBB exSt (mkEnv 0 1 1 (Some [1; 1]) [2; 0] (e_ints exE) None exC (Fin 4)) rins0 9 [0; 0] exH; Ok (r_ret r, h_live (r_heap r))) = Ok (0%nat, [2%nat; 1%nat; 0%nat]).
Proof. repeat split; vm_compute; reflexivity. Qed.

(** ** C108 *)
(** A copy has no heuristics; copying the set-up of an LP-based algorithm with another
    NLP goes through a null pointer; branching objects are deleted twice. *)
Theorem C108_refuted : ~ C108_full.
Proof.
  intros H. destruct (H exSt exH exH_ok exSt_ok) as ((s' & h' & h1 & h2 & C & K & _) & _).
  vm_compute in C. injection C as <- <-. discriminate K.
Qed.
Print Assumptions C108_refuted.
Theorem C108_nlp_copy : forall bb s i h, s_msg s = true -> s_cont s <> s_non s -> copy_nlp bb s i h = NullDeref.
Proof.
  intros bb s i h M D. unfold copy_nlp. rewrite M. destruct (ptr_eqb (s_cont s) (s_non s)) eqn:E; [|reflexivity].
  exfalso. apply D. destruct (s_cont s), (s_non s); cbn in E; try discriminate E; [apply Nat.eqb_eq in E; subst|]; reflexivity.
Qed.
Print Assumptions C108_nlp_copy.
(** For plain branch-and-bound the copy works if the algorithm was recorded; a set-up
    initialised from an interface does not record it, and the assertion fails. *)
Theorem C108_nlp_copy_bb : forall s i h, s_cont s = s_non s -> s_objs s = [] ->
  copy_nlp true s i h = Ok (mkSetup (Some i) (Some i) [] 0 (s_msg s), h) /\ copy_nlp false s i h = AssertFail.
Proof.
  intros s i h E SO. unfold copy_nlp. rewrite E, SO.
  assert (P : ptr_eqb (s_non s) (s_non s) = true) by (destruct (s_non s); cbn; [apply Nat.eqb_refl|reflexivity]).
  rewrite P. cbn [clone_objs]. destruct (s_msg s); split; reflexivity.
Qed.
Print Assumptions C108_nlp_copy_bb.
(** Without branching objects a plain copy can be deleted and leaves the original
    intact; it never has heuristics. *)
Theorem C108_copy_partial : forall s h i j, heap_ok h -> s_objs s = [] -> s_non s = Some i -> s_cont s = Some j ->
  exists s' h' h1, copy_setup s h = Ok (s', h') /\ delete_setup s' h' = Ok h1 /\ h_live h1 = h_live h /\ s_heu s' = 0%nat.
Proof.
  intros s h i j HO SO N C. unfold copy_setup. rewrite N, C, SO. cbn [clone_ptr fst snd alloc h_live h_next clone_objs].
  destruct (s_msg s); cbn [bind]; do 3 eexists; (split; [reflexivity|]); unfold delete_setup; cbn [s_non s_cont s_objs ptr_eqb];
  (destruct (Nat.eqb (h_next h) (S (h_next h))) eqn:E; [apply Nat.eqb_eq in E; lia|]); cbn [delete_ptr];
  (rewrite release_second by ((intros I; apply (fresh_next h HO) in I; lia) || lia)); cbn [bind];
  (rewrite release_top by (intros I; apply (fresh_next h HO) in I; lia)); cbn [bind release_all]; repeat split.
Qed.
Print Assumptions C108_copy_partial.
(** With branching objects, once any copy has been deleted the original cannot be. *)
Lemma release_out i h h' : release i h = Ok h' -> In i (h_live h) /\ ~ In i (h_live h') /\ (forall j, In j (h_live h') -> In j (h_live h)).
Proof.
  unfold release. destruct (existsb (Nat.eqb i) (h_live h)) eqn:E; [|discriminate]. intros H. injection H as <-. cbn [h_live].
  split; [apply mem_true; exact E|]. split; [apply remove_In|]. intros j I. apply in_remove in I. apply I.
Qed.
Lemma release_all_out : forall l h h', release_all l h = Ok h' -> (forall i, In i l -> In i (h_live h) /\ ~ In i (h_live h')) /\ (forall j, In j (h_live h') -> In j (h_live h)).
Proof.
  induction l as [|i l IH]; intros h h' H.
  - injection H as <-. split; [intros i []|auto].
  - cbn [release_all] in H. apply bind_ok in H as (h1 & E1 & E2). apply release_out in E1 as (A & B & C). destruct (IH _ _ E2) as [D F]. split.
    + intros j [<-|I]; [split; [exact A|intros X; apply B, F, X]|]. destruct (D j I) as [D1 D2]. split; [apply C; exact D1|exact D2].
    + intros j I. apply C, F, I.
Qed.
Lemma delete_ptr_out p h h' : delete_ptr p h = Ok h' -> forall j, In j (h_live h') -> In j (h_live h).
Proof. destruct p; cbn; intros H; [apply release_out in H; apply H|injection H as <-; auto]. Qed.
Lemma delete_setup_out s h h' : delete_setup s h = Ok h' -> (forall i, In i (s_objs s) -> In i (h_live h) /\ ~ In i (h_live h')).
Proof.
  unfold delete_setup. intros H i I. apply bind_ok in H as (h1 & E1 & H). apply bind_ok in H as (h2 & E2 & H).
  destruct (release_all_out _ _ _ H) as [A _]. destruct (A i I) as [A1 A2]. split; [|exact A2].
  pose proof (delete_ptr_out _ _ _ E2 _ A1) as A3. destruct (ptr_eqb (s_non s) (s_cont s)); [injection E1 as ->; exact A3|].
  exact (delete_ptr_out _ _ _ E1 _ A3).
Qed.
Theorem C108_objects : forall s o h, In o (s_objs s) ->
  (forall s' h' h1 h2, copy_setup s h = Ok (s', h') -> delete_setup s' h' = Ok h1 -> delete_setup s h1 <> Ok h2) /\
  (forall bb k i h1 h2, delete_setup (fst (copy_prefix bb k s i h)) (snd (copy_prefix bb k s i h)) = Ok h1 -> delete_setup s h1 <> Ok h2).
Proof.
  intros s o h I. split.
  - intros s' h' h1 h2 C D D2. assert (E : s_objs s' = s_objs s).
    { unfold copy_setup in C. apply bind_ok in C as (t & _ & C). injection C as <- _. reflexivity. }
    rewrite <- E in I. destruct (delete_setup_out _ _ _ D o I) as [_ A]. rewrite E in I. destruct (delete_setup_out _ _ _ D2 o I) as [B _]. exact (A B).
  - intros bb k i h1 h2 D D2. assert (E : s_objs (fst (copy_prefix bb k s i h)) = s_objs s) by (unfold copy_prefix; destruct bb; reflexivity).
    destruct (delete_setup_out _ _ _ D o) as [_ A]; [rewrite E; exact I|]. destruct (delete_setup_out _ _ _ D2 o I) as [B _]. exact (A B).
Qed.
Print Assumptions C108_objects.
Example C108_example :
  (do ' (s', h') <- copy_setup (mkSetup (Some 0%nat) (Some 1%nat) [2%nat] 3 true) (mkHeap [2%nat; 1%nat; 0%nat] 3);
   do h1 <- delete_setup s' h'; Ok (h_live h1)) = Ok [5%nat; 1%nat; 0%nat] /\
  copy_nlp false exSt 2 (mkHeap [2%nat; 1%nat; 0%nat] 3) = NullDeref.
Proof. split; vm_compute; reflexivity. Qed.

(** ** C109 *)
Theorem C109_frequency : forall R, rins_reach R -> (10 <= n_often R <= 10000)%Z.
Proof.
  intros R H. induction H as [|R O bb s e val buf h R' r H IH E]; [cbn; lia|].
  unfold rins_solution in E. destruct (Z.eqb (n_often R) 0); [injection E as <- _; exact IH|].
  destruct (negb _); [injection E as <- _; exact IH|].
  destruct (e_best e) as [best|]; [|injection E as <- _; exact IH]. cbv zeta in E.
  apply bind_ok in E as ([c k] & _ & E). apply bind_ok in E as (r0 & _ & E).
  assert (Q2 : (0 <= Z.quot (n_often R) 2 <= n_often R)%Z).
  { rewrite Z.quot_div_nonneg by lia. split; [apply Z.div_pos; lia|apply Z.div_le_upper_bound; lia]. }
  set (d := (2 * n_often R)%Z) in E. assert (D : (20 <= d)%Z) by (unfold d; lia). clearbody d.
  destruct (Nat.ltb 0 (r_ret r0)); injection E as <- _; cbn [n_often]; lia.
Qed.
Print Assumptions C109_frequency.
(** So with an incumbent at hand RINS does its work at least once in any 10000
    consecutive node counts, at every multiple of its current frequency. *)
Theorem C109_window : forall R k, rins_reach R -> exists node, (Z.of_nat k <= Z.of_nat node < Z.of_nat k + 10000)%Z /\ forall e, e_node e = node -> rins_due e R.
Proof.
  intros R k H. apply C109_frequency in H. set (f := n_often R) in *.
  set (m := (f * ((Z.of_nat k + f - 1) / f))%Z).
  assert (P : (0 < f)%Z) by lia. pose proof (Z.div_mod (Z.of_nat k + f - 1) f ltac:(lia)) as D. pose proof (Z.mod_pos_bound (Z.of_nat k + f - 1) f P) as B.
  assert (M : (Z.of_nat k <= m < Z.of_nat k + f)%Z) by (unfold m; lia).
  exists (Z.to_nat m). split; [lia|]. intros e E. unfold rins_due. fold f. split; [lia|]. rewrite E, Z2Nat.id by lia.
  apply Z.rem_divide; [lia|]. exists ((Z.of_nat k + f - 1) / f)%Z. unfold m. lia.
Qed.
Print Assumptions C109_window.
(** How the frequency changes: halved, not below 10, after a success; doubled, not above
    10000, after a failure with an incumbent; unchanged otherwise. *)
Theorem C109_rule : forall n O bb s e R val buf h R' r, heap_ok h -> s_objs s = [] -> env_ok n e -> sizes_ok n O -> length buf = n ->
  rins_solution O bb s e R val buf h = Ok (R', r) ->
  (r_ret r = 1%nat -> n_often R' = Z.max 10 (Z.quot (n_often R) 2)) /\
  (r_ret r = 0%nat -> rins_due e R -> e_best e <> None -> n_often R' = Z.min 10000 (2 * n_often R)) /\
  (~ rins_due e R \/ e_best e = None -> n_often R' = n_often R /\ r_log r = None /\ r_ret r = 0%nat).
Proof.
  intros n O bb s e R val buf h R' r HO SO EO SZ LB E. destruct (rins_cases n O bb s e R val buf h HO SO EO SZ LB) as (A & B & C).
  assert (D : rins_due e R \/ ~ rins_due e R).
  { unfold rins_due. destruct (Z.eq_dec (n_often R) 0); [tauto|]. destruct (Z.eq_dec (Z.rem (Z.of_nat (e_node e)) (n_often R)) 0); tauto. }
  destruct D as [D|D].
  - destruct (e_best e) as [best|] eqn:EB.
    + destruct (C best D eq_refl) as (c & nx & CN & EF & E'). rewrite E' in E. clear E' A B C.
      destruct (Nat.ltb (length (e_ints e) / 10) (agreeing e best)).
      * destruct (O Rins (mkProblem c Original) (e_cutoff e)) as [[x v]|]; injection E as <- <-; cbn [r_ret n_often r_log]; (split; [|split]); try discriminate; try reflexivity; try (intros [X|X]; [tauto|discriminate X]).
      * injection E as <- <-. cbn [r_ret n_often r_log nothing]. split; [discriminate|]. split; [reflexivity|]. intros [X|X]; [tauto|discriminate X].
    + rewrite (B D eq_refl) in E. injection E as <- <-. cbn. split; [discriminate|]. split; [intros _ _ X; congruence|auto].
  - rewrite (A D) in E. injection E as <- <-. cbn. split; [discriminate|]. split; [tauto|auto].
Qed.
Print Assumptions C109_rule.
Example C109_example : (do ' (R, r) <- rins_solution exO exBB exSt exE rins0 9 [0; 0] exH; Ok (n_often R, n_sols R)) = Ok (10%Z, 2%Z) /\
  (do ' (R, r) <- rins_solution (fun _ _ _ => None) exBB exSt exE rins0 9 [0; 0] exH; Ok (n_often R, n_sols R)) = Ok (20%Z, 1%Z).
Proof. split; vm_compute; reflexivity. Qed.

(** ** C110 *)
Lemma clamp_near l u v z : lo_ok l z -> up_ok u z -> Qabs (v - z) < 1 # 2 -> Qabs (clampv l u v - z) < 1 # 2.
Proof.
  intros L U H. apply Qabs_Qlt_condition in H. apply Qabs_Qlt_condition. unfold clampv.
  destruct l as [|a|], u as [|b|]; cbn [lo_ok up_ok] in *; try tauto; destruct H as [H1 H2]; repeat qcase; split; lra.
Qed.
Lemma nearest_near v z : Qabs (v - inject_Z z) < 1 # 2 -> nearest v = z.
Proof.
  intros H. apply Qabs_Qlt_condition in H. unfold nearest. pose proof (Qfloor_le (v + (1 # 2))) as A. pose proof (Qlt_floor (v + (1 # 2))) as B.
  set (f := Qfloor (v + (1 # 2))) in *.
  assert (A' : inject_Z f < inject_Z (z + 1)) by (rewrite inject_Z_plus; change (inject_Z 1) with 1; lra).
  assert (B' : inject_Z z < inject_Z (f + 1)) by lra.
  rewrite <- Zlt_Qlt in A', B'. lia.
Qed.
(** The integer point z next to the incumbent: a variable is fixed, at z, exactly when
    the current solution agrees there; nothing else changes; so z stays feasible. *)
Theorem C110 : forall n ints best cur c z, cols_n n c -> length best = n -> length cur = n -> (forall i b, In (i, b) ints -> (i < n)%nat) ->
  NoDup (map fst ints) -> near_point ints best z ->
  exists c' k, rins_fix ints best cur c 0 = Ok (c', k) /\ cols_n n c' /\ k = length (filter (agrees best cur) ints) /\
    (forall p, In p ints -> agrees best cur p = true -> nth_error (k_lo c') (fst p) = Some (Fin (inject_Z (z (fst p)))) /\ nth_error (k_up c') (fst p) = Some (Fin (inject_Z (z (fst p))))) /\
    (forall p, In p ints -> agrees best cur p = false -> nth_error (k_lo c') (fst p) = nth_error (k_lo c) (fst p) /\ nth_error (k_up c') (fst p) = nth_error (k_up c) (fst p)) /\
    (forall j, ~ In j (map fst ints) -> nth_error (k_lo c') j = nth_error (k_lo c) j /\ nth_error (k_up c') j = nth_error (k_up c) j) /\
    (forall y, within c y -> (forall p, In p ints -> forall v, nth_error y (fst p) = Some v -> v == inject_Z (z (fst p))) -> within c' y).
Proof.
  intros n ints best cur c z CN LB LC HI ND NP.
  destruct (rins_fix_run n ints best cur c 0 CN LB LC HI) as (c' & R & CN' & B). exists c'. eexists. split; [exact R|].
  assert (T : forall p, In p ints -> nearest (target best p) = z (fst p)).
  { intros [i [l u]] I. destruct (NP i l u I) as (N1 & N2 & N3). apply nearest_near. apply clamp_near; assumption. }
  assert (F1 : forall p, In p ints -> agrees best cur p = true -> nth_error (k_lo c') (fst p) = Some (Fin (inject_Z (z (fst p)))) /\ nth_error (k_up c') (fst p) = Some (Fin (inject_Z (z (fst p))))).
  { intros p I A. destruct (B (fst p)) as [B1 B2]. rewrite B1, B2, !(rins_bound_in best cur ints p _ ND I), A, (T p I). auto. }
  assert (F2 : forall p, In p ints -> agrees best cur p = false -> nth_error (k_lo c') (fst p) = nth_error (k_lo c) (fst p) /\ nth_error (k_up c') (fst p) = nth_error (k_up c) (fst p)).
  { intros p I A. destruct (B (fst p)) as [B1 B2]. rewrite B1, B2, !(rins_bound_in best cur ints p _ ND I), A. auto. }
  assert (F3 : forall j, ~ In j (map fst ints) -> nth_error (k_lo c') j = nth_error (k_lo c) j /\ nth_error (k_up c') j = nth_error (k_up c) j).
  { intros j N. destruct (B j) as [B1 B2]. rewrite B1, B2, !rins_bound_out by exact N. auto. }
  split; [exact CN'|]. split; [reflexivity|]. split; [exact F1|]. split; [exact F2|]. split; [exact F3|].
  intros y W Y i v l u E El Eu.
  destruct (in_dec Nat.eq_dec i (map fst ints)) as [I|I].
  - apply in_map_iff in I as (p & <- & I). destruct (agrees best cur p) eqn:A.
    + destruct (F1 p I A) as [G1 G2]. rewrite El in G1. rewrite Eu in G2. injection G1 as ->. injection G2 as ->.
      pose proof (Y p I v E) as V. cbn [lo_ok up_ok]. split; lra.
    + destruct (F2 p I A) as [G1 G2]. rewrite G1 in El. rewrite G2 in Eu. exact (W _ _ _ _ E El Eu).
  - destruct (F3 i I) as [G1 G2]. rewrite G1 in El. rewrite G2 in Eu. exact (W _ _ _ _ E El Eu).
Qed.
Print Assumptions C110.
Example C110_example : rins_fix [(0%nat, (Fin 0, Fin 4)); (1%nat, (Fin 0, Fin (7 # 2)))] [2; 3] [2; 1] (mkCols [Fin 0; Fin 0] [Fin 4; Fin (7 # 2)]) 0 =
  Ok (mkCols [Fin 2; Fin 0] [Fin 2; Fin (7 # 2)], 1%nat) /\
  near_point [(0%nat, (Fin 0, Fin 4)); (1%nat, (Fin 0, Fin (7 # 2)))] [2; 3] (fun i => if Nat.eqb i 0 then 2%Z else 3%Z).
Proof.
  split; [vm_compute; reflexivity|]. intros i l u [H|[H|[]]]; injection H as <- <- <-; cbn; repeat split; try reflexivity; discriminate.
Qed.

(** What "agrees" means: the current value is within 1e-6 of the point of the original
    bounds closest to the incumbent's value. *)
Lemma clamp_clipped l u v : (exists z, lo_ok l z /\ up_ok u z) -> clipped l u v (clampv l u v).
Proof.
  intros (z & LZ & UZ). unfold clipped, clampv.
  destruct l as [|a|], u as [|b|]; cbn [lo_ok up_ok] in *; try tauto; (split; [repeat qcase; split; lra || exact Logic.I|]); intros w LW UW;
    repeat qcase; try (rewrite (Qabs_wd (v - v) 0) by ring; apply Qabs_nonneg); apply Qabs_case; intros; apply Qabs_case; intros; lra.
Qed.
Lemma clipped_unique l u v a b : clipped l u v a -> clipped l u v b -> a == b.
Proof.
  intros [[A1 A2] A] [[B1 B2] B].
  assert (M : lo_ok l ((a + b) / 2) /\ up_ok u ((a + b) / 2)).
  { assert (F : (a + b) / 2 == (1 # 2) * a + (1 # 2) * b) by field.
    destruct l as [|x|], u as [|y|]; cbn [lo_ok up_ok] in *; try tauto; split; try exact Logic.I; rewrite F; lra. }
  assert (F : (a + b) / 2 == (1 # 2) * a + (1 # 2) * b) by field.
  destruct M as [M1 M2]. pose proof (A _ M1 M2) as P1. pose proof (A _ B1 B2) as P2. pose proof (B _ A1 A2) as P3.
  rewrite F in P1. revert P1 P2 P3. apply Qabs_case; intros; revert P1 P2 P3; apply Qabs_case; intros; revert P1 P2 P3; apply Qabs_case; intros; lra.
Qed.
Theorem C110_agrees : forall best cur i l u b x q, (exists z, lo_ok l z /\ up_ok u z) -> nth_error best i = Some b -> nth_error cur i = Some x -> clipped l u b q ->
  (agrees best cur (i, (l, u)) = true <-> Qabs (x - q) < 1 # 1000000).
Proof.
  intros best cur i l u b x q NE B X C. unfold agrees, target, hit. cbn [fst snd].
  rewrite (nth_error_nth best i 0 B), (nth_error_nth cur i 0 X). pose proof (clipped_unique l u b _ _ (clamp_clipped l u b NE) C) as E.
  assert (T : rins_tol == 1 # 1000000) by reflexivity. split.
  - intros H. apply Qltb_lt in H. rewrite E, T in H. exact H.
  - intros H. apply Qltb_lt. rewrite E, T. exact H.
Qed.
Print Assumptions C110_agrees.
Example C110_agrees_case : clipped (Fin 0) (Fin 4) (- (1 # 10)) 0 /\ Qabs ((1 # 10000000) - 0) < 1 # 1000000.
Proof.
  split; [|reflexivity]. split; [cbn; split; discriminate|]. intros w A B. cbn in A, B. apply Qabs_case; intros; apply Qabs_case; intros; lra.
Qed.
(** And those are the bounds of the problem that is searched. *)
Theorem C110_used : forall n O bb s e R val buf h best R' r px P cut, heap_ok h -> s_objs s = [] -> env_ok n e -> sizes_ok n O -> length buf = n ->
  e_best e = Some best -> rins_solution O bb s e R val buf h = Ok (R', r) -> r_log r = Some (px, P, cut) ->
  px = Rins /\ cut = e_cutoff e /\ q_goal P = Original /\ exists k, rins_fix (e_ints e) best (e_cur e) (match e_nlp e with Some c => c | None => e_setup e end) 0 = Ok (q_cols P, k) /\
    (length (e_ints e) / 10 < k)%nat.
Proof.
  intros n O bb s e R val buf h best R' r px P cut HO SO EO SZ LB B H LG. destruct (rins_cases n O bb s e R val buf h HO SO EO SZ LB) as (C1 & _ & C3).
  assert (DU : rins_due e R \/ ~ rins_due e R) by (unfold rins_due; destruct (Z.eq_dec (n_often R) 0), (Z.eq_dec (Z.rem (Z.of_nat (e_node e)) (n_often R)) 0); tauto).
  destruct DU as [DU|DU]; [|rewrite (C1 DU) in H; injection H as <- <-; discriminate LG].
  destruct (C3 best DU B) as (c & nx & CN & EF & E). rewrite E in H. destruct (Nat.ltb (length (e_ints e) / 10) (agreeing e best)) eqn:LT.
  - destruct (O Rins (mkProblem c Original) (e_cutoff e)) as [[x v]|]; injection H as <- <-; cbn [r_log] in LG; injection LG as <- <- <-;
      (split; [reflexivity|]; split; [reflexivity|]; split; [reflexivity|]; eexists; split; [exact EF|apply Nat.ltb_lt; exact LT]).
  - injection H as <- <-. discriminate LG.
Qed.
Print Assumptions C110_used.
Example C110_used_case : exists R' r px P cut, rins_solution exO exBB exSt exE (mkRins 1 0) 9 [0; 0] exH = Ok (R', r) /\ r_log r = Some (px, P, cut) /\ k_lo (q_cols P) <> k_lo exC.
Proof. do 5 eexists. split; [vm_compute; reflexivity|]. split; [reflexivity|]. discriminate. Qed.

(** ** C111 *)
Theorem C111_refuted : ~ C111_full.
Proof.
  intros H.
  assert (E : exists L1 r1, lb_solution exO exBB exSt exE (lb0 1) 9 [0; 0] exH = Ok (L1, r1) /\ l_sols L1 = 2%Z) by (do 2 eexists; split; vm_compute; reflexivity).
  destruct E as (L1 & r1 & E1 & S1).
  set (e2 := mkEnv 5 1 2 (Some [0; 0]) [2; 0] [(0%nat, (Fin 0, Fin 4))] None exC (Fin 1)).
  assert (E2 : lb_solution exO exBB exSt e2 L1 0 [0; 0] exH = Ok (L1, nothing 0 [0; 0] exH)).
  { unfold lb_solution. rewrite S1. reflexivity. }
  apply (H exO exBB exSt exE e2 (lb0 1) 9 [0; 0] exH L1 r1 0 [0; 0] exH _ _ E1) in E2.
  - apply E2. reflexivity.
  - cbn; lia.
  - discriminate.
  - cbn; lia.
Qed.
Print Assumptions C111_refuted.
(** Exactly when it searches: more solutions than recorded, and an incumbent.  The
    problem searched is the local-branching one around the incumbent.  After a success
    one solution more than the current count is recorded. *)
Theorem C111_partial : forall n O bb s e L val buf h, heap_ok h -> s_objs s = [] -> env_ok n e -> sizes_ok n O -> length buf = n ->
  exists L' r, lb_solution O bb s e L val buf h = Ok (L', r) /\
    (forall best, (l_sols L < e_nsol e)%Z -> e_best e = Some best ->
       r_log r = Some (LocalSolver, lb_problem e best, e_cutoff e) /\ l_sols L' = if Nat.eqb (r_ret r) 1 then (e_nsol e + 1)%Z else e_nsol e) /\
    ((e_nsol e <= l_sols L)%Z \/ e_best e = None -> r_log r = None /\ r_ret r = 0%nat /\ l_sols L' = Z.max (l_sols L) (e_nsol e)).
Proof.
  intros n O bb s e L val buf h HO SO EO SZ LB. destruct (lb_cases n O bb s e L val buf h HO SO EO SZ LB) as (nx & E).
  destruct (Z.leb (e_nsol e) (l_sols L)) eqn:C.
  - apply Z.leb_le in C. do 2 eexists. split; [exact E|]. split; [intros b X; lia|]. intros _. cbn. split; [reflexivity|]. split; [reflexivity|lia].
  - apply Z.leb_gt in C. destruct (e_best e) as [best|] eqn:EB.
    + destruct (O LocalSolver (lb_problem e best) (e_cutoff e)) as [[x v]|] eqn:EO'; do 2 eexists; (split; [exact E|]); (split; [intros b _ X; injection X as <-; split; reflexivity|]);
        intros [X|X]; try lia; discriminate X.
    + do 2 eexists. split; [exact E|]. split; [intros b _ X; discriminate X|]. intros _. cbn. split; [reflexivity|]. split; [reflexivity|lia].
Qed.
Print Assumptions C111_partial.
(** Whatever the order of calls, it never searches twice at the same count of solutions. *)
Lemma lb_mono O bb s e L val buf h L' r : lb_solution O bb s e L val buf h = Ok (L', r) ->
  (l_sols L <= l_sols L')%Z /\ (r_log r <> None -> (l_sols L < e_nsol e <= l_sols L')%Z).
Proof.
  unfold lb_solution. destruct (Z.leb (e_nsol e) (l_sols L)) eqn:C.
  - intros H. injection H as <- <-. split; [lia|]. intros X. exfalso. apply X. reflexivity.
  - apply Z.leb_gt in C. destruct (e_best e) as [best|].
    + cbv zeta. intros H. apply bind_ok in H as (vals & _ & H). apply bind_ok in H as (r0 & _ & H). injection H as <- <-. cbn [l_sols].
      destruct (Nat.ltb 0 (r_ret r0)); split; intros; lia.
    + intros H. injection H as <- <-. cbn [l_sols]. split; [lia|]. intros X. exfalso. apply X. reflexivity.
Qed.
Theorem C111_once : forall O bb s calls L h l, lb_searches O bb s calls L h = Ok l -> StronglySorted Z.lt l /\ Forall (Z.lt (l_sols L)) l.
Proof.
  intros O bb s. induction calls as [|[[e val] buf] calls IH]; intros L h l H.
  - injection H as <-. split; constructor.
  - cbn [lb_searches] in H. apply bind_ok in H as ([L' r] & E & H). apply bind_ok in H as (l' & E' & H). injection H as <-.
    destruct (IH _ _ _ E') as [S F]. apply lb_mono in E as [M1 M2].
    assert (F' : Forall (Z.lt (l_sols L)) l') by (eapply Forall_impl; [|exact F]; intros a X; cbv beta in X; lia).
    destruct (r_log r); [|split; assumption].
    assert (B : (l_sols L < e_nsol e <= l_sols L')%Z) by (apply M2; discriminate).
    split; [|constructor; [lia|exact F']]. constructor; [exact S|]. eapply Forall_impl; [|exact F]. intros a X. cbv beta in X. lia.
Qed.
Print Assumptions C111_once.
Example C111_example : lb_searches exO exBB exSt [(exE, 9, [0; 0]); (exE, 9, [0; 0]); (mkEnv 7 1 3 (Some [2; 0]) [2; 0] (e_ints exE) None exC (Fin 3), 3, [0; 0])] (lb0 1) exH = Ok [1%Z; 3%Z].
Proof. vm_compute. reflexivity. Qed.

(** ** C112 *)
Theorem C112_refuted : ~ C112_full.
Proof.
  intros H.
  assert (E : exists L1 r1, lb_solution exO exBB exSt exE (lb_setModel [true; false] [(Fin 0, Fin 4); (MInf, PInf)] (lb0 1)) 9 [0; 0] exH = Ok (L1, r1) /\ r_log r1 <> None).
  { do 2 eexists. split; [vm_compute; reflexivity|discriminate]. }
  destruct E as (L1 & r1 & E1 & S1). apply S1. exact (H _ _ _ _ _ _ _ _ _ _ _ _ (eq_refl : lb_validate [true; false] [(Fin 0, Fin 4); (MInf, PInf)] = false) E1).
Qed.
Print Assumptions C112_refuted.
(** What setModel records: "when" is cleared exactly if some integer variable does not
    have bounds 0 and 1.  The call itself does not look at it. *)
Theorem C112_partial : forall ty b L, length ty = length b ->
  l_when (lb_setModel ty b L) = (if lb_validate ty b then l_when L else 0%Z) /\ l_sols (lb_setModel ty b L) = l_sols L /\
  (lb_validate ty b = true <-> forall i l u, nth_error ty i = Some true -> nth_error b i = Some (l, u) -> exists x y, l = Fin x /\ u = Fin y /\ x == 0 /\ y == 1).
Proof.
  intros ty b L LEN. split; [unfold lb_setModel; destruct (lb_validate ty b); auto|]. split; [unfold lb_setModel; destruct (lb_validate ty b); auto|].
  clear L. revert b LEN. induction ty as [|t ty IH]; intros [|[l u] b] LEN; try discriminate LEN.
  - split; [|reflexivity]. intros _ [|i] l u X; discriminate X.
  - cbn [lb_validate]. injection LEN as LEN.
    set (good := match l, u with Fin a, Fin b => (Qeq_bool a 0 && Qeq_bool b 1)%bool | _, _ => false end).
    assert (G : good = true <-> exists x y, l = Fin x /\ u = Fin y /\ x == 0 /\ y == 1).
    { unfold good. destruct l as [|a|], u as [|c|]; try (split; [discriminate|intros (x & y & X & Y & _); discriminate X || discriminate Y]).
      rewrite andb_true_iff, !Qeq_bool_iff. split; [intros [A B]; exists a, c; auto|]. intros (x & y & X & Y & A & B). injection X as ->. injection Y as ->. auto. }
    destruct t; cbn [andb].
    + destruct good; cbn [negb].
      * rewrite (IH b LEN). split.
        -- intros H [|i] l' u' A B; [injection B as <- <-; apply G; reflexivity|exact (H i l' u' A B)].
        -- intros H i l' u' A B. exact (H (S i) l' u' A B).
      * split; [discriminate|]. intros H. exfalso. assert (X : false = true) by (apply G; exact (H 0%nat l u eq_refl eq_refl)). discriminate X.
    + rewrite (IH b LEN). split.
      * intros H [|i] l' u' A B; [discriminate A|exact (H i l' u' A B)].
      * intros H i l' u' A B. exact (H (S i) l' u' A B).
Qed.
Print Assumptions C112_partial.

(** ** C113 *)
(** What RINS, local branching and the pump for MINLPs hand back: with a right inner
    search, a reported solution respects the bounds of the problem searched, its value
    is the objective there and is below the cutoff; otherwise the arguments are
    untouched. *)
Definition answer (f : list Q -> Q) (e : env) (val : Q) (buf : list Q) (r : res) : Prop :=
  (r_ret r = 1%nat /\ r_val r == f (r_sol r) /\ ext_ltb (Fin (r_val r)) (e_cutoff e) = true /\
     exists px P, r_log r = Some (px, P, e_cutoff e) /\ within (q_cols P) (r_sol r)) \/
  (r_ret r = 0%nat /\ r_val r = val /\ r_sol r = buf).
Theorem C113 : forall n f O bb s e R L val buf h, heap_ok h -> s_objs s = [] -> env_ok n e -> sizes_ok n O -> honest f O -> length buf = n ->
  (exists R' r, rins_solution O bb s e R val buf h = Ok (R', r) /\ answer f e val buf r) /\
  (exists L' r, lb_solution O bb s e L val buf h = Ok (L', r) /\ answer f e val buf r) /\
  (exists r, pm_solution O bb s e val buf h = Ok r /\ answer f e val buf r).
Proof.
  intros n f O bb s e R L val buf h HO SO EO SZ HN LB.
  assert (AN : answer f e val buf (nothing val buf h)) by (right; repeat split).
  assert (A1 : forall px P x v nx, O px P (e_cutoff e) = Some (x, v) -> (match q_goal P with Distance _ _ => False | _ => True end) ->
    answer f e val buf (mkRes 1 v x (mkHeap (h_live h) nx) (Some (px, P, e_cutoff e)))).
  { intros px P x v nx E G. left. destruct (HN _ _ _ _ _ E) as (W & V & C). cbn. split; [reflexivity|]. split; [destruct (q_goal P); [exact V|destruct G|exact V]|].
    split; [exact C|]. exists px, P. split; [reflexivity|exact W]. }
  assert (A0 : forall px P nx, answer f e val buf (mkRes 0 val buf (mkHeap (h_live h) nx) (Some (px, P, e_cutoff e)))) by (intros; right; repeat split).
  split; [|split].
  - destruct (rins_cases n O bb s e R val buf h HO SO EO SZ LB) as (A & B & C).
    assert (D : rins_due e R \/ ~ rins_due e R).
    { unfold rins_due. destruct (Z.eq_dec (n_often R) 0); [tauto|]. destruct (Z.eq_dec (Z.rem (Z.of_nat (e_node e)) (n_often R)) 0); tauto. }
    destruct D as [D|D]; [|rewrite (A D); do 2 eexists; split; [reflexivity|exact AN]].
    destruct (e_best e) as [best|] eqn:EB; [|rewrite (B D eq_refl); do 2 eexists; split; [reflexivity|exact AN]].
    destruct (C best D eq_refl) as (c & nx & CN & EF & ->). clear A B C. destruct (Nat.ltb _ _).
    + destruct (O Rins (mkProblem c Original) (e_cutoff e)) as [[x v]|] eqn:X; do 2 eexists; (split; [reflexivity|]); [apply A1; [exact X|exact Logic.I]|apply A0].
    + do 2 eexists. split; [reflexivity|]. right. repeat split.
  - destruct (lb_cases n O bb s e L val buf h HO SO EO SZ LB) as (nx & ->). destruct (Z.leb _ _); [do 2 eexists; split; [reflexivity|exact AN]|].
    destruct (e_best e) as [best|]; [|do 2 eexists; split; [reflexivity|exact AN]].
    destruct (O LocalSolver (lb_problem e best) (e_cutoff e)) as [[x v]|] eqn:X; do 2 eexists; (split; [reflexivity|]); [apply A1; [exact X|exact Logic.I]|apply A0].
  - unfold pm_solution. destruct (negb _ || _)%bool; [eexists; split; [reflexivity|exact AN]|]. destruct (negb _); [eexists; split; [reflexivity|exact AN]|]. cbv zeta.
    destruct (dls_ok n O bb s PumpMinlp (mkProblem (e_setup e) Original) (e_cutoff e) buf val (h_live h) (h_next h) SO (fresh_next h HO) (eo_setup n e EO) SZ LB) as (nx & D).
    unfold alloc. cbn [fst snd]. rewrite D. destruct (O _ _ _) as [[x v]|] eqn:X; eexists; (split; [reflexivity|]); [apply A1; [exact X|exact Logic.I]|apply A0].
Qed.
Print Assumptions C113.
(** The pump for MINLPs searches exactly at the root, in the first pass, without a
    solution. *)
Theorem C113_pump_when : forall n O bb s e val buf h, heap_ok h -> s_objs s = [] -> env_ok n e -> sizes_ok n O -> length buf = n ->
  exists r, pm_solution O bb s e val buf h = Ok r /\
  (r_log r <> None <-> e_node e = 0%nat /\ (e_pass e <= 1)%nat /\ e_nsol e = 0%Z) /\
  (r_log r <> None -> r_log r = Some (PumpMinlp, mkProblem (e_setup e) Original, e_cutoff e)).
Proof.
  intros n O bb s e val buf h HO SO EO SZ LB. unfold pm_solution.
  destruct (negb (Nat.eqb (e_node e) 0) || Nat.ltb 1 (e_pass e))%bool eqn:E.
  - eexists. split; [reflexivity|]. split; [|intros X; exfalso; apply X; reflexivity]. split; [intros X; exfalso; apply X; reflexivity|].
    intros (A & B & _). rewrite A in E. cbn [Nat.eqb negb orb] in E. apply Nat.ltb_lt in E. lia.
  - apply orb_false_iff in E as [E1 E2]. apply negb_false_iff, Nat.eqb_eq in E1. apply Nat.ltb_ge in E2.
    destruct (Z.eqb (e_nsol e) 0) eqn:E3; cbn [negb].
    + apply Z.eqb_eq in E3. cbv zeta.
      destruct (dls_ok n O bb s PumpMinlp (mkProblem (e_setup e) Original) (e_cutoff e) buf val (h_live h) (h_next h) SO (fresh_next h HO) (eo_setup n e EO) SZ LB) as (nx & D).
      unfold alloc. cbn [fst snd]. rewrite D. destruct (O _ _ _) as [[x v]|]; eexists; (split; [reflexivity|]); cbn [r_log]; (split; [split; [auto|discriminate]|reflexivity]).
    + apply Z.eqb_neq in E3. eexists. split; [reflexivity|]. split; [|intros X; exfalso; apply X; reflexivity]. split; [intros X; exfalso; apply X; reflexivity|tauto].
Qed.
Print Assumptions C113_pump_when.
Definition exO2 : prefix -> problem -> ext -> option (list Q * Q) := fun _ P c =>
  match q_goal P, k_lo (q_cols P), k_up (q_cols P) with
  | Original, [Fin a; MInf], [Fin b; PInf] => if (Qle_bool a 2 && Qle_bool 2 b && ext_ltb (Fin 3) c)%bool then Some ([2; 0], 3) else None
  | _, _, _ => None end.
Example C113_hypotheses_met : honest exF exO2 /\ sizes_ok 2 exO2 /\ heap_ok exH /\ env_ok 2 exE /\
  (do ' (_, r) <- rins_solution exO2 exBB exSt exE rins0 9 [0; 0] exH; Ok (r_ret r, r_val r, r_sol r)) = Ok (1%nat, 3, [2; 0]).
Proof.
  assert (INV : forall px P c x v, exO2 px P c = Some (x, v) -> exists a b, q_goal P = Original /\ k_lo (q_cols P) = [Fin a; MInf] /\ k_up (q_cols P) = [Fin b; PInf] /\ a <= 2 /\ 2 <= b /\ ext_ltb (Fin 3) c = true /\ x = [2; 0] /\ v = 3).
  { intros px P c x v. unfold exO2. destruct (q_goal P); try discriminate.
    destruct (k_lo (q_cols P)) as [|[|a|] [|[| |] [|]]]; try discriminate. destruct (k_up (q_cols P)) as [|[|b|] [|[| |] [|]]]; try discriminate.
    destruct (Qle_bool a 2) eqn:A; [|discriminate]. destruct (Qle_bool 2 b) eqn:B; [|discriminate]. destruct (ext_ltb (Fin 3) c) eqn:C; [|discriminate].
    intros H. injection H as <- <-. apply Qle_bool_iff in A, B. exists a, b. repeat split; assumption. }
  split; [|split; [|split; [exact exH_ok|split; [exact exE_ok|vm_compute; reflexivity]]]].
  - intros px P c x v H. destruct (INV _ _ _ _ _ H) as (a & b & G & KL & KU & A & B & C & -> & ->). split; [|rewrite G; split; [reflexivity|exact C]].
    intros i v l u X L U. rewrite KL in L. rewrite KU in U. destruct i as [|[|i]].
    + injection X as <-. injection L as <-. injection U as <-. split; assumption.
    + injection X as <-. injection L as <-. injection U as <-. split; exact Logic.I.
    + destruct i; discriminate X.
  - intros px P c x v H. destruct (INV _ _ _ _ _ H) as (a & b & _ & _ & _ & _ & _ & _ & -> & _). reflexivity.
Qed.

(** ** C114 *)
Theorem C114_refuted : ~ C114_full.
Proof.
  intros H. destruct (H 2%nat exO exBB exSt (mkEnv 100 1 0 None [2; 0] (e_ints exE) None exC PInf) [] 0 [0; 0] exH exH_ok eq_refl) as (r & E & _).
  - destruct exE0_ok as [A B C D F]. split; assumption.
  - exact exO_sizes.
  - reflexivity.
  - intros v f c [].
  - vm_compute in E. discriminate E.
Qed.
Print Assumptions C114_refuted.
(** It goes to its local search exactly at nodes 0, 100, ..., 1000 without a solution,
    when at least a third of the objects are satisfied, and then never returns
    normally; so it never reports a solution. *)
Theorem C114_partial : forall n O bb s e os val buf h, heap_ok h -> s_objs s = [] -> env_ok n e -> sizes_ok n O -> length buf = n ->
  (forall v f c, In (v, f) os -> cols_n n c -> exists c', f c = Ok c' /\ cols_n n c') ->
  (fs_solution O bb s e os val buf h = Dangling <-> fs_due e /\ (length os / 3 <= length (filter (fun p => Qeq_bool (fst p) 0) os))%nat) /\
  (forall r, fs_solution O bb s e os val buf h = Ok r -> r_ret r = 0%nat /\ r_val r = val /\ r_sol r = buf /\ r_log r = None).
Proof.
  intros n O bb s e os val buf h HO SO EO SZ LB HF.
  destruct (C107_fix_and_solve n O bb s e os val buf h HO SO EO SZ LB HF) as (A & B & C). cbv zeta in A, B, C.
  set (enough := (length os / 3 <= length (filter (fun p => Qeq_bool (fst p) 0) os))%nat) in *.
  assert (D : fs_due e \/ ~ fs_due e).
  { unfold fs_due. destruct (Z_le_gt_dec (e_nsol e) 0); [|right; lia]. destruct (le_lt_dec (e_node e) 1000); [|right; lia].
    destruct (Nat.eq_dec (e_node e mod 100) 0); [left; auto|right; tauto]. }
  assert (E : enough \/ ~ enough) by (unfold enough; lia).
  assert (G : forall r, fs_solution O bb s e os val buf h = Ok r -> r_ret r = 0%nat /\ r_val r = val /\ r_sol r = buf /\ r_log r = None).
  { intros r. destruct D as [D|D]; [|rewrite (C D); intros X; injection X as <-; repeat split].
    destruct E as [E|E]; [rewrite (A (conj D E)); discriminate|].
    unfold fs_solution. destruct (Z.ltb 0 (e_nsol e)); [intros X; injection X as <-; repeat split|]. destruct (Nat.ltb 1000 (e_node e)); [intros X; injection X as <-; repeat split|].
    destruct (negb _); [intros X; injection X as <-; repeat split|]. cbv zeta. intros X. apply bind_ok in X as ([c k] & F & X).
    assert (CB : cols_n n (base_cols e)) by (apply base_n; exact EO).
    destruct (fs_fix_any n os (base_cols e) 0 HF CB) as (c1 & EF & _). unfold base_cols in EF. rewrite EF in F. injection F as <- <-. cbn [Nat.add] in X.
    replace (Nat.ltb _ (length os / 3)) with true in X by (symmetry; apply Nat.ltb_lt; unfold enough in E; lia). injection X as <-. repeat split. }
  split; [|exact G]. split; [|intros [X Y]; exact (A (conj X Y))].
  intros X. destruct D as [D|D]; [|rewrite (C D) in X; discriminate X]. destruct E as [E|E]; [auto|].
  destruct (B (conj D E)) as (r & Y & _). rewrite Y in X. discriminate X.
Qed.
Print Assumptions C114_partial.
Example C114_example : fs_solution exO exBB exSt (mkEnv 300 1 0 None [2; 0] (e_ints exE) None exC PInf) [(0, Ok); (1 # 2, Ok); (1 # 3, Ok)] 0 [0; 0] exH = Dangling /\
  (do r <- fs_solution exO exBB exSt (mkEnv 300 1 0 None [2; 0] (e_ints exE) None exC PInf) [(1, Ok); (1 # 2, Ok); (1 # 3, Ok)] 0 [0; 0] exH; Ok (r_ret r)) = Ok 0%nat.
Proof. split; vm_compute; reflexivity. Qed.
