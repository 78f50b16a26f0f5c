(** C42, C88 - C91: heuristics that solve a MILP. *)
From Verif Require Import Base Arr Nlp Oad_Model Nls_Model Nls_Spec Nls_Proofs Div_Model Div_Spec Div_Proofs Div_Proofs2 Mil_Model Mil_Spec Mil_Proofs Mil_Proofs2 Mil_Proofs3 Mil_Proofs4 Mil_Proofs5 Mil_Proofs6.
#[local] Open Scope Q_scope.

(** C42 is false: a Jacobian that is not listed by columns gives a matrix with coefficients
    in the wrong places, and the cut of the all-zero rounding removes every point. *)
Theorem C42_refuted : ~ C42_matrix (fun _ => True) /\ ~ C42_nogood.
Proof. split; [exact matrix_bad|exact nogood_bad]. Qed.
Print Assumptions C42_refuted.

(** What holds of C42.  The coefficients are right if the Jacobian is listed by columns; a
    no-good cut removes the current rounding, and of the 0-1 assignments it removes exactly
    those that are 1 wherever the rounding is 1. *)
Theorem C42_partial : C42_matrix (fun P => by_columns (p_jst P)) /\
  forall tol ints x b v lb b', mr_fix 0 (length ints) tol ints x [] 1 b = Ok (true, v, lb, b') ->
  (forall z, is_rounding ints x z -> ~ satisfies z (mkNg v lb)) /\
  ((forall i, nth i ints false = true -> rounded x i == 0 \/ rounded x i == 1) ->
   forall z, binary ints z -> (satisfies z (mkNg v lb) <-> exists i, nth i ints false = true /\ rounded x i == 1 /\ nth i z 0 == 0)).
Proof.
  split; [exact matrix_ok|]. intros tol ints x b v lb b' H. split.
  - intros z. exact (cut_current _ _ _ _ _ _ _ _ H).
  - intros BX z BZ. exact (cut_binary _ _ _ _ _ _ _ _ H BX BZ).
Qed.
Print Assumptions C42_partial.
Definition Pcol : nlp := mkNlp 2 3 1 [Fin 0; Fin 0] [Fin 1; Fin 1] [MInf; MInf; Fin 1] [Fin 1; Fin 1; Fin 2] [true; false; true] [true; true] [0; 0] [0; 0; 0]
  (fun x => nth 0 x 0 - nth 1 x 0) (fun _ => [1; -1]) (fun x => [nth 0 x 0; nth 0 x 0 * nth 0 x 0; 3 * nth 0 x 0 + 4 * nth 1 x 0])
  [(1, 1); (2, 1); (3, 1); (3, 2)]%nat (fun x => [1; 2 * nth 0 x 0; 3; 4]) [] (fun _ _ _ => []).
Example C42_case : nlp_ok Pcol /\ by_columns (p_jst Pcol) /\
  (do A <- mr_matrix isort Pcol [1 # 2; 1 # 2]; Ok (column A 0, column A 1)) = Ok ([(0%nat, 1); (1%nat, 3)], [(1%nat, 4)]) /\
  mr_fix 0 2 0 [true; true] [0; 1] [] 1 (mkCols [Fin 0; Fin 0] [Fin 1; Fin 1]) = Ok (true, [1%nat], 1 - 1, mkCols [Fin 0; Fin 1] [Fin 0; Fin 1]).
Proof.
  split; [constructor; intros; cbn; try reflexivity; repeat constructor; cbn; lia|]. split; [repeat constructor; unfold before; cbn; lia|].
  split; vm_compute; reflexivity.
Qed.

(** C88: over any sequence of calls the integer assignments handed to the NLP solver are
    pairwise different. *)
Theorem C88_new_assignments sort P tol howOften cs rs :
  sort_ok sort -> nlp_ok P -> 0 <= tol -> inject_Z (Z.of_nat (p_n P)) * tol < 1 ->
  Forall (fun c => honest_milp (a_M c) /\ sized P c) cs ->
  mr_run sort P tol howOften cs [] = Ok rs ->
  ForallOrdPairs (differ (p_int P)) (flat_map (fun r => match h_asked r with Some b => [b] | None => [] end) rs).
Proof. intros SO OK T NT F H. exact (proj1 (run_differ sort P tol howOften SO OK T NT cs [] [] rs F (Forall_nil _) H)). Qed.
Print Assumptions C88_new_assignments.
(** The runs meant above exist: no call fails. *)
Theorem C88_runs sort P tol howOften cs cuts : sort_ok sort -> nlp_ok P -> Forall (fun c => honest_milp (a_M c) /\ sized P c) cs ->
  exists rs, mr_run sort P tol howOften cs cuts = Ok rs.
Proof. intros SO OK. exact (run_fine sort P tol howOften SO OK cs cuts). Qed.
Print Assumptions C88_runs.
(** A MILP solver that takes the first of (0,1) and (1,0) that the cuts allow. *)
Definition firstM (m : milp) : option (list Q) :=
  let b := mkCols [Fin 0; Fin 0] [Fin 1; Fin 1] in
  if match k_lo (m_box m), k_up (m_box m) with [Fin 0; Fin 0], [Fin 1; Fin 1] => true | _, _ => false end then
    find (fun z => forallb (fun g => Qle_bool (ng_lb g) (- qsum (map (fun i => nth i z 0) (ng_vars g)))) (m_cuts m)) [[0; 1]; [1; 0]]
  else None.
Lemma firstM_honest : honest_milp firstM.
Proof.
  intros m sol H. unfold firstM in H.
  destruct (k_lo (m_box m)) as [|[|[[|?|?] [?|?|]]|] [|[|[[|?|?] [?|?|]]|] [|? ?]]] eqn:E1; try discriminate H;
  destruct (k_up (m_box m)) as [|[|[[|[?|?|]|?] [?|?|]]|] [|[|[[|[?|?|]|?] [?|?|]]|] [|? ?]]] eqn:E2; try discriminate H.
  apply find_some in H. destruct H as (H1 & H2). split.
  - unfold in_box, in_bounds. rewrite E1, E2. destruct H1 as [<-|[<-|[]]]; split; repeat constructor; cbn; unfold Qle; cbn; lia.
  - apply Forall_forall. intros g Hg. rewrite forallb_forall in H2. specialize (H2 g Hg). apply Qle_bool_iff in H2. exact H2.
Qed.
Definition box2 : cols := mkCols [Fin 0; Fin 0] [Fin 1; Fin 1].
Definition acall : call := mkCall firstM (fun b => (true, map (fun e => match e with Fin q => q | _ => 0 end) (k_lo b))) 0 0 1 [1 # 2; 1 # 2] [1 # 2; 1 # 2] box2 box2 5 [].
Example C88_case : honest_milp (a_M acall) /\ sized Pcol acall /\
  (do rs <- mr_run isort Pcol 0 20 [acall; acall; acall] []; Ok (map (fun r => (h_found r, h_better r)) rs)) = Ok [(true, [0; 1]); (true, [1; 0]); (false, [])].
Proof. split; [exact firstM_honest|]. split; [unfold sized; cbn; lia|]. vm_compute. reflexivity. Qed.

(** C89: what one call of the rounding heuristic reports. *)
Theorem C89_reported sort M N P tol depth node howOften pass x colsol lpbox b0 cuts val old r :
  nlp_ok P -> honest_milp M -> honest_nlp N ->
  length (k_lo lpbox) = p_n P -> length (k_lo b0) = p_n P -> length (k_up b0) = p_n P ->
  milp_rounding sort M N P tol depth node howOften pass x colsol lpbox b0 cuts val old = Ok r ->
  (h_found r = true -> exists b, N b = (true, h_better r) /\ fixes_ints (p_int P) b /\ other_bounds (p_int P) b0 b /\
     h_value r = p_f P (h_better r) /\ h_value r < val /\ integer_point (p_int P) (h_better r) /\
     (integer_bounds (p_int P) lpbox -> int_part (p_int P) b0 lpbox -> in_box b0 (h_better r))) /\
  (h_found r = false -> h_value r = val /\ h_better r = old).
Proof.
  intros OK HM HN LB L1 L2 H. apply call_cases in H; [|exact OK|exact HM|exact LB].
  destruct H as [(A1 & A2 & A3 & A4 & _)|(b & g & sol & A1 & A2 & A3 & A4 & A5 & A6 & A7 & (A8 & A8') & A9 & A10)].
  { split; [intros E; rewrite A2 in E; discriminate|auto]. }
  destruct A10 as [(F & NB & V1 & V2)|(F & V1 & V2)]; [|split; [intros E; rewrite F in E; discriminate|auto]].
  split; [intros _|intros E; rewrite F in E; discriminate]. exists b. pose proof (HN _ _ NB) as IB.
  apply in_box_nth in IB. destruct IB as (B1 & B2 & B3). apply in_box_nth in A5. destruct A5 as (C1 & C2 & C3).
  assert (EQ : forall i, nth i (p_int P) false = true -> nth i (h_better r) 0 == rounded sol i).
  { intros i Ti. pose proof (nth_in_len _ _ Ti) as Y. rewrite (ok_int P OK) in Y. destruct (B3 i) as (B4 & B5); [lia|]. destruct (A7 i Ti) as (_ & G1 & G2).
    unfold nlo in B4. unfold nup in B5. rewrite G1 in B4. rewrite G2 in B5. cbn [lo_ok up_ok] in B4, B5. lra. }
  split; [exact NB|]. split; [intros i Ti; eexists; apply (A7 i Ti)|]. split; [exact A9|]. split; [exact V1|]. split; [exact V2|]. split.
  - intros i Ti. exists (Qfloor (nth i sol 0 + (1 # 2))). rewrite (EQ i Ti). unfold rounded. setoid_replace (inject_Z (Qfloor (nth i sol 0 + (1 # 2))) - inject_Z (Qfloor (nth i sol 0 + (1 # 2)))) with 0 by ring. discriminate.
  - intros IBD IP. apply in_box_nth. split; [lia|]. split; [lia|]. intros i Hi. destruct (nth i (p_int P) false) eqn:Ti.
    + assert (Hs : (i < length sol)%nat) by lia. destruct (C3 i Hs) as (C4 & C5). destruct (IBD i Ti) as (D1 & D2).
      destruct (round_in _ _ _ D1 D2 C4 C5) as (R1 & R2). destruct (IP i _ Ti R1 R2) as (P1 & P2). unfold nlo, nup. split.
      * apply (lo_eq _ _ _ (EQ i Ti)). exact P1.
      * apply (up_eq _ _ _ (EQ i Ti)). exact P2.
    + destruct (A9 i Ti) as (G1 & G2). rewrite <- G1, <- G2. apply B3, Hi.
Qed.
Print Assumptions C89_reported.
(** An NLP solver that answers the only point of a box of points. *)
Definition pointN (b : cols) : bool * list Q :=
  let x := map (fun e => match e with Fin q => q | _ => 0 end) (k_lo b) in
  ((Nat.eqb (length (k_lo b)) (length (k_up b)) && forallb (fun p => match p with (Fin l, Fin u) => Qeq_bool l u | _ => false end) (combine (k_lo b) (k_up b)))%bool, x).
Lemma pointN_honest : honest_nlp pointN.
Proof.
  intros b x H. unfold pointN in H. injection H as H E. apply andb_true_iff in H. destruct H as (L & F). apply Nat.eqb_eq in L. subst x. unfold in_box, in_bounds.
  revert L F. generalize (k_up b). induction (k_lo b) as [|l ls IH]; intros [|u us] L F; try discriminate L; [split; constructor|].
  cbn [combine forallb] in F. apply andb_true_iff in F. destruct F as (F1 & F). destruct l as [|p|]; try discriminate F1. destruct u as [|q|]; try discriminate F1. apply Qeq_bool_iff in F1.
  destruct (IH us) as (I1 & I2); [cbn [length] in L; lia|exact F|]. cbn [map]. split; constructor; try assumption; cbn [lo_ok up_ok]; lra.
Qed.
Example C89_case : honest_nlp pointN /\ honest_milp firstM /\ int_part (p_int Pcol) box2 box2 /\
  (do r <- milp_rounding isort firstM pointN Pcol 0 0 0 20 1 [1 # 2; 1 # 2] [1 # 2; 1 # 2] box2 box2 [] 5 []; Ok (h_found r, h_value r, h_better r)) = Ok (true, 0 - 1, [0; 1]).
Proof. split; [exact pointN_honest|]. split; [exact firstM_honest|]. split; [intros i v _ A B; split; assumption|vm_compute; reflexivity]. Qed.

(** C90 is false without a condition on the Jacobian: an entry listed twice ends the
    heuristic with an exception. *)
Theorem C90_refuted : ~ C90_full.
Proof. exact C90_dup. Qed.
Print Assumptions C90_refuted.
(** What holds: without duplicates the MILP is the restriction of the problem to its linear
    variables, whatever the order of the Jacobian. *)
Theorem C90_partial : C90_claim single_entries.
Proof. intros sort P vlin b xs x SO OK LV Ls Lx L1 L2 AF SE. exact (dm_restriction sort P vlin SO OK LV SE b xs x Ls Lx L1 L2 AF). Qed.
Print Assumptions C90_partial.
(** x0 nonlinear, x1 and x2 linear; the entries are listed by rows. *)
Definition Pmix : nlp := mkNlp 3 3 0 [Fin 0; Fin 0; Fin 0] [Fin 2; Fin 5; Fin 5] [MInf; Fin 1; Fin 0] [Fin 4; Fin 6; PInf] [false; false; false] [true; true; false] [0; 0; 0] [0; 0; 0]
  (fun x => nth 0 x 0 * nth 0 x 0 - nth 1 x 0 + 2 * nth 2 x 0) (fun x => [2 * nth 0 x 0; -1; 2])
  (fun x => [nth 0 x 0 * nth 0 x 0; nth 0 x 0 * nth 0 x 0 + nth 1 x 0 - nth 2 x 0; nth 0 x 0 + 3 * nth 2 x 0])
  [(0, 0); (1, 0); (1, 1); (1, 2); (2, 0); (2, 2)]%nat (fun x => [2 * nth 0 x 0; 2 * nth 0 x 0; 1; -1; 1; 3]) [] (fun _ _ _ => []).
Definition box3 : cols := mkCols [Fin 0; Fin 0; Fin 0] [Fin 2; Fin 5; Fin 5].
Example C90_case : nlp_ok Pmix /\ single_entries Pmix [false; true; true] /\ affine Pmix [false; true; true] [1; 1 # 2; 0] [1; 1 # 2; 0] /\
  (do r <- dm_milp isort Pmix [false; true; true] box3 [1; 1 # 2; 0] [1; 1 # 2; 0]; Ok (l_cols (snd r), l_obj (snd r))) = Ok ([[(0%nat, 1)]; [(0%nat, -1); (1%nat, 3)]], [-1; 2]).
Proof.
  split; [constructor; intros; cbn; try reflexivity; repeat constructor; cbn; lia|]. split.
  { unfold single_entries. cbn. repeat constructor; cbn; intuition discriminate. }
  split; [|vm_compute; reflexivity]. intros y Ly. change (length (linear_cols [false; true; true])) with 2%nat in Ly. destruct y as [|v [|w [|z y]]]; try discriminate Ly. split.
  - intros i Hi. cbn [p_m Pmix] in Hi. assert (C : i = 0%nat \/ i = 1%nat \/ i = 2%nat) by lia. destruct C as [C|[C|C]]; subst i; unfold dot; cbn; ring.
  - unfold dot. cbn. ring.
Qed.

(** C91: with an honest NLP solver and an honest MILP solver the heuristic ends, and a point
    it reports is integral, within the bounds it was started with, below the incumbent and
    accepted by the NLP solver. *)
Theorem C91_dive_mip sort M S' last R P vlin tol node pass b0 x0 gs val old :
  sort_ok sort -> nlp_ok P -> length vlin = p_n P -> single_entries P vlin -> 0 <= tol -> honest S' -> answers_sized (p_n P) S' -> honest_lmilp M ->
  picks_fractional tol (nl_ints P vlin) R -> sizes (all_ints P) b0 -> in_box b0 x0 -> length gs = p_m P -> rows_open (all_ints P) ->
  bounded_ints (nl_ints P vlin) b0 -> integer_bounds (p_int P) b0 ->
  exists N, forall fuel, (N <= fuel)%nat ->
  exists r, dive_mip fuel sort M S' last R P vlin tol node pass b0 x0 gs val old = Ok r /\ dive_mip_good P S' b0 val old r.
Proof. exact (dive_mip_ok sort M S' last R P vlin tol node pass b0 x0 gs val old). Qed.
Print Assumptions C91_dive_mip.
(** x0 is rounded up by the dive, x1 set by the MILP. *)
Definition mixM (m : lmilp) : option (list Q) :=
  match l_lb m, l_ub m with
  | [l1; l2], [u1; u2] => if (below 5 l1 || above 5 u1 || below 0 l2 || above 0 u2)%bool then None else Some [5; 0]
  | _, _ => None
  end.
Lemma mixM_honest : honest_lmilp mixM.
Proof.
  intros m sol H. unfold mixM in H. destruct (l_lb m) as [|l1 [|l2 [|? ?]]] eqn:E1; try discriminate H. destruct (l_ub m) as [|u1 [|u2 [|? ?]]] eqn:E2; try discriminate H.
  destruct (below 5 l1 || above 5 u1 || below 0 l2 || above 0 u2)%bool eqn:E; [discriminate H|]. rewrite !orb_false_iff, !below_ok, !above_ok in E.
  assert (sol = [5; 0]) by congruence. subst sol. split; repeat constructor; tauto.
Qed.
Definition mixS : solver := fun _ b => match k_lo b, k_up b with
  | [Fin l; Fin a; Fin c], [Fin _; Fin u; Fin _] => (forallb (fun p => match p with (Fin l, Fin u) => Qle_bool l u | _ => false end) (combine (k_lo b) (k_up b)), [l; if Qeq_bool a u then a else (a + u) * (1 # 2); c])
  | _, _ => (false, [0; 0; 0]) end.
Lemma mixS_honest : honest mixS /\ answers_sized 3 mixS.
Proof.
  split.
  - intros k [lo up] x H. unfold mixS in H. cbn [k_lo k_up] in H. destruct lo as [|[|l|] [|[|a|] [|[|c|] [|? ?]]]]; try discriminate H.
    destruct up as [|[|u1|] [|[|u2|] [|[|u3|] [|? ?]]]]; try discriminate H. injection H as H <-. cbn [combine forallb] in H.
    rewrite !andb_true_iff in H. rewrite !Qle_bool_iff in H. destruct H as (H1 & H2 & H3 & _). unfold in_box, in_bounds. cbn [k_lo k_up]. destruct (Qeq_bool a u2); split; repeat constructor; cbn [lo_ok up_ok]; lra.
  - intros k [lo up]. unfold mixS. cbn [k_lo k_up]. destruct lo as [|[|l|] [|[|a|] [|[|c|] [|? ?]]]]; try reflexivity.
    destruct up as [|[|u1|] [|[|u2|] [|[|u3|] [|? ?]]]]; reflexivity.
Qed.
Example C91_case : honest mixS /\ honest_lmilp mixM /\ sizes (all_ints Pmix) box3 /\
  picks_fractional 0 (nl_ints Pmix [false; true; true]) (fractional_rule 0 (fun _ _ => true) (d_ints (nl_ints Pmix [false; true; true]))) /\
  bounded_ints (nl_ints Pmix [false; true; true]) box3 /\ integer_bounds (p_int Pmix) box3 /\
  dive_mip 9 isort mixM mixS 9 (fractional_rule 0 (fun _ _ => true) (d_ints (nl_ints Pmix [false; true; true]))) Pmix [false; true; true] 0 0 1 box3
    [3 # 4; 1 # 2; 0] [0; 1; 1] 100 [] = Ok (true, 0 + 1 * 1 - 5 + 2 * 0, [1; 5; 0]).
Proof.
  split; [apply mixS_honest|]. split; [exact mixM_honest|]. split; [unfold sizes; cbn; lia|]. split; [apply fractional_picks|].
  split; [|split].
  - intros [|[|[|i]]] H; cbn in H; try discriminate H; try (destruct i; discriminate H). split; eexists; reflexivity.
  - intros [|[|[|i]]] H; cbn in H; try discriminate H; try (destruct i; discriminate H); (split; intros q E; cbn in E; injection E as <-).
    + exists 0%Z. reflexivity. + exists 2%Z. reflexivity. + exists 0%Z. reflexivity. + exists 5%Z. reflexivity.
  - vm_compute. reflexivity.
Qed.

(** C134 *)
Lemma pick_nth : forall lin g d i, nth i lin false = true -> (length lin <= length g)%nat -> nth (rank lin i) (pick_lin lin g) d = nth i g d.
Proof.
  induction lin as [|b lin IH]; intros [|e g] d i H L; cbn [length] in L; try lia; [destruct i; discriminate H|destruct i; discriminate H|].
  destruct i as [|i].
  - cbn [nth] in H. subst b. reflexivity.
  - cbn [nth] in H. rewrite rank_S. destruct b; cbn [pick_lin nth plus]; apply IH; try exact H; lia.
Qed.
Lemma pick_length : forall lin g, length lin = length g -> length (pick_lin lin g) = count_occ Bool.bool_dec lin true.
Proof.
  induction lin as [|b lin IH]; intros [|e g] L; try discriminate L; [reflexivity|]. injection L as L. cbn [pick_lin count_occ].
  destruct b; destruct (Bool.bool_dec _ true); try congruence; cbn [length]; rewrite IH by exact L; reflexivity.
Qed.
Lemma obj_distance : forall ints c z, length c = length ints -> length z = length ints -> binary ints z ->
  dot (mr_obj ints c) z == distance ints c z - distance ints c (repeat 0 (length ints)).
Proof.
  induction ints as [|b ints IH]; intros [|p c] [|v z] Lc Lz B; try discriminate Lc; try discriminate Lz; [reflexivity|].
  injection Lc as Lc. injection Lz as Lz. assert (B' : binary ints z) by (intros i Hi; apply (B (S i)), Hi).
  specialize (IH c z Lc Lz B'). unfold dot, mr_obj in *. cbn [combine map qsum fst snd distance length repeat]. rewrite IH. destruct b; [|ring].
  destruct (B 0%nat eq_refl) as [X|X]; cbn [nth] in X; rewrite X; ring.
Qed.
(** The MILP solver is asked about one MILP only, and it is the one described. *)
Theorem C134_milp sort P x colsol lpbox cuts :
  sort_ok sort -> nlp_ok P -> length x = p_n P -> length colsol = p_n P -> by_columns (p_jst P) ->
  exists m, rounding_milp P x colsol lpbox cuts m /\
    forall M M' N tol depth node howOften pass b0 val old, M m = M' m ->
      milp_rounding sort M N P tol depth node howOften pass x colsol lpbox b0 cuts val old =
      milp_rounding sort M' N P tol depth node howOften pass x colsol lpbox b0 cuts val old.
Proof.
  intros SO OK Lx Lc BC. destruct (matrix_ok sort P x SO OK Lx BC) as (A & E & LA).
  exists (mkMilp A lpbox (mr_obj (p_int P) colsol) (pick_lin (p_lin P) (p_gl P)) (pick_lin (p_lin P) (p_gu P)) cuts (p_int P)). split.
  - destruct OK. unfold rounding_milp. cbn [m_A m_box m_ints m_cuts m_rl m_ru m_obj]. split; [exact LA|]. split; [reflexivity|]. split; [reflexivity|]. split; [reflexivity|].
    split; [apply pick_length; congruence|]. split; [apply pick_length; congruence|]. split.
    + intros i Hi. split; apply pick_nth; try exact Hi; lia.
    + intros z z' Lz Lz' B B'. rewrite !obj_distance by (assumption || congruence). ring.
  - intros M M' N tol depth node howOften pass b0 val old H. unfold milp_rounding. rewrite E. cbn [bind]. rewrite H. reflexivity.
Qed.
Print Assumptions C134_milp.
Example C134_case : length [1 # 2; 1 # 3] = p_n Pcol /\ binary (p_int Pcol) [1; 0] /\ distance (p_int Pcol) [1 # 2; 1 # 3] [1; 0] == 13 # 36.
Proof. split; [reflexivity|]. split; [intros [|[|i]] H; cbn in *; [right; reflexivity|left; reflexivity|destruct i; discriminate H]|reflexivity]. Qed.
