(** Properties C209-C217: inner approximations, the guess of the best node, the cut generators of the sub-MIP solver. *)
From Coq Require Import String Psatz.
From Verif Require Import Base Arr Spa_Model Spa_Spec Spa_Proofs Inn_Model Inn_Spec Inn_Proofs.
From Verif Require Set_Model.
#[local] Open Scope Q_scope.
#[local] Open Scope list_scope.

(** x0^2 - x1 <= side *)
Definition square (side : Q) : row := mkRow false MInf (Fin side) (fun x => nth 0 x 0 * nth 0 x 0 - nth 1 x 0) (fun x => [(0%nat, 2 * nth 0 x 0); (1%nat, -1)]) None.
Lemma square_uni side : univariate [false; true] (square side) 0 (fun q => q * q) [(1%nat, -1)].
Proof.
  repeat split; try (cbn; lia).
  - repeat constructor; cbn; intuition discriminate.
  - destruct H as [H|[]]; injection H as <- <-; cbn; lia.
  - destruct H as [H|[]]; injection H as <- <-; reflexivity.
  - intros s t H. rewrite H. reflexivity.
  - intros y. unfold lhs. cbn [r_g square map fst snd qsum fold_right]. ring.
  - intros x. exists [], (2 * nth 0 x 0), [(1%nat, -1)]. auto.
Qed.
Lemma square_convex : convex1 (fun q => q * q).
Proof.
  intros s t u A B. assert (E : s * s * (u - t) + u * u * (t - s) - t * t * (u - s) == (t - s) * (u - t) * (u - s)) by ring.
  assert (0 <= (t - s) * (u - t) * (u - s)) by (apply Qmult_le_0_compat; [apply Qmult_le_0_compat|]; lra). lra.
Qed.

(** ** C209: points that satisfy all chords satisfy the convex rows *)
Theorem C209_refuted : ~ C209_full.
Proof.
  intros H.
  assert (E : exists cs, inner_cuts 2 [false; true] [Fin 0; MInf] [Fin 1000; PInf] [square 0] = Ok cs /\ forall d, In d cs -> holds d [200; 26000]).
  { eexists; split; [vm_compute; reflexivity|]. intros d [<- | [<- | []]]; (split; [exact Logic.I|]); vm_compute; congruence. }
  destruct E as [cs [E1 E2]].
  assert (S : satisfied (square 0) [200; 26000]).
  { apply (H 2%nat [false; true] [Fin 0; MInf] [Fin 1000; PInf] [square 0] cs (square 0) 0%nat (fun q => q * q) [(1%nat, -1)] [200; 26000]); auto using square_uni, square_convex.
    - split; reflexivity.
    - now left.
    - intros [|[|i]] I; [| |cbn in I; lia]; split; try exact Logic.I; vm_compute; congruence. }
  destruct S as [_ S]. revert S. vm_compute. congruence.
Qed.
Print Assumptions C209_refuted.
(** The sides of the row are not looked at either: with -1 on the right the chords are those for 0. *)
Theorem C209_side_refuted : exists cs y, inner_cuts 2 [false; true] [Fin 0; MInf] [Fin 10; PInf] [square (-1)] = Ok cs /\ in_box [Fin 0; MInf] [Fin 10; PInf] y /\
  (forall d, In d cs -> holds d y) /\ ~ satisfied (square (-1)) y.
Proof.
  eexists. exists [0; 1 # 2]. split; [vm_compute; reflexivity|]. split; [|split].
  - intros [|[|i]] I; [| |cbn in I; lia]; split; try exact Logic.I; vm_compute; congruence.
  - intros d [<- | [<- | []]]; (split; [exact Logic.I|]); vm_compute; congruence.
  - intros [_ S]. revert S. vm_compute. congruence.
Qed.
Print Assumptions C209_side_refuted.
(** With one point a row of a fixed variable is left out. *)
Theorem C209_fixed_refuted : inner_cuts 1 [false; true] [Fin 3; MInf] [Fin 3; PInf] [square 0] = Ok [] /\ ~ satisfied (square 0) [3; 0].
Proof. split. vm_compute; reflexivity. intros [_ S]. revert S. vm_compute. congruence. Qed.
Print Assumptions C209_fixed_refuted.

(** Between -1000 and 100, for rows with a right side of at least 0, with at least two points or a variable that is not fixed. *)
Theorem C209_partial : forall nb lin cl cu rows cs r a f c y, (1 <= nb)%nat -> sizes lin cl cu ->
  In r rows -> r_linear r = false -> (forall z, r_id r = Some z -> nth z y 0 == 1) -> r_lo r = MInf -> up_ok (r_up r) 0 -> univariate lin r a f c -> convex1 f ->
  in_box cl cu y -> -1000 <= nth a y 0 <= 100 -> (2 <= nb)%nat \/ (1 # 100000000) <= width cl cu a ->
  inner_cuts nb lin cl cu rows = Ok cs -> (forall d, In d cs -> holds d y) -> satisfied r y.
Proof.
  intros nb lin cl cu rows cs r a f c y NB SZ I LR SW LO UP U CV B RG W H HD. split; [rewrite LO; exact Logic.I|].
  apply (up_ok_le _ _ 0); [|exact UP]. apply (inner_sound nb lin cl cu rows cs r a f c y); auto.
  unfold switched_on. destruct (r_id r) as [[|z]|] eqn:E; auto.
Qed.
Print Assumptions C209_partial.
Example C209_case : exists cs, inner_cuts 3 [false; true] [Fin (-1); MInf] [Fin 2; PInf] [square 0] = Ok cs /\ List.length cs = 3%nat /\
  (forall d, In d cs -> holds d [1 # 2; 1]) /\ satisfied (square 0) [1 # 2; 1].
Proof.
  eexists; split; [vm_compute; reflexivity|]. split; [reflexivity|]. split.
  - intros d [<- | [<- | [<- | []]]]; (split; [exact Logic.I|]); vm_compute; congruence.
  - split; vm_compute; [exact Logic.I | congruence].
Qed.

(** ** C210: the inner approximation heuristic returns feasible points *)
Definition holdsb (d : cut) (y : list Q) : bool :=
  (match c_lo d with Fin l => Qle_bool l (lhs (c_row d) y) | MInf => true | PInf => false end &&
   match c_up d with Fin u => Qle_bool (lhs (c_row d) y) u | PInf => true | MInf => false end)%bool.
Lemma holdsb_ok d y : holdsb d y = true -> holds d y.
Proof.
  unfold holdsb, holds. intros H. apply andb_prop in H. destruct H as [A B]. split.
  - destruct (c_lo d); cbn in *; auto; try discriminate. now apply Qle_bool_iff.
  - destruct (c_up d); cbn in *; auto; try discriminate. now apply Qle_bool_iff.
Qed.
(** A MIP solver that tries one point in the box of that point. *)
Definition box_rows (cl cu : list ext) : list cut := map (fun p => mkCut [(fst p, 1)] (fst (snd p)) (snd (snd p))) (combine (seq 0 (List.length cl)) (combine cl cu)).
Definition try (y : list Q) (cs : list cut) (cl cu : list ext) : option (list Q) :=
  if (Nat.eqb (List.length cl) (List.length y) && Nat.eqb (List.length cu) (List.length y) && forallb (fun d => holdsb d y) (box_rows cl cu) && forallb (fun d => holdsb d y) cs)%bool then Some y else None.
Lemma box_rows_in cl cu i : (i < List.length cl)%nat -> List.length cu = List.length cl -> In (mkCut [(i, 1)] (nth i cl MInf) (nth i cu PInf)) (box_rows cl cu).
Proof.
  intros L E. unfold box_rows. apply in_map_iff. exists (i, (nth i cl MInf, nth i cu PInf)). split; [reflexivity|].
  assert (N : nth i (combine (seq 0 (List.length cl)) (combine cl cu)) (0%nat, (MInf, PInf)) = (i, (nth i cl MInf, nth i cu PInf))).
  { rewrite combine_nth by (rewrite seq_length, combine_length; lia). rewrite seq_nth by exact L. rewrite combine_nth by lia. reflexivity. }
  rewrite <- N. apply nth_In. rewrite combine_length, seq_length, combine_length. lia.
Qed.
Lemma try_sound y : mip_sound (try y).
Proof.
  intros cs cl cu y' H. unfold try in H.
  destruct (Nat.eqb_spec (List.length cl) (List.length y)) as [L1|]; cbn [andb] in H; [|discriminate].
  destruct (Nat.eqb_spec (List.length cu) (List.length y)) as [L2|]; cbn [andb] in H; [|discriminate].
  destruct (forallb _ (box_rows cl cu)) eqn:B; cbn [andb] in H; [|discriminate]. destruct (forallb _ cs) eqn:C; [|discriminate]. injection H as <-.
  cbv zeta. rewrite firstn_all2 by lia. rewrite forallb_forall in B, C. split.
  - intros i I. assert (K := B _ (box_rows_in cl cu i I ltac:(lia))). apply holdsb_ok in K. destruct K as [K1 K2]. cbn [c_lo c_up c_row] in *.
    split.
    + apply (lo_ok_eq _ _ (lhs [(i, 1)] y)); [|exact K1]. rewrite lhs_one. ring.
    + apply (up_ok_eq _ _ (lhs [(i, 1)] y)); [|exact K2]. rewrite lhs_one. ring.
  - intros d I. apply holdsb_ok. auto.
Qed.
Theorem C210_refuted : ~ C210_full.
Proof.
  intros H.
  assert (E : inner_solution (try [200; 30000]) (fun y => nth 1 y 0) 20 [false; true] [Fin 0; MInf] [Fin 1000; PInf] [square 0] (Some [0; 0]) 0 0 100 50000 [] = Ok (1%Z, 30000, [200; 30000]))
    by (vm_compute; reflexivity).
  apply H in E; [| apply try_sound | lia | split; reflexivity |].
  - destruct E as [_ E]. specialize (E (square 0) (or_introl eq_refl)). destruct E as [_ E]. revert E. vm_compute. congruence.
  - intros r [<- | []]. cbn. repeat split. exists 0%nat, (fun q => q * q), [(1%nat, -1)]. split; [apply square_uni | apply square_convex].
Qed.
Print Assumptions C210_refuted.
Theorem C210_partial : forall mip f nb lin cl cu rows x node pass often v b v' b', mip_sound mip -> (1 <= nb)%nat -> sizes lin cl cu ->
  (forall r, In r rows -> row_ok lin r) -> modest lin cl cu ->
  inner_solution mip f nb lin cl cu rows x node pass often v b = Ok (1%Z, v', b') ->
  in_box cl cu b' /\ forall r, In r rows -> satisfied r b'.
Proof.
  intros mip f nb lin cl cu rows x node pass often v b v' b' MS NB SZ RO MO H. unfold inner_solution in H.
  destruct (negb (node =? 0)%Z || (1 <? pass)%Z)%bool; [discriminate|]. destruct (often =? 0)%Z; [discriminate|]. destruct x as [x|]; [|discriminate].
  apply bind_ok in H. destruct H as [cs [E H]]. destruct (mip cs cl cu) as [y|] eqn:EM; [|discriminate]. cbv zeta in H.
  destruct (Qltb (f (firstn (List.length cl) y)) v); [|discriminate]. injection H as <- <-. destruct (MS _ _ _ _ EM) as [B HD]. cbv zeta in B, HD. set (z := firstn (List.length cl) y) in *.
  split; [exact B|]. unfold extractInnerApproximation in E. apply bind_ok in E. destruct E as [ds [E2 E]]. injection E as <-.
  intros r I. pose proof (RO r I) as R. unfold row_ok in R. destruct (r_linear r) eqn:LR.
  - assert (K : holds (mkCut (r_j r x) (r_lo r) (r_up r)) z).
    { apply HD. apply in_or_app. left. unfold linear_cuts. apply in_map_iff. exists r. split; [reflexivity|]. apply filter_In; auto. }
    destruct K as [K1 K2]. cbn [c_lo c_up c_row] in *. split; [eapply lo_ok_eq | eapply up_ok_eq]; eauto.
  - destruct R as [ID [RL [RU [a [h [c [U CV]]]]]]]. pose proof U as [LA [NA _]]. destruct (MO a LA NA) as [l [u [C1 [C2 [C3 [C4 C5]]]]]].
    destruct (B a) as [BL BU]. { destruct SZ. lia. } rewrite C1 in BL. rewrite C2 in BU. cbn in BL, BU.
    apply (C209_partial nb lin cl cu rows ds r a h c z); auto.
    + intros q Hq. congruence.
    + rewrite RU. cbn. lra.
    + lra.
    + right. unfold width. rewrite C1, C2. cbn. destruct (Qlt_le_dec 100 u); destruct (Qlt_le_dec l (-1000)); lra.
    + intros d Id. apply HD. apply in_or_app. now right.
Qed.
Print Assumptions C210_partial.
Example C210_case : inner_solution (try [1 # 2; 1]) (fun y => nth 1 y 0) 3 [false; true] [Fin (-1); MInf] [Fin 2; PInf] [square 0] (Some [0; 0]) 0 0 100 50 [] = Ok (1%Z, 1, [1 # 2; 1]).
Proof. vm_compute. reflexivity. Qed.

(** ** C211: building the inner approximation does not end the process *)
Theorem C211_refuted : ~ C211_full.
Proof.
  intros H. destruct (H 2%nat [false; true] [Fin 3; MInf] [Fin 3; PInf] [square 0]) as [cs E]; auto.
  - split; reflexivity.
  - intros r [<- | []] _. split; [reflexivity|]. exists 0%nat, (fun q => q * q), [(1%nat, -1)]. apply square_uni.
  - exists [3; 0]. intros [|[|i]] I; [| |cbn in I; lia]; split; try exact Logic.I; vm_compute; congruence.
  - assert (T : inner_cuts 2 [false; true] [Fin 3; MInf] [Fin 3; PInf] [square 0] = Thrown) by (vm_compute; reflexivity). congruence.
Qed.
Print Assumptions C211_refuted.
(** It runs, with one cut for each row and point, if each range is wide enough ... *)
Theorem C211_partial : forall nb lin cl cu rows, (1 <= nb)%nat -> sizes lin cl cu -> (exists y, in_box cl cu y) ->
  (forall r, In r rows -> r_linear r = false -> r_id r = None /\ exists a f c, univariate lin r a f c /\ inject_Z (Z.of_nat nb) * (1 # 100000000) <= width cl cu a) ->
  exists cs, inner_cuts nb lin cl cu rows = Ok cs /\ List.length cs = (nb * List.length (filter (fun r => negb (r_linear r)) rows))%nat.
Proof. intros nb lin cl cu rows NB SZ [y B] H. exact (inner_runs nb lin cl cu rows y NB SZ B H). Qed.
Print Assumptions C211_partial.
(** ... and it exits if one is not. *)
Theorem C211_exit_partial : forall nb lin cl cu rows r a f c, (2 <= nb)%nat -> sizes lin cl cu -> (exists y, in_box cl cu y) -> all_univariate lin rows ->
  In r rows -> r_linear r = false -> univariate lin r a f c -> Qabs (width cl cu a) < inject_Z (Z.of_nat nb) * (1 # 100000000) -> inner_cuts nb lin cl cu rows = Thrown.
Proof. intros nb lin cl cu rows r a f c NB SZ [y B]. apply (inner_exits nb lin cl cu rows y r a f c NB SZ B). Qed.
Print Assumptions C211_exit_partial.
Example C211_case : inject_Z 3 * (1 # 100000000) <= width [Fin (-1); MInf] [Fin 2; PInf] 0 /\ Qabs (width [Fin 3; MInf] [Fin 3; PInf] 0) < inject_Z 2 * (1 # 100000000).
Proof. split; vm_compute; congruence. Qed.

(** ** C212: points at which a switched row is off satisfy its chords *)
Definition shifted (id : nat) : row := mkRow false MInf (Fin 0) (fun x => nth 1 x 0 * nth 1 x 0 + 5 - nth 2 x 0) (fun x => [(1%nat, 2 * nth 1 x 0); (2%nat, -1)]) (Some id).
Theorem C212_refuted : ~ C212_full.
Proof.
  intros H. assert (E : exists c, chord (shifted 0) [0; 1; 0] [0; 2; 0] = Ok (Some c) /\ ~ holds c [0; 0; 0]).
  { eexists; split; [vm_compute; reflexivity|]. intros [_ S]. revert S. vm_compute. congruence. }
  destruct E as [c [E N]]. apply N. apply (H (shifted 0) [0; 1; 0] [0; 2; 0] c [0; 0; 0] 0%nat); auto.
  - reflexivity.
  - intros j [<- | [<- | []]]; reflexivity.
Qed.
Print Assumptions C212_refuted.
Theorem C212_partial : forall r x x2 c y z, r_id r = Some z -> (0 < z)%nat -> nth z y 0 == 0 ->
  (forall j, In j (map fst (r_j r x2)) -> nth j y 0 == 0) -> chord r x x2 = Ok (Some c) -> holds c y.
Proof. intros r x x2 c y [|z] ID P; [lia|]. apply off_kept; exact ID. Qed.
Print Assumptions C212_partial.
Example C212_case : exists c, chord (shifted 3) [0; 1; 0; 0] [0; 2; 0; 0] = Ok (Some c) /\ holds c [0; 0; 0; 0] /\ ~ holds c [0; 0; 0; 1].
Proof. eexists; split; [vm_compute; reflexivity|]. split; [split; [exact Logic.I | vm_compute; congruence]|]. intros [_ S]. revert S. vm_compute. congruence. Qed.

(** ** C213: only better solutions are claimed, with their value, and only at the root *)
Theorem C213_only_better : forall mip f nb lin cl cu rows x node pass often v b res,
  inner_solution mip f nb lin cl cu rows x node pass often v b = Ok res -> only_better f v b res.
Proof.
  intros mip f nb lin cl cu rows x node pass often v b res H. unfold inner_solution in H.
  destruct (negb (node =? 0)%Z || (1 <? pass)%Z)%bool. { injection H as <-. right; auto. }
  destruct (often =? 0)%Z; [discriminate|]. destruct x as [x|]; [|discriminate]. apply bind_ok in H. destruct H as [cs [E H]].
  destruct (mip cs cl cu) as [y|]; [|injection H as <-; right; auto]. cbv zeta in H. destruct (Qltb (f (firstn (List.length cl) y)) v) eqn:L.
  - injection H as <-. left. apply Qltb_lt in L. auto.
  - injection H as <-. right; auto.
Qed.
Print Assumptions C213_only_better.
Theorem C213_root : forall mip f nb lin cl cu rows x node pass often v b, (node <> 0 \/ 1 < pass)%Z ->
  inner_solution mip f nb lin cl cu rows x node pass often v b = Ok (0%Z, v, b).
Proof.
  intros mip f nb lin cl cu rows x node pass often v b H. unfold inner_solution. replace (negb (node =? 0)%Z || (1 <? pass)%Z)%bool with true; [reflexivity|].
  symmetry. apply Bool.orb_true_iff. destruct H as [H|H]; [left; apply Bool.negb_true_iff, Z.eqb_neq, H | right; apply Z.ltb_lt, H].
Qed.
Print Assumptions C213_root.
(** A better point found by the MIP solver is returned. *)
Theorem C213_returned : forall mip f nb lin cl cu rows x pass often v b cs y, (pass <= 1)%Z -> often <> 0%Z ->
  extractInnerApproximation nb lin cl cu rows x = Ok cs -> mip cs cl cu = Some y -> f (firstn (List.length cl) y) < v ->
  inner_solution mip f nb lin cl cu rows (Some x) 0 pass often v b = Ok (1%Z, f (firstn (List.length cl) y), firstn (List.length cl) y).
Proof.
  intros mip f nb lin cl cu rows x pass often v b cs y P O E M L. unfold inner_solution. replace (1 <? pass)%Z with false by (symmetry; apply Z.ltb_ge; exact P). cbn [negb Z.eqb orb].
  apply Z.eqb_neq in O. rewrite O, E. cbn [bind]. rewrite M. cbv zeta. apply Qltb_lt in L. rewrite L. reflexivity.
Qed.
Print Assumptions C213_returned.
Example C213_case : only_better (fun y => nth 1 y 0) 50 [] (1%Z, 1, [1 # 2; 1]) /\
  inner_solution (try [1 # 2; 1]) (fun y => nth 1 y 0) 3 [false; true] [Fin (-1); MInf] [Fin 2; PInf] [square 0] (Some [0; 0]) 0 0 100 1 [7] = Ok (0%Z, 1, [7]).
Proof. split. left. repeat split. vm_compute. reflexivity. Qed.

(** ** C214: the guess of a node *)
Theorem C214_refuted : ~ C214_full.
Proof. intros H. destruct (H NoMethod 0%nat 0) as [e [E _]]. intros; discriminate. discriminate. Qed.
Print Assumptions C214_refuted.
(** With a branching method: no solution is claimed and the guess is at least the objective of the node. *)
Theorem C214_partial : forall m nobj obj, m <> NoMethod -> (forall ps, m = PseudoCosts ps -> List.length ps = nobj /\ Forall nonneg ps) ->
  exists e, guess m nobj obj = Ok ((-1)%Z, e) /\ at_least e obj.
Proof.
  intros m nobj obj NM H. destruct m as [| |ps]; [congruence | exists (Fin obj); cbn; split; [reflexivity|lra] |]. destruct (H ps eq_refl) as [L N].
  destruct (guess_value ps nobj obj L) as [[E _] | [v [E [V _]]]]; [exists PInf; cbn; auto | exists (Fin v)]. split; [exact E|]. cbn. rewrite V.
  assert (0 <= qsum (map (expected ps) ps)); [|lra]. apply qsum_nonneg. intros q I. apply in_map_iff in I. destruct I as [p [<- I]]. apply expected_nonneg; auto. rewrite Forall_forall in N; auto.
Qed.
Print Assumptions C214_partial.
(** Its value: infinite while one direction was never branched on, otherwise the objective and for each object the cheaper of the two changes expected. *)
Theorem C214_value_partial : forall ps obj,
  (zsum (map up_num ps) = 0 \/ zsum (map down_num ps) = 0)%Z /\ guess (PseudoCosts ps) (List.length ps) obj = Ok ((-1)%Z, PInf) \/
  (zsum (map up_num ps) <> 0 /\ zsum (map down_num ps) <> 0)%Z /\ exists v, guess (PseudoCosts ps) (List.length ps) obj = Ok ((-1)%Z, Fin v) /\ v == obj + qsum (map (expected ps) ps).
Proof. intros ps obj. destruct (guess_value ps (List.length ps) obj eq_refl) as [[E Z] | [v [E [V [A B]]]]]; [left; auto | right; split; eauto]. Qed.
Print Assumptions C214_value_partial.
Example C214_case : exists v, guess (PseudoCosts [mkPc 6 2 0 0 (1#2) (1#2); mkPc 0 0 8 2 (1#4) (3#4)]) 2 10 = Ok ((-1)%Z, Fin v) /\ v == 10 + (3 # 2) + (3 # 4).
Proof. eexists; split; [vm_compute; reflexivity|]. reflexivity. Qed.

(** ** C215: each value of milp_solver can be used *)
Theorem C215_refuted : ~ C215_full.
Proof. intros H. destruct (H 1%Z EmptyString (Set_Model.mkOpts [] []) false) as [s E]. lia. discriminate. revert E. vm_compute. discriminate. Qed.
Print Assumptions C215_refuted.
(** Cbc_Par never works: an option that it reads is not registered. *)
Theorem C215_par : forall p o has_cplex, sub_mip Set_Model.reg_int has_cplex 1 p o = Thrown.
Proof.
  intros p o hc. unfold sub_mip. cbn [Z.leb Z.compare Z.eqb Pos.eqb]. unfold setup, get_reg. cbn [List.find Set_Model.reg_int fst snd].
  destruct (Set_Model.look p "number_strong_branch" (Set_Model.o_int o)); cbn; destruct (Set_Model.look p "number_before_trust" (Set_Model.o_int o)); reflexivity.
Qed.
Print Assumptions C215_par.
Theorem C215_partial : forall v p o has_cplex, v <> 1%Z -> (v = 0 \/ v = 2)%Z -> (v = 2%Z -> has_cplex = true) -> exists s, sub_mip Set_Model.reg_int has_cplex v p o = Ok s.
Proof. intros v p o hc N [-> | ->] C. exists CbcDefault; reflexivity. rewrite (C eq_refl). exists Cplex; reflexivity. Qed.
Print Assumptions C215_partial.
(** It would work if all names were registered. *)
Theorem C215_registered_partial : forall reg v p o has_cplex, (0 <= v <= 2)%Z -> (v = 2%Z -> has_cplex = true) ->
  (forall n, In n ("number_strong_branch" :: "number_before_trust" :: cut_options)%string -> List.find (fun e => String.eqb (fst e) n) reg <> None) ->
  exists s, sub_mip reg has_cplex v p o = Ok s.
Proof.
  intros reg v p o hc V C R. assert (V3 : v = 0%Z \/ v = 1%Z \/ v = 2%Z) by lia. destruct V3 as [-> | [-> | ->]].
  - exists CbcDefault; reflexivity.
  - unfold sub_mip. cbn [Z.leb Z.compare Z.eqb Pos.eqb]. unfold setup, get_reg.
    destruct (List.find _ reg) as [[a d]|] eqn:F1; [|exfalso; apply (R "number_strong_branch"%string); cbn; auto].
    destruct (List.find (fun e => String.eqb (fst e) "number_before_trust") reg) as [[b d2]|] eqn:F2; [|exfalso; apply (R "number_before_trust"%string); cbn; auto].
    destruct (freqs_runs reg p o kinds) as [vs E]. { intros n I. apply R. right; right; exact I. }
    destruct (Set_Model.look p "number_strong_branch" (Set_Model.o_int o)); cbn [bind]; destruct (Set_Model.look p "number_before_trust" (Set_Model.o_int o)); cbn [bind]; rewrite E; cbn [bind]; eauto.
  - rewrite (C eq_refl). exists Cplex; reflexivity.
Qed.
Print Assumptions C215_registered_partial.
Definition full_reg : list (string * Z) := ("probing_cuts"%string, 0%Z) :: Set_Model.reg_int.
Example C215_case : sub_mip full_reg false 1 EmptyString (Set_Model.mkOpts [("Gomory_cuts"%string, Set_Model.mkE 7%Z true)] []) = Ok (CbcChoose (mkStrategy 20 8 [-99; 7; -99; -99; -99; -99]%Z)).
Proof. vm_compute. reflexivity. Qed.

(** ** C216: the frequency of each kind of cuts is the value of its option *)
Theorem C216_refuted : ~ C216_full.
Proof.
  intros H. assert (E : exists s, setup full_reg EmptyString (Set_Model.mkOpts [] []) = Ok s /\ nth_error (s_freqs s) 2 = Some (-99)%Z) by (eexists; split; [vm_compute; reflexivity|]; reflexivity).
  destruct E as [s [E N]]. specialize (H full_reg EmptyString (Set_Model.mkOpts [] []) s 2%nat "cover_cuts"%string 0%Z).
  rewrite N in H. assert (K : Some (-99)%Z = Some 0%Z); [|discriminate]. apply H; auto. cbn. discriminate. exists false. reflexivity.
Qed.
Print Assumptions C216_refuted.
(** It is if the option was set; otherwise cuts are generated at the root only, whatever the default. *)
Theorem C216_partial : forall reg p o s k n, nth_error cut_options k = Some n -> setup reg p o = Ok s ->
  exists v set, get_reg reg p n o = Ok (v, set) /\ nth_error (s_freqs s) k = Some (if set : bool then v else (-99)%Z).
Proof.
  intros reg p o s k n K H. unfold setup in H. apply bind_ok in H. destruct H as [[ns b1] [_ H]]. apply bind_ok in H. destruct H as [[nt b2] [_ H]]. apply bind_ok in H. destruct H as [fs [E H]].
  injection H as <-. destruct (freqs_nth _ _ _ _ _ E k n K) as [v [A B]]. unfold freq in B. apply bind_ok in B. destruct B as [[w set] [C B]]. injection B as <-. exists w, set. auto.
Qed.
Print Assumptions C216_partial.
Example C216_case : nth_error cut_options 1 = Some "Gomory_cuts"%string /\ exists s, setup full_reg EmptyString (Set_Model.mkOpts [("Gomory_cuts"%string, Set_Model.mkE 7%Z true)] []) = Ok s /\ nth_error (s_freqs s) 1 = Some 7%Z.
Proof. split. reflexivity. eexists; split; [vm_compute; reflexivity|]. reflexivity. Qed.

(** ** C217: each kind is added once, if it is asked for and not there *)
Theorem C217_generators : forall s gs, exists new, setupCutGenerators s gs = gs ++ new /\ NoDup (map fst new) /\
  forall k f, In (k, f) new <-> nth_error (s_freqs s) k = Some f /\ f <> 0%Z /\ ~ In k (map fst gs).
Proof.
  intros s gs. destruct (add_spec (s_freqs s) 0 gs) as [new [A [B C]]]. exists new. split; [exact A|]. split; [exact B|]. intros k f. rewrite C, Nat.sub_0_r. split; [tauto|]. intros H; split; [lia|tauto].
Qed.
Print Assumptions C217_generators.
Theorem C217_idempotent : forall s gs, setupCutGenerators s (setupCutGenerators s gs) = setupCutGenerators s gs.
Proof.
  intros s gs. destruct (C217_generators s gs) as [n1 [A [B C]]]. destruct (C217_generators s (setupCutGenerators s gs)) as [n2 [A2 [B2 C2]]].
  rewrite A2. destruct n2 as [|[k f] n2]; [apply app_nil_r|]. exfalso. destruct (proj1 (C2 k f) (or_introl eq_refl)) as [F [NZ NI]]. apply NI. rewrite A, map_app, in_app_iff.
  destruct (in_dec Nat.eq_dec k (map fst gs)) as [I|I]; [now left|]. right. apply in_map_iff. exists (k, f). split; [reflexivity|]. apply C. auto.
Qed.
Print Assumptions C217_idempotent.
Example C217_case : setupCutGenerators (mkStrategy 20 8 [-99; 7; 0; -5; -5; -5]%Z) [(1%nat, 3%Z); (9%nat, 1%Z)] = [(1%nat, 3%Z); (9%nat, 1%Z); (0%nat, (-99)%Z); (3%nat, (-5)%Z); (4%nat, (-5)%Z); (5%nat, (-5)%Z)].
Proof. reflexivity. Qed.
