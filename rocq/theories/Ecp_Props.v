(** Property theorems C99-C106: cut generators around the LP relaxation. *)
From Verif Require Import Base Arr Oad_Model Oad_Proofs Ecp_Model Ecp_Spec Ecp_Proofs.
#[local] Open Scope Q_scope.

(** ** C99: cuts only grow and cut off no feasible point; the LP bound is valid *)
Theorem C99_cuts_valid : forall (C : Type) (lp : list C -> lpres) (x0 : list Q) (obj0 : Q) (oa : list Q -> option (list Q) -> list C)
    (viol : list Q -> Q -> outcome Q) abs_tol rel_tol (ov : bool) rounds beta rand depth
    cs st cs' st' k sat feas,
  oa_valid sat feas oa ->
  ecp_generate C lp x0 obj0 oa viol abs_tol rel_tol ov false rounds beta rand depth cs st = Ok (cs', st', k) ->
  exists new, cs' = cs ++ new /\ (forall c y, In c new -> feas y -> sat c y) /\ (k <= rounds)%nat.
Proof.
  intros C lp x0 obj0 oa viol abs_tol rel_tol ov rounds beta rand depth cs st cs' st' k sat feas V H.
  apply generate_inv in H. destruct H as [(-> & -> & -> & _)|(orig & xs & e & _ & _ & _ & -> & _ & _ & L & E & _ & _ & ->)].
  - exists []. rewrite app_nil_r. repeat split; [intros c y []|lia].
  - eexists. split; [reflexivity|]. split; [|exact (lps_le _ _ _ _ _ _ _ _ _ _ _ _ _ L E)].
    intros c y I F. exact (cuts_valid x0 oa ov sat feas V xs c y I F).
Qed.
Print Assumptions C99_cuts_valid.
(** When an LP was solved, the value remembered is a lower bound on the problem (infinite: no feasible point). *)
Theorem C99_bound_valid : forall (C : Type) (lp : list C -> lpres) (x0 : list Q) (obj0 : Q) (oa : list Q -> option (list Q) -> list C)
    (viol : list Q -> Q -> outcome Q) abs_tol rel_tol (ov : bool) rounds beta rand depth
    cs st cs' st' k sat feas (f : list Q -> Q),
  oa_valid sat feas oa ->
  (forall l, lp l = LpInf -> forall y, feas y -> exists c, In c l /\ ~ sat c y) ->
  (forall l x ob, lp l = LpSol x ob -> forall y, feas y -> (forall c, In c l -> sat c y) -> ob <= f y) ->
  ecp_generate C lp x0 obj0 oa viol abs_tol rel_tol ov false rounds beta rand depth cs st = Ok (cs', st', k) ->
  (0 < k)%nat ->
  match m_obj st' with
  | Some (Fin o) => forall y, feas y -> o <= f y
  | Some PInf => forall y, ~ feas y
  | _ => False
  end.
Proof.
  intros C lp x0 obj0 oa viol abs_tol rel_tol ov rounds beta rand depth cs st cs' st' k sat feas f V I1 I2 H K.
  apply generate_inv in H. destruct H as [(_ & _ & -> & _)|(orig & xs & e & _ & _ & _ & _ & _ & _ & _ & E & _ & O & KE)]; [lia|].
  pose proof (cuts_valid x0 oa ov sat feas V) as CV. rewrite O.
  assert (LP : forall zs, match lp (cuts_at oa (if ov then Some x0 else None) zs) with
                          | LpInf => forall y, ~ feas y | LpSol _ ob => forall y, feas y -> ob <= f y end).
  { intros zs. destruct (lp _) as [|z ob] eqn:E1.
    - intros y F. destruct (I1 _ E1 y F) as (c & Ic & Nc). apply Nc. exact (CV zs c y Ic F).
    - intros y F. apply (I2 _ _ _ E1 y F). intros c Ic. exact (CV zs c y Ic F). }
  destruct E as [E1 E2 E3 E4 E5 E8|x ob E1 E2 E3 E4 E5 E6 E7 E8|ys x E1 E2 E3 E4 E5 E6|E1 E2 E3 E4 E5 E6]; rewrite E1 in *.
  - pose proof (LP xs) as L. rewrite E4 in L. exact L.
  - rewrite E3. pose proof (LP xs) as L. rewrite E4 in L |- *. exact L.
  - rewrite E4 in *. destruct ys as [|y ys]; [cbn in E6; lia|]. pose proof (LP (y :: ys)) as L.
    destruct (lp _); exact L.
  - rewrite E3 in *. lia.
Qed.
Print Assumptions C99_bound_valid.
(** Example: minimise x with x >= 1 and the cuts x >= c taken at points below c = 3. *)
Definition exLp (l : list Q) : lpres := LpSol [fold_right qmax 1 l] (fold_right qmax 1 l).
Definition exOa (x : list Q) (t : option (list Q)) : list Q :=
  let c := (nth 0 x 0 + 3) / 2 in match t with Some y => if Qltb (nth 0 y 0) c then [c] else [] | None => [c] end.
Definition exViol (x : list Q) (ob : Q) : outcome Q := Ok (3 - nth 0 x 0).
Example C99_hypotheses_met :
  (forall x t c y, In c (exOa x t) -> nth 0 x 0 <= 3 -> 3 <= nth 0 y 0 -> c <= nth 0 y 0) /\
  exists cs st, ecp_generate Q exLp [1] 1 exOa exViol (1#10) 0 false false 3 (-1) 0 0 [] (mkMem None None) = Ok (cs, st, 3%nat) /\
    length cs = 3%nat /\ m_obj st = Some (Fin (10 # 4)).
Proof.
  split.
  - intros x t c y H L F. unfold exOa in H. assert (c = (nth 0 x 0 + 3) / 2) as ->.
    { destruct t as [z|]; [destruct (Qltb _ _)|]; cbn [In] in H; intuition congruence. }
    apply Qle_shift_div_r; [reflexivity|lra].
  - eexists _, _. split; [vm_compute; reflexivity|]. split; vm_compute; reflexivity.
Qed.

(** ** C100: which points are cut and why the rounds end *)
Theorem C100_rounds : forall (C : Type) (lp : list C -> lpres) (x0 : list Q) (obj0 : Q) (oa : list Q -> option (list Q) -> list C)
    (viol : list Q -> Q -> outcome Q) abs_tol rel_tol (ov : bool) rounds beta rand depth
    cs st cs' st' k,
  let t := if ov then Some x0 else None in
  ecp_generate C lp x0 obj0 oa viol abs_tol rel_tol ov false rounds beta rand depth cs st = Ok (cs', st', k) ->
  (cs' = cs /\ k = 0%nat /\ skipped beta rand depth = true) \/
  (exists orig, skipped beta rand depth = false /\ viol x0 obj0 = Ok orig /\
   ((cs' = cs /\ k = 0%nat /\ orig <= abs_tol) \/
    exists xs, abs_tol < orig /\ cs' = cs ++ cuts_at oa t xs /\ visited lp x0 oa t xs /\ (length xs <= rounds)%nat /\
      (forall i x, nth_error xs i = Some x -> exists v, viol x (obj_at lp obj0 oa t xs i) = Ok v /\ worth abs_tol rel_tol orig v) /\
      (* the reason: the LP is infeasible; or its point is within a tolerance; or no cut was found;
         or all rounds were used *)
      ((xs <> [] /\ lp (cuts_at oa t xs) = LpInf /\ m_obj st' = Some PInf) \/
       (exists x ob v, xs <> [] /\ lp (cuts_at oa t xs) = LpSol x ob /\ viol x ob = Ok v /\ (v <= abs_tol \/ v <= rel_tol * orig) /\
                       m_viol st' = Some v /\ m_obj st' = Some (Fin ob)) \/
       (exists ys x, xs = ys ++ [x] /\ oa x t = []) \/
       length xs = rounds \/
       (xs = [] /\ orig <= rel_tol * orig)))).
Proof.
  intros C lp x0 obj0 oa viol abs_tol rel_tol ov rounds beta rand depth cs st cs' st' k t H.
  apply generate_inv in H. destruct H as [(-> & -> & -> & [S|(orig & V & L)])|(orig & xs & e & S & V & A & -> & VI & W & L & E & MV & MO & _)].
  - auto.
  - destruct (skipped beta rand depth); [auto|]. right. exists orig. split; [reflexivity|]. split; [exact V|]. left. auto.
  - right. exists orig. split; [exact S|]. split; [exact V|]. right. exists xs. split; [exact A|]. split; [reflexivity|].
    split; [exact VI|]. split; [exact L|]. split; [exact W|].
    assert (NW : forall v, ~ worth abs_tol rel_tol orig v -> v <= abs_tol \/ v <= rel_tol * orig).
    { intros v N. destruct (Qlt_le_dec abs_tol v); [|auto]. destruct (Qlt_le_dec (rel_tol * orig) v); [|auto]. destruct N. split; assumption. }
    destruct E as [E1 E2 E3 E4 E5 E8|x ob E1 E2 E3 E4 E5 E6 E7 E8|ys x E1 E2 E3 E4 E5 E6|E1 E2 E3 E4 E5 E6]; rewrite E1 in MO.
    + left. auto.
    + right. left. exists x, ob, (e_v e). rewrite E3 in MO. fold t in E4, E3, MO. rewrite E4 in MO. auto 10.
    + right. right. destruct E3 as [E3|E3]; [left; exists ys, x; auto|right; left; exact E3].
    + right. right. right. destruct E5 as [E5|E5]; [left; subst; reflexivity|]. apply NW in E5. destruct E5 as [E5|E5]; [lra|]. right. auto.
Qed.
Print Assumptions C100_rounds.
(** When it is skipped: with a non-negative factor b, exactly when the random number is at least b / 2^depth. *)
Theorem C100_skipping : forall beta rand depth,
  skipped beta rand depth = true <-> (0 <= beta /\ beta / pow2 depth <= rand).
Proof.
  intros beta rand depth. unfold skipped. destruct (Qle_bool 0 beta) eqn:E.
  - apply Qleb_le in E. rewrite Qle_bool_iff. tauto.
  - apply Qleb_gt in E. split; [discriminate|]. intros [A _]. lra.
Qed.
Print Assumptions C100_skipping.
Example C100_hypotheses_met : skipped 10 (99#100) 3 = false /\ skipped 10 (1#2) 5 = true /\
  (exists cs st k, ecp_generate Q exLp [1] 1 exOa exViol (1#10) (1#2) false false 5 (-1) 0 0 [] (mkMem None None) = Ok (cs, st, k) /\ length cs = 1%nat).
Proof. split; [reflexivity|]. split; [reflexivity|]. do 3 eexists. split; vm_compute; reflexivity. Qed.

(** ** C101: doEcpRounds *)
(** Exactly what it does: an assertion fails where an LP would be solved; otherwise the objective
    returned is that of an earlier call, or has no value. *)
Theorem C101_exact_partial : forall (C : Type) (lp : list C -> lpres) (x0 : list Q) (obj0 : Q) (oa : list Q -> option (list Q) -> list C)
    (viol : list Q -> Q -> outcome Q) abs_tol rel_tol (ov : bool) rounds beta rand depth st,
  doEcpRounds lp x0 obj0 oa viol abs_tol rel_tol ov rounds beta rand depth st =
  let last := match m_viol st, m_obj st with Some v, Some o => Ok (o, v) | _, _ => Uninit end in
  if skipped beta rand depth then last
  else do orig <- viol x0 obj0;
       if Qle_bool orig abs_tol then last
       else if (Nat.ltb 1 rounds && Qltb (rel_tol * orig) orig &&
                match oa x0 (if ov then Some x0 else None) with [] => false | _ => true end)%bool
            then AssertFail
            else match m_obj st with Some o => Ok (o, orig) | None => Uninit end.
Proof. intros. apply do_exact. Qed.
Print Assumptions C101_exact_partial.
Theorem C101_refuted : ~ C101_full.
Proof.
  intros H. destruct (H Q exLp [1] 1 exOa exViol (1#10) 0 false 3%nat 2 (mkMem None None)) as (o & v & l & E & _).
  - lia.
  - reflexivity.
  - split; vm_compute; reflexivity.
  - discriminate.
  - intros x ob. eexists. reflexivity.
  - vm_compute in E. discriminate E.
Qed.
Print Assumptions C101_refuted.
Example C101_example :
  doEcpRounds exLp [1] 1 exOa exViol (1#10) 0 false 1 (-1) 0 0 (mkMem (Some (Fin 7)) None) = Ok (Fin 7, 3 - 1) /\
  doEcpRounds exLp [1] 1 exOa exViol (1#10) 0 false 1 (-1) 0 0 (mkMem None None) = Uninit.
Proof. split; reflexivity. Qed.

(** ** C102: only violated cuts *)
(** The cuts are those violated at the point given at the start, whatever point they are taken at. *)
Theorem C102_partial : forall (C : Type) (lp : list C -> lpres) x0 obj0 cuts violated oa viol abs_tol rel_tol rounds cs st cs' st' k,
  filters cuts violated oa ->
  ecp_generate C lp x0 obj0 oa viol abs_tol rel_tol true false rounds (-1) 0 0 cs st = Ok (cs', st', k) ->
  exists xs, visited lp x0 oa (Some x0) xs /\
    cs' = cs ++ concat (map (fun x => filter (fun c => violated c x0) (cuts x)) xs).
Proof.
  intros C lp x0 obj0 cuts violated oa viol abs_tol rel_tol rounds cs st cs' st' k F H. apply generate_inv in H.
  destruct H as [(-> & -> & -> & _)|(orig & xs & e & _ & _ & _ & -> & VI & _)].
  - exists []. split; [|cbn; rewrite app_nil_r; reflexivity]. split; [discriminate|]. intros [|i]; discriminate.
  - exists xs. split; [exact VI|]. f_equal. unfold cuts_at. f_equal. apply map_ext. intros x. apply (F x (Some x0)).
Qed.
Print Assumptions C102_partial.
(** The cut x >= 2 at every point.  The first LP point 0 violates it; the second point 2 does not,
    and yet the cut is added again. *)
Definition exCuts (x : list Q) : list Q := [2].
Definition exVi (c : Q) (x : list Q) : bool := Qltb (nth 0 x 0) c.
Definition exOa2 (x : list Q) (t : option (list Q)) : list Q :=
  match t with None => exCuts x | Some y => filter (fun c => exVi c y) (exCuts x) end.
Example C102_hypotheses_met : filters exCuts exVi exOa2 /\
  exists st, ecp_generate Q exLp [0] 0 exOa2 (fun _ _ => Ok 1) (1#10) 0 true false 2 (-1) 0 0 [] (mkMem None None) = Ok ([2; 2], st, 2%nat).
Proof. split; [intros x [t|]; reflexivity|]. eexists. vm_compute. reflexivity. Qed.
Theorem C102_refuted : ~ C102_full.
Proof.
  intros H. destruct C102_hypotheses_met as (F & st & G).
  destruct (H Q exLp [0] 0 exCuts exVi exOa2 _ _ _ _ _ _ _ _ _ F G) as (xs & [V1 V2] & E). cbn [app] in E.
  destruct xs as [|a [|b [|c xs]]]; try discriminate E.
  - cbn in E. destruct (exVi 2 a); discriminate E.
  - specialize (V1 a eq_refl). subst a. destruct (V2 0%nat b eq_refl) as (ob & V). vm_compute in V. injection V as <- _. discriminate E.
  - specialize (V1 a eq_refl). subst a. destruct (V2 0%nat b eq_refl) as (ob & V). vm_compute in V. injection V as <- _.
    destruct (V2 1%nat c eq_refl) as (ob' & V'). vm_compute in V'. injection V' as <- _. cbn in E.
    assert (X : forall ys, visited exLp [0] exOa2 (Some [0]) ([0] :: [2] :: [2] :: ys) -> 
       concat (map (fun x => filter (fun c => exVi c x) (exCuts x)) ys) = []).
    { intros ys [_ W]. apply concat_nil_Forall. rewrite Forall_map. apply Forall_forall. intros y Iy.
      apply In_nth_error in Iy. destruct Iy as (j & Ej). destruct (W (S (S j)) y) as (ob2 & L); [exact Ej|].
      assert (B : forall l : list Q, In 2 l -> 2 <= fold_right qmax 1 l).
      { induction l as [|q l IH]; [intros []|]. intros I. cbn [fold_right].
        set (r := fold_right qmax 1 l) in *. unfold qmax. destruct (Qltb q r) eqn:Z; [apply Qltb_lt in Z|apply Qltb_ge in Z];
        destruct I as [->|I]; try specialize (IH I); lra. }
      unfold exLp in L. injection L as <- _. cbn [map filter exCuts]. unfold exVi. cbn [nth].
      match goal with |- context [Qltb ?a 2] => destruct (Qltb a 2) eqn:Q end; [|reflexivity]. apply Qltb_lt in Q.
      exfalso. apply (Qlt_not_le _ _ Q).
      refine (B (2 :: 2 :: 2 :: concat (map (fun _ => [2]) (firstn j ys))) _). left. reflexivity. }
    pose proof (X xs ltac:(split; [intros z Hz; cbn in Hz; congruence|exact V2])) as Y. change (concat (map (fun x => if exVi 2 x then [2] else []) xs) = []) in Y.
    rewrite Y in E. discriminate E.
Qed.
Print Assumptions C102_refuted.

(** ** C103: the bounds of the NLP *)
Theorem C103_restored_partial : forall (C : Type) called ints sl su sx nlp (oa : list Q -> option (list Q) -> list C) ov aux s cs,
  sized ints sl su s -> (forall b, length (a_x (nlp b)) = length ints) -> (exists b, called = Ok b) ->
  exists e, nlp_generate called ints sl su sx nlp oa ov aux s cs = Ok e /\
    (n_threw e = false -> n_cols e = s) /\
    (n_solved e = None <-> called = Ok false) /\
    (forall s1, n_solved e = Some s1 -> node_bounds ints sl su s s1 /\
       (n_threw e = true <-> a_stat (nlp s1) = NAbandoned \/ a_stat (nlp s1) = NLimit) /\
       (n_threw e = true -> n_cols e = s1)).
Proof.
  intros C called ints sl su sx nlp oa ov aux s cs SZ LX (b & CA).
  destruct (nlp_ok_lem called ints sl su sx nlp oa ov aux s cs SZ LX) as [(E & G)|[(E & s1 & NB & G)|(o & E & F)]].
  - eexists. split; [exact G|]. cbn. split; [auto|]. split; [tauto|]. discriminate.
  - cbv zeta in G. eexists. split; [exact G|]. cbn. split; [|split].
    + destruct (a_stat (nlp s1)); auto; discriminate.
    + rewrite E. split; discriminate.
    + intros s1' X. injection X as <-. split; [exact NB|]. split; [|destruct (a_stat (nlp s1)); auto; discriminate].
      destruct (a_stat (nlp s1)); split; auto; try discriminate; intros [X|X]; discriminate.
  - subst o. destruct (F b CA).
Qed.
Print Assumptions C103_restored_partial.
Definition exCols : cols := mkCols [Fin 0; MInf] [Fin 9; PInf].
Definition exNode (st : nstat) : outcome (nlp_end unit) :=
  nlp_generate (Ok true) [true; false] [Fin 2; Fin 1; Fin 0] [Fin 3; Fin 4; Fin 0] [2; 2; 2] (fun _ => mkAns st [2; 5] 7) (fun _ _ => [tt]) false true exCols [].
Example C103_hypotheses_met : sized [true; false] [Fin 2; Fin 1; Fin 0] [Fin 3; Fin 4; Fin 0] exCols /\
  exNode NOptimal = Ok (mkNe exCols [tt] (Some ([2; 5; 7], 7)) false (Some (mkCols [Fin 2; MInf] [Fin 3; PInf]))) /\
  exNode NLimit = Ok (mkNe (mkCols [Fin 2; MInf] [Fin 3; PInf]) [tt] None true (Some (mkCols [Fin 2; MInf] [Fin 3; PInf]))).
Proof. split; [repeat split; cbn; lia|]. split; reflexivity. Qed.
Theorem C103_refuted : ~ C103_full.
Proof.
  intros H. destruct C103_hypotheses_met as (SZ & _ & E). unfold exNode in E.
  specialize (H _ _ _ _ _ _ _ _ _ _ _ _ _ SZ E). discriminate H.
Qed.
Print Assumptions C103_refuted.

(** ** C104: the solution reported to the tree search *)
Theorem C104_reported : forall (C : Type) called ints sl su sx nlp (oa : list Q -> option (list Q) -> list C) ov aux s cs e,
  sized ints sl su s -> (forall b, length (a_x (nlp b)) = length ints) ->
  nlp_generate called ints sl su sx nlp oa ov aux s cs = Ok e ->
  (exists new, n_cs e = cs ++ new /\ (new = [] \/ exists s1, n_solved e = Some s1 /\ new = oa (a_x (nlp s1)) (if ov then Some sx else None))) /\
  forall x o, n_aux e = Some (x, o) <->
    exists s1, n_solved e = Some s1 /\ aux = true /\ a_stat (nlp s1) = NOptimal /\ o = a_obj (nlp s1) /\ x = a_x (nlp s1) ++ [o] /\
      forall j v, nth_error ints j = Some true -> nth_error (a_x (nlp s1)) j = Some v -> near_int v.
Proof.
  intros C called ints sl su sx nlp oa ov aux s cs e SZ LX H.
  destruct (nlp_ok_lem called ints sl su sx nlp oa ov aux s cs SZ LX) as [(E & G)|[(E & s1 & NB & G)|(o & E & F)]].
  - rewrite G in H. assert (e = mkNe s cs None false None) by congruence. subst e. cbn. split.
    + exists []. rewrite app_nil_r. auto.
    + intros x o. split; [discriminate|]. intros (s1 & X & _). discriminate.
  - cbv zeta in G. rewrite G in H. clear G.
    match type of H with Ok ?a = _ => assert (e = a) by congruence end. subst e. clear H. cbn. split.
    + eexists. split; [reflexivity|]. right. eauto.
    + destruct (intfeas_spec (length ints) ints (1 # 10000000) (a_x (nlp s1)) 0 (LX s1) ltac:(lia)) as (r & -> & R).
      cbn [Nat.add] in R.
      assert (R' : r = true <-> forall j v, nth_error ints j = Some true -> nth_error (a_x (nlp s1)) j = Some v -> near_int v).
      { rewrite R. split; intros H j v H1 H2; apply near_nearest; eauto. }
      clear R. intros x o. split.
      * intros H. exists s1. split; [reflexivity|]. destruct (a_stat (nlp s1)) eqn:ST; try discriminate H.
        destruct r; [|discriminate H]. destruct aux; [|discriminate H]. cbn in H. injection H as <- <-.
        repeat split; auto. apply R'. reflexivity.
      * intros (s2 & X & -> & ST & -> & -> & N). injection X as <-. rewrite ST. apply R' in N. rewrite N. reflexivity.
  - subst o. unfold nlp_generate in H. destruct called; cbn in H; try discriminate H. destruct (F _ eq_refl).
Qed.
Print Assumptions C104_reported.
Example C104_example : (do e <- exNode NOptimal; Ok (n_aux e)) = Ok (Some ([2; 5; 7], 7)) /\
  (do e <- exNode NOther; Ok (n_aux e)) = Ok None.
Proof. split; reflexivity. Qed.

(** ** C105: at which nodes an NLP is solved *)
Theorem C105_rule : forall inTree pass level depth maxDepth sp rand,
  exists b, nlp_called inTree pass level depth maxDepth (Some sp) rand = Ok b /\
  (b = true <-> inTree = true /\ pass = 0%nat /\ (level <= maxDepth)%nat /\ (ten10 <= sp \/ rand < sp / pow2 depth)).
Proof.
  intros inTree pass level depth maxDepth sp rand. unfold nlp_called.
  destruct inTree; cbn [negb orb]; [|eexists; split; [reflexivity|]; split; [discriminate|intros (X & _); discriminate]].
  destruct pass as [|pass]; [change (Nat.ltb 0 0) with false|change (Nat.ltb 0 (S pass)) with true; eexists; split; [reflexivity|]; split; [discriminate|intros (_ & X & _); discriminate]].
  cbv beta iota. destruct (Nat.ltb_spec maxDepth level); [eexists; split; [reflexivity|]; split; [discriminate|intros (_ & _ & X & _); lia]|].
  destruct (Qltb sp ten10) eqn:S.
  - apply Qltb_lt in S. eexists. split; [reflexivity|]. rewrite negb_true_iff. split.
    + intros X. apply Qleb_gt in X. auto.
    + intros (_ & _ & _ & [X|X]); [lra|]. destruct (Qle_bool _ rand) eqn:Y; [|reflexivity]. apply Qleb_le in Y. lra.
  - apply Qltb_ge in S. eexists. split; [reflexivity|]. split; auto.
Qed.
Print Assumptions C105_rule.
Example C105_example : nlp_called true 0 3 3 10 (Some 4) (1#3) = Ok true /\ nlp_called true 0 3 3 10 (Some 4) (1#2) = Ok false /\
  nlp_called true 0 11 3 10 (Some ten10) 0 = Ok false /\ nlp_called true 0 3 3 10 None 0 = Uninit.
Proof. repeat split. Qed.

(** ** C106: slack cuts are taken off *)
(** In general the positions of the slack rows are removed from the front of the collection. *)
Theorem C106_exact_partial : forall found act cs, (forall l, found l <> []) -> (forall l, length (act l) = length l) ->
  let new := all_found 5 found [] in lc_generate found act cs = Ok (keep_front new (act new) (cs ++ new)).
Proof. exact lc_exact. Qed.
Print Assumptions C106_exact_partial.
Theorem C106_empty_partial : forall found act, (forall l, found l <> []) -> (forall l, length (act l) = length l) ->
  let new := all_found 5 found [] in lc_generate found act [] = Ok (keep_tight new (act new)).
Proof.
  intros found act F A new. rewrite (lc_exact found act [] F A). cbn [app]. fold new.
  pose proof (keep_front_same new (act new) [] (A new)) as K. rewrite !app_nil_r in K. rewrite K. reflexivity.
Qed.
Print Assumptions C106_empty_partial.
(** A round without a cut: the address of the first element of an empty vector. *)
Theorem C106_no_cut_partial : forall found act cs, found [] = [] -> lc_generate found act cs = OutOfBounds.
Proof. intros found act cs H. unfold lc_generate. cbn [lc_rounds]. rewrite H. reflexivity. Qed.
Print Assumptions C106_no_cut_partial.
Definition exFound (l : list lcut) : list lcut := [mkLcut (length l) (Fin 0) (Fin 5)].
Definition exAct (l : list lcut) : list Q := map (fun c => inject_Z (Z.of_nat (c_id c))) l.
Example C106_hypotheses_met : (forall l, exFound l <> []) /\ (forall l, length (exAct l) = length l) /\
  lc_generate exFound exAct [] = Ok [mkLcut 0 (Fin 0) (Fin 5)].
Proof. split; [discriminate|]. split; [intros l; apply map_length|]. vm_compute. reflexivity. Qed.
Theorem C106_refuted : ~ C106_full.
Proof.
  intros H. destruct C106_hypotheses_met as (F & A & _). specialize (H exFound exAct [mkLcut 77 (Fin 0) (Fin 1); mkLcut 88 (Fin 0) (Fin 1)] F A).
  vm_compute in H. discriminate H.
Qed.
Print Assumptions C106_refuted.
