(** Properties of interfaces, their copies, and the problems behind them. *)
From Verif Require Import Base Arr Nlp FP_Model Dup_Model Dup_Spec Dup_Proofs Dup_Proofs2 Dup_Proofs3 Dup_Proofs4.
#[local] Open Scope Q_scope.

(** Two small problems with different Jacobians. *)
Definition pA : nlp := mkNlp 2 1 1 [Fin 0; Fin 0] [Fin 1; Fin 4] [MInf] [Fin 4] [false] [true; false] [1; 2] [0]
  (fun x => nth 0 x 0) (fun _ => [1; 0]) (fun x => [nth 1 x 0 * nth 1 x 0]) [(1, 2)%nat] (fun x => [2 * nth 1 x 0]) [] (fun _ _ _ => []).
Definition pB : nlp := mkNlp 2 2 0 [Fin 0; Fin 0] [Fin 3; Fin 3] [MInf; MInf] [Fin 4; Fin 5] [false; true] [true; false] [0; 0] [0; 0]
  (fun x => nth 1 x 0) (fun _ => [0; 1]) (fun x => [nth 0 x 0 * nth 0 x 0; nth 0 x 0 + nth 1 x 0]) [(0, 0); (1, 0); (1, 1)]%nat (fun x => [2 * nth 0 x 0; 1; 1]) [] (fun _ _ _ => []).
Definition exU (u : nat) : nlp := match u with O => pA | _ => pB end.
Lemma exU_ok : users_ok exU.
Proof. intros [|u]; split; try reflexivity; try (intros; reflexivity); repeat constructor; cbn; lia. Qed.
Definition run_ex (l : list op) : st := match execs exU l init with Ok s => s | _ => init end.
Lemma run_reach l : match execs exU l init with Ok _ => true | _ => false end = true -> reach exU (run_ex l).
Proof. unfold reach, run_ex. intros H. exists l. destruct (execs exU l init); try discriminate H. reflexivity. Qed.
Definition if_ex (i : nat) (s : st) : ifc := nth i (s_ifs s) if0.
Ltac reached := apply run_reach; vm_compute; reflexivity.

(** ** C144 *)
(** Copying succeeds exactly when the source was given a problem, and throws otherwise.  The source is seen as before; the copy has the
    bounds and the point of the source.  It poses the same problem if use and assignment were never called in feasibility mode.
    It has no linearizer: its cuts are those of the problem it poses. *)
Theorem C144_partial : forall U l s i x, execs U l init = Ok s -> at_ s i x ->
  (~ ready x -> exec U (Copy i) s = Thrown) /\
  (ready x -> exists s' y, exec U (Copy i) s = Ok s' /\ at_ s' (length (s_ifs s)) y /\ at_ s' i x /\ see U s' x = see U s x /\ ready y /\
     bounds s' y = bounds s x /\ point U s' y = point U s x /\ linearized s' y = posed s' y /\
     (calm U l init -> posed s' y = posed s x) /\ (calm U l init -> i_lin x = None -> see U s' y = see U s x)).
Proof.
  intros U l s i x R H. assert (W : wf s) by (apply (reach_wf U); exists l; exact R). unfold ready. split; intros E.
  - destruct (i_user x) eqn:Eu; [exfalso; apply E; discriminate|]. apply (copy_none U s i x H Eu).
  - destruct (i_user x) as [u|] eqn:Eu; [|congruence].
    destruct (copy_ok U s i x u W H Eu) as (s' & y & p & q & A1 & A2 & A3 & A4 & A5 & A6 & A7 & A8 & A9 & A10 & A11 & A12 & A13 & A14 & A15).
    exists s', y. do 4 (split; [assumption|]). split; [congruence|]. do 3 (split; [assumption|]).
    assert (P : calm U l init -> posed s' y = posed s x).
    { intros C. assert (IS : in_step x).
      { eapply (calm_in_step U l init s init_wf); try eassumption. intros j z Hz. destruct j; discriminate Hz. }
      rewrite A11, A12. destruct (trio s i x u W H Eu) as (k & f & pp & qq & _ & _ & _ & _ & E5 & _). unfold in_step in IS.
      destruct E5 as [E5|E5]; rewrite E5 in *; rewrite IS; reflexivity. }
    split; [exact P|]. intros C L. unfold see. f_equal; auto. rewrite A15, (P C). unfold linearized. rewrite L. reflexivity.
Qed.
Print Assumptions C144_partial.
(** A linearizer is lost, and cuts of a copy made in feasibility mode are then those of the feasibility problem. *)
Definition ex144 : list op := [New; SetModel 0 0; SetLin 0; ToPump 0 [0%nat] [0] 1 1 2].
Theorem C144_refuted : exists U, users_ok U /\ ~ C144_full U.
Proof.
  exists exU. split; [exact exU_ok|]. intros F.
  destruct (F (run_ex ex144) 0%nat (if_ex 0 (run_ex ex144)) (run_ex (ex144 ++ [Copy 0]))) as (y & Hy & E).
  - reached.
  - vm_compute; reflexivity.
  - discriminate.
  - vm_compute; reflexivity.
  - unfold at_ in Hy. vm_compute in Hy. injection Hy as <-. vm_compute in E. discriminate E.
Qed.
Print Assumptions C144_refuted.
Example C144_ex : let s := run_ex [New; SetModel 0 0; SetBounds 0 0 (Fin 1) (Fin 1); ToPump 0 [0%nat] [0] 1 1 2; Solve 0 (false, [1; 3]) []; Copy 0] in
  see exU s (if_ex 1 s) = see exU s (if_ex 0 s) /\ point exU s (if_ex 1 s) = Ok [1; 3] /\ bounds s (if_ex 1 s) = Ok ([Fin 1; Fin 0], [Fin 1; Fin 4]).
Proof. vm_compute. auto. Qed.

(** ** C145 *)
(** What is done to one interface, in any number of operations, is not seen through another; what its cuts are made of is the same as well.
    Its trials of strong branching are the same as long as its solver is not marked or unmarked through an interface sharing it. *)
Theorem C145_partial : forall U s l s' j x, reach U s -> execs U l s = Ok s' -> at_ s j x -> (forall o, In o l -> target o <> Some j) ->
  at_ s' j x /\ see U s' x = see U s x /\ cuts_of U j s' = cuts_of U j s /\
  (forall b, i_sbs x = Some b -> (b < length (s_sbs s))%nat -> alone U b l s -> trial s' x = trial s x) /\
  (i_sbs x = None -> trial s' x = trial s x).
Proof.
  intros U s l s' j x R H Hx N. assert (W : wf s) by (apply (reach_wf U); exact R).
  destruct (execs_see U l s s' j x W H Hx N) as [A B]. split; [exact A|]. split; [exact B|].
  split; [|split].
  - clear B R. revert s W H Hx N. induction l as [|o l IH]; cbn; intros s W H Hx N; [congruence|]. apply bind_ok in H. destruct H as (s1 & A1 & H).
    destruct (others_see U o s s1 j x W A1 Hx (N o (or_introl eq_refl))) as (B1 & B2 & B3 & _).
    rewrite (IH s1 (exec_wf U _ _ _ W A1) H B1 (fun o' I => N o' (or_intror I))). apply (cuts_keep U j s s1 x); assumption.
  - intros b E L Al. unfold trial. rewrite E. unfold rd. rewrite (sbs_execs U l s s' b H L Al). reflexivity.
  - intros E. unfold trial. rewrite E. unfold see in B. injection B as B _ _ _. exact B.
Qed.
Print Assumptions C145_partial.
(** The solver of strong branching is shared: marking a copy changes what the trials of the source are about. *)
Definition ex145 : list op := [New; SetModel 0 0; SetStrong 0; Copy 0; Mark 0; SetBounds 1 0 (Fin 1) (Fin 1)].
Theorem C145_refuted : exists U, users_ok U /\ ~ C145_full U.
Proof.
  exists exU. split; [exact exU_ok|]. intros F.
  destruct (F (run_ex ex145) (Mark 1) (run_ex (ex145 ++ [Mark 1])) 0%nat (if_ex 0 (run_ex ex145))) as (y & Hy & _ & E).
  - reached.
  - vm_compute; reflexivity.
  - vm_compute; reflexivity.
  - discriminate.
  - unfold at_ in Hy. vm_compute in Hy. injection Hy as <-. vm_compute in E. discriminate E.
Qed.
Print Assumptions C145_refuted.
Example C145_ex : exists s', let s := run_ex [New; SetModel 0 0; SetStrong 0; Mark 0; Copy 0] in let l := [SetBounds 1 0 (Fin 1) (Fin 1); SetStrong 1; Mark 1; ToLocal 1 [0%nat] [0] 1; Unmark 1; SetModel 1 1] in
  execs exU l s = Ok s' /\ (forall o, In o l -> target o <> Some 0%nat) /\ see exU s' (if_ex 1 s') <> see exU s (if_ex 1 s) /\ see exU s' (if_ex 0 s') = see exU s (if_ex 0 s) /\ trial s' (if_ex 0 s') = Ok (original exU 0).
Proof.
  eexists. cbv zeta. split; [vm_compute; reflexivity|]. split; [intros o [<-|[<-|[<-|[<-|[<-|[<-|[]]]]]]]; discriminate|].
  split; [intros H; vm_compute in H; discriminate H|]. vm_compute. auto.
Qed.

(** ** C146 *)
(** An assignment that succeeds gives the left-hand side the user's problem of the right-hand side as it was first given; its bounds, its
    point after a solve, its mode and its linearizer are not taken.  So the two pose the same problem exactly if that is what the right-hand
    side poses.  An assignment throws if the right-hand side is a copy of an interface that has made cuts. *)
Theorem C146_partial : forall U s i j x y u, reach U s -> i <> j -> at_ s i x -> at_ s j y -> i_user y = Some u ->
  (forall s', exec U (Assign i j) s = Ok s' -> exists x', at_ s' i x' /\ ready x' /\
     posed s' x' = Ok (original U u) /\ bounds s' x' = Ok (p_xl (U u), p_xu (U u)) /\ point U s' x' = Ok (if i_done y then [] else p_x0 (U u)) /\
     i_mode x' = i_mode x /\ i_lin x' = i_lin x /\ at_ s' j y /\ see U s' y = see U s y /\
     (posed s' x' = posed s' y <-> posed s y = Ok (original U u))) /\
  (i_pat y = None -> i_types y = None -> i_nnz y = 0%nat -> exists s', exec U (Assign i j) s = Ok s') /\
  (i_pat y = None -> i_types y = None -> i_nnz y <> 0%nat -> exec U (Assign i j) s = Thrown).
Proof.
  intros U s i j x y u R N Hx Hy E. assert (W : wf s) by (apply (reach_wf U); exact R). split; [|split].
  - intros s' H. destruct (assign_ok U s i j x y u s' Hx Hy N E H) as (x' & A1 & A2 & A3 & A4 & A5 & A6 & A7 & A8 & A9).
    destruct (others_see U (Assign i j) s s' j y W H Hy) as (B1 & B2 & _ & _); [cbn; congruence|].
    exists x'. split; [exact A1|]. split; [unfold ready; congruence|]. do 7 (split; [assumption|]).
    assert (P : posed s' y = posed s y) by (unfold see in B2; injection B2; auto). rewrite P, A3. split; congruence.
  - intros P T Z. exact (proj1 (assign_outcome U s i j x y u Hx Hy N E P T) Z).
  - intros P T Z. exact (proj2 (assign_outcome U s i j x y u Hx Hy N E P T) Z).
Qed.
Print Assumptions C146_partial.
Definition ex146 : list op := [New; SetModel 0 0; SetBounds 0 0 (Fin 1) (Fin 1); New].
Theorem C146_refuted : exists U, users_ok U /\ ~ C146_full U.
Proof.
  exists exU. split; [exact exU_ok|]. intros F.
  destruct (F (run_ex ex146) 1%nat 0%nat (if_ex 1 (run_ex ex146)) (if_ex 0 (run_ex ex146))) as (s' & x' & H & Hx & E).
  - reached.
  - discriminate.
  - vm_compute; reflexivity.
  - vm_compute; reflexivity.
  - discriminate.
  - vm_compute in H. injection H as <-. unfold at_ in Hx. vm_compute in Hx. injection Hx as <-. vm_compute in E. discriminate E.
Qed.
Print Assumptions C146_refuted.
(** A copy of an interface that has made cuts cannot be assigned from. *)
Example C146_ex : let s := run_ex [New; SetModel 0 0; Cuts 0; Copy 0; New] in
  at_ s 1 (if_ex 1 s) /\ i_user (if_ex 1 s) = Some 0%nat /\ i_pat (if_ex 1 s) = None /\ i_nnz (if_ex 1 s) = 1%nat /\ exec exU (Assign 2 1) s = Thrown /\
  exists s', exec exU (Assign 2 0) s = Ok s' /\ posed s' (if_ex 2 s') = Ok (original exU 0).
Proof. cbv zeta. do 5 (split; [vm_compute; reflexivity|]). eexists. split; vm_compute; reflexivity. Qed.

(** ** C147 *)
(** A new problem replaces the old one in what is posed (unless in feasibility mode) and in the bounds.  The point is the new starting point if
    nothing was solved before, and empty otherwise.  Cuts are those of the new problem if no cuts were made before, and a linearizer keeps the old one. *)
Theorem C147_partial : forall U s i x u o, users_ok U -> reach U s -> at_ s i x -> o = SetModel i u \/ (o = Use i u /\ ready x) ->
  exists s' y, exec U o s = Ok s' /\ at_ s' i y /\ ready y /\
    (i_mode x = false -> posed s' y = Ok (original U u)) /\
    (i_mode x = true -> posed s' y = Ok (if match o with Use _ _ => true | _ => false end then original U u else mkPose u (p_xl (U u)) (p_xu (U u)) (Some fp0))) /\
    bounds s' y = Ok (p_xl (U u), p_xu (U u)) /\ point U s' y = Ok (if i_done x then [] else p_x0 (U u)) /\
    (i_lin x = None -> linearized s' y = posed s' y) /\
    (i_lin x <> None -> linearized s' y = linearized s x) /\
    (i_lin x = None -> i_pat x = None -> exists t, outerApproximation U i s' = Ok (mkCd (jac_of U u) (p_lin (U u)), t)).
Proof.
  intros U s i x u o HU R Hx O. assert (W : wf s) by (apply (reach_wf U); exact R). pose proof (w_if _ W _ _ Hx) as Wx.
  assert (CT : forall s' y u', wf s' -> at_ s' i y -> i_user y = Some u' -> i_lin y = None -> i_pat y = None -> forall p, posed s' y = Ok p -> extra p = false -> o_user p = u ->
    exists t, outerApproximation U i s' = Ok (mkCd (jac_of U u) (p_lin (U u)), t)).
  { intros s' y u' W' Hy Eu L P p Po X Ep. destruct (cuts_ok U s' i y p u' HU W' Hy Eu L Po (or_introl P)) as [K _]. destruct (K X) as (t & K'). exists t. rewrite K'.
    rewrite (proj1 (no_extra U p HU X)), Ep. reflexivity. }
  assert (LI : forall s' y, i_lin x <> None -> exec U (SetModel i u) s = Ok s' \/ exec U (Use i u) s = Ok s' -> at_ s' i y -> linearized s' y = linearized s x).
  { intros s' y N EX Hy. destruct (i_lin x) as [l|] eqn:El; [|congruence]. pose proof (w_lin _ _ Wx l El) as Ll.
    destruct (nth_error (s_lins s) l) as [k|] eqn:Ek; [|apply nth_error_None in Ek; lia].
    assert (Lk : (k < length (s_probs s))%nat) by (apply (w_owns _ _ Wx); right; right; right; exists l; auto).
    destruct (nth_error (s_probs s) k) as [q|] eqn:Eq; [|apply nth_error_None in Eq; lia]. eapply lin_new; eassumption. }
  destruct O as [-> | [-> Rx]].
  - destruct (setModel_ok U s i x u Hx) as (s' & y & A1 & A2 & A3 & A4 & A5 & A6 & A7 & A8 & A9 & A10 & A11). exists s', y. pose proof (exec_wf U _ _ _ W A1) as W'.
    split; [exact A1|]. split; [exact A2|]. split; [unfold ready; congruence|]. split; [intros M; rewrite A9, M; reflexivity|]. split; [intros M; rewrite A9, M; reflexivity|].
    do 2 (split; [assumption|]). split; [intros L; unfold linearized; rewrite A5, L; reflexivity|]. split; [intros L; apply LI; auto|].
    intros L P. eapply CT; [exact W'|exact A2|exact A3|congruence|congruence|exact A9| |reflexivity]. destruct (i_mode x); reflexivity.
  - unfold ready in Rx. destruct (i_user x) as [u0|] eqn:Eu; [|congruence].
    destruct (use_ok U s i x u0 u W Hx Eu) as (s' & y & A1 & A2 & A3 & A4 & A5 & A6 & A7 & A8 & A9 & A10 & A11). exists s', y. pose proof (exec_wf U _ _ _ W A1) as W'.
    split; [exact A1|]. split; [exact A2|]. split; [unfold ready; congruence|]. split; [intros M; exact A9|]. split; [intros M; exact A9|].
    do 2 (split; [assumption|]). split; [intros L; unfold linearized; rewrite A5, L; reflexivity|]. split; [intros L; apply LI; auto|].
    intros L P. eapply CT; [exact W'|exact A2|exact A3|congruence|congruence|exact A9|reflexivity|reflexivity].
Qed.
Print Assumptions C147_partial.
(** After cuts were made from the old problem, those of the new one are written past the end of the arrays. *)
Definition ex147 : list op := [New; SetModel 0 0; Cuts 0].
Theorem C147_refuted : exists U, users_ok U /\ ~ C147_full U.
Proof.
  exists exU. split; [exact exU_ok|]. intros F.
  destruct (F (run_ex ex147) 0%nat (if_ex 0 (run_ex ex147)) 1%nat (SetModel 0 1) (run_ex (ex147 ++ [SetModel 0 1]))) as (y & Hy & _ & t & E).
  - reached.
  - vm_compute; reflexivity.
  - vm_compute; reflexivity.
  - left; reflexivity.
  - vm_compute; reflexivity.
  - vm_compute in E. discriminate E.
Qed.
Print Assumptions C147_refuted.
Example C147_ex : let s := run_ex [New; SetModel 0 0; SetBounds 0 0 (Fin 1) (Fin 1); SetModel 0 1; Cuts 0] in
  posed s (if_ex 0 s) = Ok (original exU 1) /\ i_pat (if_ex 0 s) = Some [(0, 0); (1, 0); (1, 1)]%nat /\ point exU s (if_ex 0 s) = Ok [0; 0].
Proof. vm_compute. auto. Qed.

(** ** C148 *)
(** After a solve the point reported is that of the first solver that ended without an error, or of the last one tried.  The status belongs to the
    problem posed, except in feasibility mode after an error when there are other solvers: then it is that of the original problem. *)
Theorem C148_partial : forall U s i x a l s', reach U s -> at_ s i x -> exec U (Solve i a l) s = Ok s' ->
  exists y p, at_ s' i y /\ posed s x = Ok p /\ posed s' y = Ok p /\ point U s' y = Ok (used a l) /\
    (i_rep y = Some p <-> o_fp p = None \/ fst a = false \/ l = []) /\
    (o_fp p <> None -> fst a = true -> l <> [] -> i_rep y = Some (mkPose (o_user p) (o_lo p) (o_up p) None)).
Proof.
  intros U s i x a l s' R Hx H. assert (W : wf s) by (apply (reach_wf U); exact R).
  destruct (solve_rep U s i x a l s' W Hx H) as (y & p & A1 & A2 & A3 & A4 & A5). exists y, p. do 4 (split; [assumption|]). rewrite A5. split.
  - destruct (fst a); cbn [andb]; [|split; auto]. destruct l as [|b l]; cbn [negb]; [split; auto|]. destruct p as [pu pl ph [f|]]; cbn.
    + split; [discriminate|intros [E|[E|E]]; discriminate E].
    + split; auto.
  - intros F E N. rewrite E. destruct l; [congruence|]. reflexivity.
Qed.
Print Assumptions C148_partial.
Definition ex148 : list op := [New; SetModel 0 0; ToPump 0 [0%nat] [0] 1 1 2].
Theorem C148_refuted : exists U, users_ok U /\ ~ C148_full U.
Proof.
  exists exU. split; [exact exU_ok|]. intros F.
  destruct (F (run_ex ex148) 0%nat (if_ex 0 (run_ex ex148)) (true, [1; 3]) [(false, [0; 0])] (run_ex (ex148 ++ [Solve 0 (true, [1; 3]) [(false, [0; 0])]]))) as (y & p & Hy & P & E).
  - reached.
  - vm_compute; reflexivity.
  - vm_compute; reflexivity.
  - unfold at_ in Hy. vm_compute in Hy. injection Hy as <-. vm_compute in P. injection P as <-. vm_compute in E. discriminate E.
Qed.
Print Assumptions C148_refuted.
Example C148_ex : let s := run_ex (ex148 ++ [Solve 0 (false, [0; 2]) [(false, [0; 0])]]) in
  i_rep (if_ex 0 s) = Some (mkPose 0 [Fin 0; Fin 0] [Fin 1; Fin 4] (Some (mkFp [0%nat] [0] 1 1 2 100 true false false PInf PInf))) /\ point exU s (if_ex 0 s) = Ok [0; 2].
Proof. vm_compute. auto. Qed.

(** ** C149 *)
(** After a switch the feasibility problem with the parameters given is posed, with the bounds as they are then, until the interface is switched again,
    given another problem, assigned to, or asked to solve a feasibility problem with other parameters.  Switching back gives the original problem with the
    bounds as they are. *)
Theorem C149_partial : forall U s i o s1 l s2 y, reach U s -> (exists inds vals a sg L, o = ToPump i inds vals a sg L) \/ (exists inds vals rhs, o = ToLocal i inds vals rhs) ->
  exec U o s = Ok s1 -> existsb (leaves i) l = false -> (forall a1 a2 a3 a4 a5 a6 a7, ~ In (SolveF i a1 a2 a3 a4 a5 a6 a7) l) -> execs U l s1 = Ok s2 -> at_ s2 i y ->
  exists u f lo up, (forall x p, at_ s i x -> posed s x = Ok p -> o_user p = u) /\ bounds s2 y = Ok (lo, up) /\ posed s2 y = Ok (mkPose u lo up (Some f)) /\
    match o with ToPump _ inds vals a sg L => f_inds f = inds /\ f_vals f = vals /\ f_lam f = a /\ f_sig f = sg /\ f_norm f = L /\ f_use f = true /\ f_cut f = false /\ f_lb f = false
             | ToLocal _ inds vals rhs => f_inds f = inds /\ f_vals f = vals /\ f_use f = false /\ f_cut f = false /\ f_lb f = true /\ f_rhs f = Fin rhs
             | _ => True end /\
    exists s3 z, exec U (ToOriginal i) s2 = Ok s3 /\ at_ s3 i z /\ bounds s3 z = Ok (lo, up) /\ posed s3 z = Ok (mkPose u lo up None).
Proof.
  intros U s i o s1 l s2 y R O H L NF HL Hy. assert (W : wf s) by (apply (reach_wf U); exact R).
  destruct (switch_stays U i o s s1 W O H) as (u & f & A1 & A2 & A3). pose proof (exec_wf U _ _ _ W H) as W1.
  pose proof (stays_execs U i u f l s1 s2 W1 A1 L NF HL) as A4. destruct (stays_see U i u f s2 y A4 Hy) as (lo & up & B1 & B2 & B3).
  exists u, f, lo, up. split; [|auto]. intros x p Hx P. destruct (A2 x Hx) as (_ & _ & _ & K). exact (K p P).
Qed.
Print Assumptions C149_partial.
Definition ex149 : list op := [New; SetModel 0 0].
Definition ex149b : list op := [SolveF 0 [1%nat] [5] (1#2) 1 1 None [1; 1]].
Theorem C149_refuted : exists U, users_ok U /\ ~ C149_full U.
Proof.
  exists exU. split; [exact exU_ok|]. intros F.
  destruct (F (run_ex ex149) 0%nat (ToPump 0 [0%nat] [0] 1 1 2) (run_ex (ex149 ++ [ToPump 0 [0%nat] [0] 1 1 2])) (if_ex 0 (run_ex (ex149 ++ [ToPump 0 [0%nat] [0] 1 1 2])))
     (mkFp [0%nat] [0] 1 1 2 100 true false false PInf PInf) (mkPose 0 [Fin 0; Fin 0] [Fin 1; Fin 4] (Some (mkFp [0%nat] [0] 1 1 2 100 true false false PInf PInf)))
     ex149b (run_ex (ex149 ++ [ToPump 0 [0%nat] [0] 1 1 2] ++ ex149b)) (if_ex 0 (run_ex (ex149 ++ [ToPump 0 [0%nat] [0] 1 1 2] ++ ex149b)))) as (lo & up & B & E); try (vm_compute; reflexivity).
  - reached.
  - left. repeat eexists.
  - vm_compute in E. discriminate E.
Qed.
Print Assumptions C149_refuted.
Example C149_ex : let s := run_ex [New; SetModel 0 0; ToLocal 0 [0%nat] [1] 3; SetBounds 0 0 (Fin 1) (Fin 1); Copy 0; ToOriginal 1; Solve 0 (false, [1; 1]) []] in
  posed s (if_ex 0 s) = Ok (mkPose 0 [Fin 1; Fin 0] [Fin 1; Fin 4] (Some (mkFp [0%nat] [1] 1 1 2 100 false false true PInf (Fin 3)))) /\
  posed s (if_ex 1 s) = Ok (mkPose 0 [Fin 1; Fin 0] [Fin 1; Fin 4] None).
Proof. vm_compute. auto. Qed.

(** ** C150 *)
(** If problems are replaced only before cuts are made from them, the cuts are made of the Jacobian and the linearity of the problem posed
    when it has no added rows.  With the row of local branching or of a cutoff, memory is written out of bounds. *)
Theorem C150_partial : forall U l s i x p, users_ok U -> execs U l init = Ok s -> steady U l init -> at_ s i x -> ready x -> i_lin x = None -> posed s x = Ok p ->
  (extra p = false -> exists s', outerApproximation U i s = Ok (mkCd (pattern U p) (p_lin (U (o_user p))), s') /\ pattern U p = jac_of U (o_user p)) /\
  (extra p = true -> outerApproximation U i s = OutOfBounds).
Proof.
  intros U l s i x p HU R ST Hx Rx L P. assert (W : wf s) by (apply (reach_wf U); exists l; exact R). unfold ready in Rx. destruct (i_user x) as [u|] eqn:Eu; [|congruence].
  assert (J : jac_ok U (o_user p) x).
  { assert (JI : jinv U s x). { eapply (jinv_execs U l init s HU init_wf); try eassumption. intros j z Hz. destruct j; discriminate Hz. }
    destruct JI as [JI|(k & q & B1 & B2 & B3)]; [left; exact JI|].
    destruct (posed_user s i x p u W Hx Eu P) as (q' & D & Q). unfold deref in D. rewrite B1, (rd_ok _ _ _ B2) in D. injection D as <-. rewrite <- Q. exact B3. }
  destruct (cuts_ok U s i x p u HU W Hx Eu L P J) as [K1 K2]. split; [|exact K2]. intros X. destruct (K1 X) as (s' & K). exists s'. split; [exact K|]. apply (no_extra U p HU X).
Qed.
Print Assumptions C150_partial.
Definition ex150 : list op := [New; SetModel 0 0; ToLocal 0 [0%nat] [1] 3].
Theorem C150_refuted : exists U, users_ok U /\ ~ C150_full U.
Proof.
  exists exU. split; [exact exU_ok|]. intros F.
  destruct (F (run_ex ex150) 0%nat (if_ex 0 (run_ex ex150)) (mkPose 0 [Fin 0; Fin 0] [Fin 1; Fin 4] (Some (mkFp [0%nat] [1] 1 1 2 100 false false true PInf (Fin 3))))) as (t & s' & E & _).
  - reached.
  - vm_compute; reflexivity.
  - discriminate.
  - reflexivity.
  - vm_compute; reflexivity.
  - vm_compute in E. discriminate E.
Qed.
Print Assumptions C150_refuted.
Example C150_ex : let l := [New; SetModel 0 1; Cuts 0; ToPump 0 [0%nat] [1] 1 1 2; Copy 0; Cuts 0; Cuts 1] in
  steady exU l init /\ exists s, execs exU l init = Ok s /\ cuts_of exU 1 s = Ok (mkCd [(0, 0); (1, 0); (1, 1)]%nat [false; true]).
Proof.
  cbv zeta. split.
  - cbn [steady]. split; [exact Logic.I|]. intros s0 H0. vm_compute in H0. injection H0 as <-. split; [intros x Hx; vm_compute in Hx; injection Hx as <-; reflexivity|].
    intros s1 H1. split; [exact Logic.I|]. intros s2 H2. split; [exact Logic.I|]. intros s3 H3. split; [exact Logic.I|]. intros s4 H4. split; [exact Logic.I|]. intros s5 H5. split; [exact Logic.I|].
    intros s6 H6. exact Logic.I.
  - eexists. split; vm_compute; reflexivity.
Qed.

(** ** C151 *)
(** The linear relaxation is made of the Jacobian and the linearity of the problem posed, whatever was done before, exactly when that problem has no added
    rows; otherwise the program aborts on an assert, or writes out of bounds if the original problem has fewer rows than were added. *)
Theorem C151_partial : forall U s i x p, users_ok U -> reach U s -> at_ s i x -> ready x -> i_lin x = None -> posed s x = Ok p ->
  (extra p = false -> exists s', linearRelaxation U i s = Ok (mkCd (pattern U p) (p_lin (U (o_user p))), s') /\ pattern U p = jac_of U (o_user p)) /\
  (extra p = true -> linearRelaxation U i s = if Nat.ltb (p_m (U (o_user p))) (rows_extra p) then OutOfBounds else AssertFail).
Proof.
  intros U s i x p HU R Hx Rx L P. assert (W : wf s) by (apply (reach_wf U); exact R). unfold ready in Rx. destruct (i_user x) as [u|] eqn:Eu; [|congruence].
  destruct (relax_ok U s i x p u HU W Hx Eu L P) as [K1 K2]. split; [|exact K2]. intros X. destruct (K1 X) as (s' & K). exists s'. split; [exact K|]. apply (no_extra U p HU X).
Qed.
Print Assumptions C151_partial.
Theorem C151_refuted : exists U, users_ok U /\ ~ C151_full U.
Proof.
  exists exU. split; [exact exU_ok|]. intros F.
  destruct (F (run_ex ex150) 0%nat (if_ex 0 (run_ex ex150)) (mkPose 0 [Fin 0; Fin 0] [Fin 1; Fin 4] (Some (mkFp [0%nat] [1] 1 1 2 100 false false true PInf (Fin 3))))) as (t & s' & E & _).
  - reached.
  - vm_compute; reflexivity.
  - discriminate.
  - reflexivity.
  - vm_compute; reflexivity.
  - vm_compute in E. discriminate E.
Qed.
Print Assumptions C151_refuted.
Example C151_ex : exists s', linearRelaxation exU 0 (run_ex [New; SetModel 0 0; Cuts 0; SetModel 0 1; ToPump 0 [0%nat] [1] 1 1 2]) = Ok (mkCd [(0, 0); (1, 0); (1, 1)]%nat [false; true], s').
Proof. eexists. vm_compute. reflexivity. Qed.

(** ** C152 *)
(** The trials of strong branching are about the original problem with the bounds it had when strong branching started, as long as the solver is not
    marked or unmarked through another interface that shares it.  That is the problem posed exactly when the interface is not in feasibility mode. *)
Theorem C152_partial : forall U s i x p b s1 l s2 y, reach U s -> at_ s i x -> posed s x = Ok p -> i_sbs x = Some b -> exec U (Mark i) s = Ok s1 ->
  (forall o, In o l -> target o <> Some i) -> alone U b l s1 -> execs U l s1 = Ok s2 -> at_ s2 i y ->
  trial s2 y = Ok (mkPose (o_user p) (o_lo p) (o_up p) None) /\ (trial s2 y = Ok p <-> o_fp p = None).
Proof.
  intros U s i x p b s1 l s2 y R Hx P B H N Al HL Hy. assert (W : wf s) by (apply (reach_wf U); exact R). pose proof (exec_wf U _ _ _ W H) as W1.
  destruct (mark_ok U s i x p b s1 W Hx P B H) as [A1 A2]. destruct (execs_see U l s1 s2 i x W1 HL A1 N) as [A3 _]. assert (y = x) as -> by (unfold at_ in *; congruence).
  assert (T : trial s2 x = Ok (mkPose (o_user p) (o_lo p) (o_up p) None)).
  { unfold trial. rewrite B. unfold rd. rewrite (sbs_execs U l s1 s2 b HL); [|eapply nth_len; exact A2|exact Al]. rewrite A2. reflexivity. }
  split; [exact T|]. rewrite T. destruct p as [pu pl ph pf]. cbn. split; [congruence|]. intros ->. reflexivity.
Qed.
Print Assumptions C152_partial.
Definition ex152 : list op := [New; SetModel 0 0; SetStrong 0; ToPump 0 [0%nat] [0] 1 1 2].
Theorem C152_refuted : exists U, users_ok U /\ ~ C152_full U.
Proof.
  exists exU. split; [exact exU_ok|]. intros F.
  assert (E : trial (run_ex (ex152 ++ [Mark 0])) (if_ex 0 (run_ex (ex152 ++ [Mark 0]))) = Ok (mkPose 0 [Fin 0; Fin 0] [Fin 1; Fin 4] (Some (mkFp [0%nat] [0] 1 1 2 100 true false false PInf PInf)))).
  { eapply (F (run_ex ex152) 0%nat (if_ex 0 (run_ex ex152)) _ (run_ex (ex152 ++ [Mark 0])) []); try (vm_compute; reflexivity).
    - reached.
    - discriminate.
    - intros o []. }
  vm_compute in E. discriminate E.
Qed.
Print Assumptions C152_refuted.
Example C152_ex : let s := run_ex [New; SetModel 0 0; SetStrong 0; SetBounds 0 0 (Fin 1) (Fin 1); Mark 0; New; SetModel 1 1; SetStrong 1; Mark 1] in
  trial s (if_ex 0 s) = Ok (mkPose 0 [Fin 1; Fin 0] [Fin 1; Fin 4] None) /\ posed s (if_ex 0 s) = trial s (if_ex 0 s).
Proof. vm_compute. auto. Qed.
