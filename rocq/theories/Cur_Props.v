(** C138-C142: strong branching by curvature. *)
From Verif Require Import Base Arr Nlp Cur_Model Cur_Spec Cur_Proofs Cur_Proofs2 Cur_Proofs3 Cur_Proofs4 Cur_Proofs5.
#[local] Open Scope Q_scope.

Lemma ready_new P c : k_newx c = true -> ready P c new_est.
Proof. intros N. split; [|left; exact N]. intros C. discriminate C. Qed.
Lemma good_nearest P ls c sv FE GE d pd FX GX : nlp_ok P -> call_ok P c -> solves ls ->
  is_sv (zero0 P) (p_jv P (k_x c)) FE GE sv ->
  is_free (p_n P) (k_xl c) (k_xu c) [] FE -> is_fix (p_m P) (k_gl c) (k_gu c) [] GE ->
  good P ls c sv FE GE d pd FX GX ->
  nearest_in P (k_x c) (held_var P c d) (held_row P c d) pd (k_d c) /\
  ((exists r, (r < p_m P)%nat /\ var_fixed (k_gl c) (k_gu c) r) ->
     nearest_in P (k_x c) (var_fixed (k_xl c) (k_xu c)) (var_fixed (k_gl c) (k_gu c)) d (k_d c)) /\
  (~ (exists r, (r < p_m P)%nat /\ var_fixed (k_gl c) (k_gu c) r) -> d = k_d c).
Proof.
  intros OK CO SO SV IF IG G.
  destruct (good_exact P ls c sv FE GE d pd FX GX OK CO SO SV IF IG G) as [I O].
  pose proof G as (Ld & Lpd & _ & _ & LX & LGX & _ & _ & _ & _ & _ & S1 & _ & HV & HR).
  pose proof (co_x P c CO) as Cx.
  assert (KE : forall z, keeps P (k_x c) (held_var P c d) (held_row P c d) z <->
     in_space (p_m P) (p_n P) (combine (zero0 P) (p_jv P (k_x c))) FX GX z).
  { intros z. rewrite <- (keeps_in_space P (k_x c) FX GX z OK Cx). unfold keeps.
    split; intros (L & X & R); (split; [exact L|]; split; [intros i Hi H; apply X; [exact Hi|]; apply (HV i Hi), H
                                                         |intros r Hr H; apply R; [exact Hr|]; apply (HR r Hr), H]). }
  split; [|].
  { split; [apply KE, I|]. intros z Hz. apply KE in Hz. apply nearest_of; apply O; assumption. }
  destruct IF as [LE IF]. destruct IG as [LG IG].
  assert (CG : (0 < count GE)%nat <-> exists r, (r < p_m P)%nat /\ var_fixed (k_gl c) (k_gu c) r).
  { rewrite count_pos, LG. unfold var_fixed. split; intros (r & Hr & H); exists r; (split; [exact Hr|]).
    - rewrite IG in H by exact Hr. cbn [existsb] in H. rewrite orb_false_r in H. apply eeqb_same, H.
    - rewrite IG by exact Hr. apply eeqb_same in H. rewrite H. reflexivity. }
  rewrite <- CG. destruct S1 as [(sv1 & -> & S1 & C)|[C ->]]; [|split; [lia|reflexivity]].
  split; [intros _|intros N; lia].
  destruct (SolveSystem_exact ls (k_d c) _ _ FE GE sv d SO SV) as [I1 O1]; try assumption.
  { rewrite LE. apply (co_d P c CO). } { rewrite LE, LG. apply (jst_wf P OK). }
  rewrite LE, LG in I1, O1.
  assert (KE1 : forall z, keeps P (k_x c) (var_fixed (k_xl c) (k_xu c)) (var_fixed (k_gl c) (k_gu c)) z <->
     in_space (p_m P) (p_n P) (combine (zero0 P) (p_jv P (k_x c))) FE GE z).
  { intros z. rewrite <- (keeps_in_space P (k_x c) FE GE z OK Cx). unfold keeps.
    assert (A : forall i, (i < p_n P)%nat -> (nth i FE false = false <-> var_fixed (k_xl c) (k_xu c) i)).
    { intros i Hi. rewrite IF by exact Hi. cbn [existsb negb]. rewrite andb_true_r, negb_false_iff. apply eeqb_same. }
    assert (B : forall r, (r < p_m P)%nat -> (nth r GE false = true <-> var_fixed (k_gl c) (k_gu c) r)).
    { intros r Hr. rewrite IG by exact Hr. cbn [existsb]. rewrite orb_false_r. apply eeqb_same. }
    split; intros (L & X & R); (split; [exact L|]; split; [intros i Hi H; apply X; [exact Hi|]; apply (A i Hi), H
                                                         |intros r Hr H; apply R; [exact Hr|]; apply (B r Hr), H]). }
  split; [apply KE1, I1|]. intros z Hz. apply KE1 in Hz. apply nearest_of; apply O1; assumption.
Qed.

(** ** Concrete cases *)
(** An exact solver: candidates are checked before they are given out. *)
Definition checked (cand : nat -> nat -> list (nat * nat * Q) -> list Q -> list Q -> list Q * list Q) : solver :=
  fun nx ng T rx rg =>
  let (y, w) := cand nx ng T rx rg in
  if (Nat.eqb (length y) nx && Nat.eqb (length w) ng &&
      forallb (fun k => Qeq_bool (at_ y k + mul_col T w k) (at_ rx k)) (seq 0 nx) &&
      forallb (fun r => Qeq_bool (mul_row T y r) (at_ rg r)) (seq 0 ng))%bool
  then Some (y, w) else None.
Lemma checked_solves cand : solves (checked cand).
Proof.
  assert (H : forall nx ng T rx rg y w, checked cand nx ng T rx rg = Some (y, w) ->
    (length y = nx /\ length w = ng) /\
    (forall k, (k < nx)%nat -> at_ y k + mul_col T w k == at_ rx k) /\ (forall r, (r < ng)%nat -> mul_row T y r == at_ rg r)).
  { intros nx ng T rx rg y w E. unfold checked in E. destruct (cand nx ng T rx rg) as [y' w'].
    destruct (_ && _)%bool eqn:B; [|discriminate]. injection E as -> ->.
    apply andb_true_iff in B as [B B4]. apply andb_true_iff in B as [B B3]. apply andb_true_iff in B as [B1 B2].
    apply Nat.eqb_eq in B1. apply Nat.eqb_eq in B2. rewrite forallb_forall in B3, B4.
    split; [split; assumption|]. split; intros k Hk; apply Qeq_bool_iff; [apply B3|apply B4]; apply in_seq; lia. }
  split; [intros nx ng T rx rg y w E; apply (H _ _ _ _ _ _ _ E)|]. intros nx ng T rx rg y w E _. apply (H _ _ _ _ _ _ _ E).
Qed.
(** Solves systems with at most one row. *)
Definition small nx ng (T : list (nat * nat * Q)) (rx rg : list Q) : list Q * list Q :=
  if Nat.eqb ng 0 then (rx, []) else
  let s := qsum (map (fun t => snd t * snd t) T) in
  let w := (mul_row T rx 0 - at_ rg 0) / s in
  (map (fun k => Qred (at_ rx k - mul_col T [w] k)) (seq 0 nx), [w]).
Definition ls1 : solver := checked small.

(** Two variables, the row x0 + x1 = 0, Hessian diag(2, 4) times the first multiplier plus one. *)
Definition P1 : nlp :=
  mkNlp 2 1 0 [Fin (-(10)); Fin (-(10))] [Fin 10; Fin 10] [Fin 0] [Fin 0] [true] [true; false] [0; 0] [0]
    (fun _ => 0) (fun _ => [0; 0]) (fun x => [at_ x 0 + at_ x 1])
    [(0, 0); (0, 1)]%nat (fun _ => [1; 1]) [(0, 0); (1, 1)]%nat (fun _ s l => [2 * (s + at_ l 0); 4 * s]).
Lemma P1_ok : nlp_ok P1.
Proof. constructor; try reflexivity; repeat constructor. Qed.
Definition c1 : call :=
  mkC [1 # 2; -(1 # 2)] true [Fin (-(10)); Fin (-(10))] [Fin 10; Fin 10] [Fin 0] [Fin 0] [0; 0] [0; 0] [0] [1 # 2; 0].
Lemma c1_ok : call_ok P1 c1.
Proof. constructor; reflexivity. Qed.

(** ** C138 *)
Theorem C138_partial P ls c u d g q e' u' :
  nlp_ok P -> call_ok P c -> sized ls -> k_newx c = true -> (0 < p_m P)%nat ->
  curvature P false ls c new_est u = Ok (Some (d, g, q), e', u') ->
  (forall i, (i < p_n P)%nat -> var_fixed (k_xl c) (k_xu c) i -> at_ d i == 0) /\
  q == form P (k_x c) (k_lam c) d /\ g = 0 /\
  ((forall r, (r < p_m P)%nat -> var_fixed (k_gl c) (k_gu c) r -> Qabs (row_change P (k_x c) d r) <= 1 # 1000000) \/
   (exists r, (r < p_m P)%nat /\ row_change P (k_x c) d r < -(1 # 1000000))).
Proof.
  intros OK CO SZ N MP E.
  destruct (curvature_ok P ls c new_est u OK CO SZ MP (ready_new P c N)) as (o & e1 & u1 & E1 & _ & D).
  rewrite E in E1. injection E1 as <- <- <-. destruct (D d g q eq_refl) as (Hg & _ & Hq & sv & FE & GE & d1 & FX & GX & SV & IF & IG & G & A).
  destruct G as (_ & _ & _ & _ & _ & _ & _ & _ & Z & F1 & F2 & _).
  split. { intros i Hi V. rewrite Z; [reflexivity|]. apply F1; assumption. }
  split; [exact Hq|]. split; [exact Hg|].
  destruct A as (r0 & Hr0 & A). cbv zeta in A. destruct A as [A1 A2].
  destruct (Qlt_le_dec (if nth r0 GX false then mul_row (combine (zero0 P) (p_jv P (k_x c))) d r0 else 0) (-(1 # 1000000))) as [L|L].
  - right. exists r0. split; [exact Hr0|]. rewrite row_change_trip by (try assumption; apply (co_x P c CO)).
    destruct (nth r0 GX false); [exact L|exfalso; lra].
  - left. intros r Hr V. specialize (A1 r Hr). rewrite (F2 r Hr V) in A1.
    rewrite row_change_trip by (try assumption; apply (co_x P c CO)).
    eapply Qle_trans; [exact A1|]. apply Qabs_Qle_condition. split; assumption.
Qed.
Print Assumptions C138_partial.
Theorem C138_exact_partial P ls c u d g q e' u' :
  nlp_ok P -> call_ok P c -> solves ls -> k_newx c = true -> (0 < p_m P)%nat ->
  curvature P false ls c new_est u = Ok (Some (d, g, q), e', u') ->
  respects P c d q /\
  exists d1,
    ((exists r, (r < p_m P)%nat /\ var_fixed (k_gl c) (k_gu c) r) ->
       nearest_in P (k_x c) (var_fixed (k_xl c) (k_xu c)) (var_fixed (k_gl c) (k_gu c)) d1 (k_d c)) /\
    (~ (exists r, (r < p_m P)%nat /\ var_fixed (k_gl c) (k_gu c) r) -> d1 = k_d c) /\
    nearest_in P (k_x c) (held_var P c d1) (held_row P c d1) d (k_d c).
Proof.
  intros OK CO SO N MP E.
  destruct (curvature_ok P ls c new_est u OK CO (proj1 SO) MP (ready_new P c N)) as (o & e1 & u1 & E1 & _ & D).
  rewrite E in E1. injection E1 as <- <- <-. destruct (D d g q eq_refl) as (Hg & _ & Hq & sv & FE & GE & d1 & FX & GX & SV & IF & IG & G & A).
  destruct (good_nearest P ls c sv FE GE d1 d FX GX OK CO SO SV IF IG G) as (N1 & N2 & N3).
  split; [|exists d1; auto].
  destruct N1 as [(L & X & R) _]. split; [|split].
  - intros i Hi V. apply X; [exact Hi|left; exact V].
  - intros r Hr V. rewrite R; [discriminate|exact Hr|left; exact V].
  - exact Hq.
Qed.
Print Assumptions C138_exact_partial.
Example C138_case : nlp_ok P1 /\ call_ok P1 c1 /\ solves ls1 /\ k_newx c1 = true /\
  exists d e' u' q, curvature P1 false ls1 c1 new_est (mkU None None) = Ok (Some (d, 0, q), e', u') /\
    d = [1 # 4; -1 # 4] /\ q == 3 # 8.
Proof.
  split; [exact P1_ok|]. split; [exact c1_ok|]. split; [apply checked_solves|]. split; [reflexivity|].
  eexists _, _, _, _. split; [vm_compute; reflexivity|]. split; reflexivity.
Qed.
(** A solver that fails to solve but answers with a success: the row changes by -1/2. *)
Definition ls_bad : solver := fun nx ng _ rx _ => if Nat.eqb (length rx) nx then Some (rx, repeat 0 ng) else None.
Lemma ls_bad_sized : sized ls_bad.
Proof.
  intros nx ng T rx rg y w E. unfold ls_bad in E. destruct (Nat.eqb_spec (length rx) nx) as [H|]; [|discriminate].
  injection E as <- <-. split; [exact H|apply repeat_length].
Qed.
Definition c2 : call :=
  mkC [1 # 2; -(1 # 2)] true [Fin (-(10)); Fin (-(10))] [Fin 10; Fin 10] [Fin 0] [Fin 0] [0; 0] [0; 0] [0] [-(1 # 2); 0].
Theorem C138_refuted : ~ C138_full.
Proof.
  intros H.
  assert (E : exists d g q e' u', curvature P1 false ls_bad c2 new_est (mkU None None) = Ok (Some (d, g, q), e', u') /\ d = [-(1 # 2); 0]).
  { eexists _, _, _, _, _. split; [vm_compute; reflexivity|reflexivity]. }
  destruct E as (d & g & q & e' & u' & E & Ed).
  destruct (H P1 false ls_bad c2 (mkU None None) d g q e' u' P1_ok) as (_ & R & _); try reflexivity.
  { constructor; reflexivity. } { exact ls_bad_sized. } { exact E. }
  specialize (R 0%nat (Nat.lt_0_1) ltac:(reflexivity)). subst d. revert R. vm_compute. intros C. apply C. reflexivity.
Qed.
Print Assumptions C138_refuted.

(** ** C139 *)
Theorem C139_partial P ls u h : nlp_ok P -> sized ls -> (0 < p_m P)%nat \/ ~ In OHot h -> follows P Bare h ->
  exists w, run P false ls h (start P u) = Ok w.
Proof.
  intros OK SZ MP F. destruct (run_ok P ls h OK SZ MP Bare (start P u) F (start_Inv P u OK)) as (w & E & _). exists w. exact E.
Qed.
Print Assumptions C139_partial.
Definition h_ex : list op :=
  [OSolve [1 # 2; -(1 # 2)] [0; 0; 0; 0; 1] 0 solvedOptimal (mkU None (Some [3])); OMark;
   OBounds [Fin (-(10)); Fin (-(10))] [Fin 0; Fin 10]; OHot;
   OBounds [Fin 1; Fin (-(10))] [Fin 10; Fin 10]; OHot; OUnmark].
Example C139_case : nlp_ok P1 /\ sized ls1 /\ (0 < p_m P1)%nat /\ follows P1 Bare h_ex.
Proof. split; [exact P1_ok|]. split; [apply checked_solves|]. split; [cbn; lia|]. cbn. repeat split; discriminate. Qed.
(** No constraint: the sanity check reads trash[-1]. *)
Definition P0 : nlp :=
  mkNlp 1 0 0 [Fin 0] [Fin 10] [] [] [] [true] [0] [] (fun _ => 0) (fun _ => [0]) (fun _ => [])
    [] (fun _ => []) [(0, 0)]%nat (fun _ _ _ => [2]).
Definition h0 : list op := [OSolve [1 # 2] [0; 0] 0 solvedOptimal (mkU None None); OMark; OBounds [Fin 0] [Fin 0]; OHot].
Theorem C139_refuted : ~ C139_full.
Proof.
  intros H. destruct (H P0 false ls1 (mkU None None) h0) as (w & E).
  { constructor; try reflexivity; repeat constructor. } { apply checked_solves. } { reflexivity. }
  { cbn. repeat split; discriminate. }
  vm_compute in E. discriminate.
Qed.
Print Assumptions C139_refuted.

(** ** C140 *)
Theorem C140_partial P ls u h1 h2 w0 w w1 :
  nlp_ok P -> sized ls -> (0 < p_m P)%nat -> follows P Bare (h1 ++ OMark :: h2 ++ [OHot]) -> Forall trial h2 ->
  run P false ls h1 (start P u) = Ok w0 ->
  run P false ls (h1 ++ OMark :: h2) (start P u) = Ok w -> run P false ls [OHot] w = Ok w1 ->
  forall u', exists w1',
    run P false ls [OMark; OBounds (n_xl (w_node w)) (n_xu (w_node w)); OHot] (mkW (w_node w0) new_csb u' None) = Ok w1' /\
    n_obj (w_node w1) = (if match n_stat (w_node w1) with iterationLimit => true | _ => false end
                         then n_obj (w_node w1') else n_obj (w_node w)) /\
    n_stat (w_node w1) = n_stat (w_node w1').
Proof.
  intros OK SZ MP F T E0 E E1 u'. destruct (reach_mark P ls u h1 h2 OHot w0 w OK SZ MP F T E0 E) as (S0 & _ & M).
  set (v0 := mkW (w_node w0) new_csb u' None).
  assert (M0 : marked P (w_node w0) (markHotStart v0)) by (apply (mark_marked P v0); [exact S0|discriminate]).
  destruct (mk_node _ _ _ M) as [(L1 & L2 & _) _].
  pose proof (marked_bounds P (w_node w0) _ (n_xl (w_node w)) (n_xu (w_node w)) L1 L2 M0) as M1.
  cbn [run step bind]. set (v1 := mkW _ _ _ _) in M1. change (mkW _ _ _ _) with v1.
  destruct (hot_ok P ls _ v1 OK SZ MP M1) as (d' & z & e' & x' & o' & e2' & u2' & s' & Ez & _ & Es' & Ed' & Ld' & R' & C' & Z').
  destruct (hot_ok P ls _ w OK SZ MP M) as (d & y & e & x & o & e2 & u2 & s & Ey & _ & Es & Ed & Ld & R & C & Y).
  cbn [run step] in E1. rewrite Ey in E1. cbn [bind] in E1. injection E1 as <-.
  exists z. split; [rewrite Ez; reflexivity|].
  rewrite Es in Es'. injection Es' as <-. cbn [v1 w_node n_xl n_xu] in Ed'. rewrite Ed in Ed'. injection Ed' as <-.
  assert (o = o') as <-.
  { refine (curvature_det P ls _ _ e e' x x' o e2 u2 o' e2' u2' OK _ _ (hotcall_same _ _ _ d) R R' C C'); apply hotcall_ok; assumption. }
  rewrite Y, Z'. destruct o as [[[pd g] q]|]; split; reflexivity.
Qed.
Print Assumptions C140_partial.
Example C140_case : exists w0 w w1,
  follows P1 Bare (firstn 1 h_ex ++ OMark :: firstn 3 (skipn 2 h_ex) ++ [OHot]) /\ Forall trial (firstn 3 (skipn 2 h_ex)) /\
  run P1 false ls1 (firstn 1 h_ex) (start P1 (mkU None None)) = Ok w0 /\
  run P1 false ls1 (firstn 1 h_ex ++ OMark :: firstn 3 (skipn 2 h_ex)) (start P1 (mkU None None)) = Ok w /\
  run P1 false ls1 [OHot] w = Ok w1 /\ n_stat (w_node w1) = iterationLimit /\ n_obj (w_node w1) == 1 # 4.
Proof.
  eexists _, _, _. split; [cbn; repeat split; discriminate|]. split; [repeat constructor|].
  split; [vm_compute; reflexivity|]. split; [vm_compute; reflexivity|]. split; [vm_compute; reflexivity|].
  split; reflexivity.
Qed.
(** The user's functions follow the flags: multipliers 3 were last seen, those of the node are 1. *)
Theorem C140_refuted : ~ C140_full.
Proof.
  intros H.
  assert (E : exists w0 w w1,
    run P1 true ls1 (firstn 1 h_ex) (start P1 (mkU None None)) = Ok w0 /\
    run P1 true ls1 (firstn 1 h_ex ++ OMark :: firstn 1 (skipn 2 h_ex)) (start P1 (mkU None None)) = Ok w /\
    run P1 true ls1 [OHot] w = Ok w1 /\ n_stat (w_node w1) = iterationLimit /\ n_obj (w_node w1) == 3 # 8 /\
    forall w1', run P1 true ls1 [OMark; OBounds (n_xl (w_node w)) (n_xu (w_node w)); OHot] (mkW (w_node w0) new_csb (mkU None (Some [1])) None) = Ok w1' ->
      n_obj (w_node w1') == 1 # 4).
  { eexists _, _, _. split; [vm_compute; reflexivity|]. split; [vm_compute; reflexivity|]. split; [vm_compute; reflexivity|].
    split; [reflexivity|]. split; [reflexivity|]. intros w1' E. vm_compute in E. injection E as <-. reflexivity. }
  destruct E as (w0 & w & w1 & E0 & E & E1 & S & V & D).
  destruct (H P1 true ls1 (mkU None None) (firstn 1 h_ex) (firstn 1 (skipn 2 h_ex)) w0 w w1 P1_ok) with (u' := mkU None (Some [1]))
    as (w1' & R & O & _); try assumption.
  { apply checked_solves. } { cbn. repeat split; discriminate. } { repeat constructor. }
  apply D in R. rewrite S in O. rewrite O, R in V. discriminate V.
Qed.
Print Assumptions C140_refuted.

(** ** C141 *)
Theorem C141 P ls u h1 h2 w0 w w1 x du :
  nlp_ok P -> sized ls -> (0 < p_m P)%nat -> follows P Bare (h1 ++ OMark :: h2 ++ [OHot]) -> Forall trial h2 ->
  run P false ls h1 (start P u) = Ok w0 ->
  run P false ls (h1 ++ OMark :: h2) (start P u) = Ok w -> run P false ls [OHot] w = Ok w1 ->
  n_x (w_node w0) = Some x -> n_du (w_node w0) = Some du ->
  let lam := skipn (2 * p_n P) du in
  (n_stat (w_node w1) = computationError /\ n_obj (w_node w1) = n_obj (w_node w)) \/
  (n_stat (w_node w1) = iterationLimit /\
   exists d, length d = p_n P /\ n_obj (w_node w1) == n_obj (w_node w0) + (1 # 2) * form P x lam d /\
     (forall i, (i < p_n P)%nat -> var_fixed (n_xl (w_node w0)) (n_xu (w_node w0)) i -> at_ d i == 0) /\
     (convex_at P x lam -> n_obj (w_node w0) <= n_obj (w_node w1)) /\
     (solves ls -> inside (n_xl (w_node w)) (n_xu (w_node w)) x -> n_obj (w_node w1) == n_obj (w_node w0))).
Proof.
  intros OK SZ MP F T E0 E E1 Hx Hdu lam. destruct (reach_mark P ls u h1 h2 OHot w0 w OK SZ MP F T E0 E) as (S0 & _ & M).
  destruct (hot_ok P ls _ w OK SZ MP M) as (st & y & e & v & o & e2 & u2 & s & Ey & _ & Es & Ed & Ld & R & C & Y).
  cbn [run step] in E1. rewrite Ey in E1. cbn [bind] in E1. injection E1 as <-.
  rewrite Hx in Es. injection Es as <-.
  assert (Lx : length x = p_n P).
  { destruct S0 as (_ & x' & du' & A & _ & B & _). rewrite Hx in A. injection A as <-. exact B. }
  pose proof (hotcall_ok P (w_node w0) (c_new (w_csb w)) st S0 Ld) as CO.
  destruct (curvature_ok P ls _ e v OK CO SZ MP R) as (o' & e' & u' & C' & _ & D).
  rewrite C in C'. injection C' as <- <- <-.
  assert (KX : k_x (hotcall (w_node w0) (c_new (w_csb w)) st) = x) by (unfold hotcall; cbn; rewrite Hx; reflexivity).
  assert (KL : k_lam (hotcall (w_node w0) (c_new (w_csb w)) st) = lam).
  { unfold hotcall. cbn [k_lam]. rewrite Hx, Hdu, Lx. reflexivity. }
  rewrite Y. destruct o as [[[pd g] q]|]; [|left; split; reflexivity]. right. cbn [n_stat n_obj].
  destruct (D pd g q eq_refl) as (-> & _ & Hq & sv & FE & GE & d1 & FX & GX & SV & IF & IG & G & A).
  rewrite KX, KL in Hq. split; [reflexivity|]. exists pd.
  pose proof G as (_ & Lpd & _ & _ & LX & _ & _ & _ & Z & F1 & _).
  assert (V : n_obj (w_node w0) + 1 * 0 + (1 # 2) * 1 * 1 * q == n_obj (w_node w0) + (1 # 2) * form P x lam pd) by (rewrite Hq; ring).
  split; [exact Lpd|]. split; [exact V|]. split; [intros i Hi Hf; rewrite Z; [reflexivity|apply F1; assumption]|]. split.
  - intros CV. rewrite V. specialize (CV pd Lpd). lra.
  - intros SO [In1 In2]. pose proof (steps_inside x _ _ st In1 In2 Ed) as Z0.
    destruct (good_exact P ls _ sv FE GE d1 pd FX GX OK CO SO SV IF IG G) as [I O].
    specialize (O pd I). rewrite V.
    assert (Zp : forall i, (i < p_n P)%nat -> at_ pd i == 0).
    { apply (sumn_sq0 (p_n P) (at_ pd)). etransitivity; [|exact O]. apply sumn_ext. intros i _.
      change (k_d (hotcall (w_node w0) (c_new (w_csb w)) st)) with st. rewrite Z0. ring. }
    rewrite (form_0 P x lam pd Zp). ring.
Qed.
Print Assumptions C141.
Example C141_case : convex_at P1 [1 # 2; -(1 # 2)] [1] /\ solves ls1.
Proof.
  split; [|apply checked_solves]. intros d Ld. destruct d as [|a [|b [|? ?]]]; cbn in Ld; try discriminate.
  assert (E : form P1 [1 # 2; -(1 # 2)] [1] [a; b] == 4 * (a * a) + 4 * (b * b))
    by (unfold form, sumn, hess, dense, at_; cbn -[Qplus Qmult Qeq]; ring).
  rewrite E. assert (SQ : forall q : Q, 0 <= q * q).
  { intros q. destruct (Qlt_le_dec q 0).
    - setoid_replace (q * q) with ((-q) * (-q)) by ring. apply Qmult_le_0_compat; lra.
    - apply Qmult_le_0_compat; lra. }
  pose proof (SQ a). pose proof (SQ b). lra.
Qed.

(** ** C142 *)
Lemma trials_before P kl ls h : Forall trial h -> forall w w', run P kl ls h w = Ok w' ->
  w_before w' = w_before w /\ n_x (w_node w') = n_x (w_node w) /\ n_du (w_node w') = n_du (w_node w) /\
  (~ In OHot h -> n_obj (w_node w') = n_obj (w_node w)).
Proof.
  intros T. induction T as [|o h T1 T IH]; intros w w' E; [injection E as <-; auto|].
  cbn [run] in E. apply bind_ok in E as (w1 & E1 & E). apply IH in E as (I1 & I2 & I3 & I4).
  assert (S : w_before w1 = w_before w /\ n_x (w_node w1) = n_x (w_node w) /\ n_du (w_node w1) = n_du (w_node w) /\
    (o <> OHot -> n_obj (w_node w1) = n_obj (w_node w))).
  { destruct o as [xl xu|? ? ? ? ?| | |]; try contradiction; cbn [step] in E1.
    - injection E1 as <-. repeat split.
    - unfold solveFromHotStart in E1. destruct (c_est _); [|discriminate]. destruct (c_sol _); [|discriminate].
      destruct (c_du _); [|discriminate]. destruct (c_bnd _) as [[[[? ?] ?] ?]|]; [|discriminate].
      apply bind_ok in E1 as (d & _ & E1). cbv zeta in E1. apply bind_ok in E1 as ([[o e'] u'] & _ & E1).
      injection E1 as <-. destruct o as [[[? ?] ?]|]; repeat split; congruence. }
  destruct S as (S1 & S2 & S3 & S4). repeat split; try congruence.
  intros N. rewrite I4, S4; [reflexivity| |]; intros C; apply N; [left; exact C|right; exact C].
Qed.
Theorem C142_partial P kl ls u h1 h2 w0 w :
  Forall trial h2 -> run P kl ls h1 (start P u) = Ok w0 ->
  run P kl ls (h1 ++ OMark :: h2 ++ [OUnmark]) (start P u) = Ok w ->
  n_stat (w_node w) = n_stat (w_node w0) /\ n_x (w_node w) = n_x (w_node w0) /\ n_du (w_node w) = n_du (w_node w0) /\
  (~ In OHot h2 -> n_obj (w_node w) = n_obj (w_node w0)).
Proof.
  intros T E0 E. rewrite run_app, E0 in E. cbn [bind run step] in E. rewrite run_app in E.
  apply bind_ok in E as (w1 & E1 & E). apply (trials_before P kl ls h2 T) in E1 as (I1 & I2 & I3 & I4).
  cbn [run step] in E. apply bind_ok in E as (w2 & E2 & E). injection E as <-.
  unfold unmarkHotStart in E2. rewrite I1 in E2. cbn in E2. injection E2 as <-. cbn. auto.
Qed.
Print Assumptions C142_partial.
Theorem C142_refuted : ~ C142_full.
Proof.
  intros H.
  assert (E : exists w0 w, run P1 false ls1 (firstn 1 h_ex) (start P1 (mkU None None)) = Ok w0 /\
     run P1 false ls1 (firstn 1 h_ex ++ OMark :: firstn 4 (skipn 2 h_ex) ++ [OUnmark]) (start P1 (mkU None None)) = Ok w /\
     n_obj (w_node w0) == 0 /\ n_obj (w_node w) == 1 # 4).
  { eexists _, _. split; [vm_compute; reflexivity|]. split; [vm_compute; reflexivity|]. split; reflexivity. }
  destruct E as (w0 & w & E0 & E & V0 & V).
  destruct (H P1 false ls1 (mkU None None) (firstn 1 h_ex) (firstn 4 (skipn 2 h_ex)) w0 w P1_ok) as (_ & _ & C); try assumption.
  { apply checked_solves. } { cbn. repeat split; discriminate. } { repeat constructor. }
  rewrite V0, V in C. discriminate C.
Qed.
Print Assumptions C142_refuted.
