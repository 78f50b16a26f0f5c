From Verif Require Import Base Arr Nlp Cur_Model Cur_Spec Cur_Proofs Cur_Proofs2 Cur_Proofs3 Cur_Proofs4.
#[local] Open Scope Q_scope.

(** ** The two projections compose *)
Lemma in_space_mono m n T FX GX FE GE d :
  (forall i, (i < n)%nat -> nth i FX false = true -> nth i FE false = true) ->
  (forall r, (r < m)%nat -> nth r GE false = true -> nth r GX false = true) ->
  in_space m n T FX GX d -> in_space m n T FE GE d.
Proof.
  intros A B (L & X & G). split; [exact L|]. split.
  - intros i Hi F. apply X; [exact Hi|]. destruct (nth i FX false) eqn:E; [|reflexivity]. rewrite A in F by assumption. discriminate.
  - intros r Hr F. apply G; [exact Hr|]. apply B; assumption.
Qed.
Lemma keeps_in_space P x FX GX d : nlp_ok P -> length x = p_n P ->
  keeps P x (fun i => nth i FX false = false) (fun r => nth r GX false = true) d <->
  in_space (p_m P) (p_n P) (combine (zero0 P) (p_jv P x)) FX GX d.
Proof.
  intros OK Lx. unfold keeps, in_space. split; intros (L & X & G); (split; [exact L|]; split; [exact X|]); intros r Hr F;
    specialize (G r Hr F); rewrite row_change_trip in *; try assumption; auto.
Qed.
Lemma good_exact P ls c sv FE GE d pd FX GX : nlp_ok P -> call_ok P c -> solves ls ->
  is_sv (zero0 P) (p_jv P (k_x c)) FE GE sv ->
  is_free (p_n P) (k_xl c) (k_xu c) [] FE -> is_fix (p_m P) (k_gl c) (k_gu c) [] GE ->
  good P ls c sv FE GE d pd FX GX ->
  in_space (p_m P) (p_n P) (combine (zero0 P) (p_jv P (k_x c))) FX GX pd /\
  forall z, in_space (p_m P) (p_n P) (combine (zero0 P) (p_jv P (k_x c))) FX GX z ->
    sumn (p_n P) (fun i => at_ z i * (at_ pd i - at_ (k_d c) i)) == 0.
Proof.
  intros OK CO SO SV [LE _] [LG _] (Ld & Lpd & M1 & M2 & LX & LGX & _ & _ & _ & _ & _ & S1 & (sv2 & SV2 & S2) & _ & _).
  pose proof (jst_wf P OK) as JW.
  destruct (SolveSystem_exact ls d _ _ FX GX sv2 pd SO SV2) as [I2 O2]; try assumption; try lia.
  { rewrite LX, LGX. exact JW. }
  rewrite LX, LGX in I2, O2. split; [exact I2|].
  intros z Hz. specialize (O2 z Hz).
  assert (O1 : sumn (p_n P) (fun i => at_ z i * (at_ d i - at_ (k_d c) i)) == 0).
  { destruct S1 as [(sv1 & -> & S1 & _)|[_ ->]].
    - destruct (SolveSystem_exact ls (k_d c) _ _ FE GE sv d SO SV) as [_ O1]; try assumption.
      { rewrite LE. apply (co_d P c CO). } { rewrite LE, LG. exact JW. }
      rewrite LE, LG in O1. apply O1. eapply in_space_mono; [| |exact Hz]; assumption.
    - transitivity (sumn (p_n P) (fun _ => 0)); [apply sumn_ext; intros; ring|apply sumn_0; reflexivity]. }
  transitivity (sumn (p_n P) (fun i => at_ z i * (at_ pd i - at_ d i) + at_ z i * (at_ d i - at_ (k_d c) i))).
  { apply sumn_ext. intros; ring. }
  rewrite sumn_add, O1, O2. ring.
Qed.
Lemma nearest_of n a k z :
  sumn n (fun i => at_ z i * (at_ a i - at_ k i)) == 0 -> sumn n (fun i => at_ a i * (at_ a i - at_ k i)) == 0 ->
  dist2 n a k <= dist2 n z k.
Proof.
  intros H1 H2.
  assert (E : dist2 n z k == dist2 n a k + (sumn n (fun i => (at_ z i - at_ a i) * (at_ z i - at_ a i)) +
     (2 * sumn n (fun i => at_ z i * (at_ a i - at_ k i)) - 2 * sumn n (fun i => at_ a i * (at_ a i - at_ k i))))).
  { unfold dist2.
    transitivity (sumn n (fun i => (at_ a i - at_ k i) * (at_ a i - at_ k i) + ((at_ z i - at_ a i) * (at_ z i - at_ a i) +
       (2 * (at_ z i * (at_ a i - at_ k i)) + (-(2)) * (at_ a i * (at_ a i - at_ k i)))))).
    { apply sumn_ext. intros; ring. }
    rewrite !sumn_add, !sumn_scal. ring. }
  rewrite E, H1, H2.
  assert (0 <= sumn n (fun i => (at_ z i - at_ a i) * (at_ z i - at_ a i))).
  { apply sumn_nonneg. intros i _. destruct (Qlt_le_dec (at_ z i - at_ a i) 0).
    - setoid_replace ((at_ z i - at_ a i) * (at_ z i - at_ a i)) with ((-(at_ z i - at_ a i)) * (-(at_ z i - at_ a i))) by ring.
      apply Qmult_le_0_compat; lra.
    - apply Qmult_le_0_compat; lra. }
  lra.
Qed.
Lemma sumn_sq0 n f : sumn n (fun i => f i * f i) == 0 -> forall i, (i < n)%nat -> f i == 0.
Proof.
  assert (SQ : forall q : Q, 0 <= q * q).
  { intros q. destruct (Qlt_le_dec q 0).
    - setoid_replace (q * q) with ((-q) * (-q)) by ring. apply Qmult_le_0_compat; lra.
    - apply Qmult_le_0_compat; lra. }
  induction n as [|n IH]; intros H i Hi; [lia|]. rewrite sumn_S in H.
  assert (0 <= sumn n (fun i => f i * f i)) by (apply sumn_nonneg; intros; apply SQ).
  pose proof (SQ (f n)).
  destruct (Nat.eq_dec i n) as [->|N].
  - assert (f n * f n == 0) as E by lra. apply Qmult_integral in E. tauto.
  - apply IH; [lra|lia].
Qed.
Lemma form_0 P x lam d : (forall i, (i < p_n P)%nat -> at_ d i == 0) -> form P x lam d == 0.
Proof.
  intros H. unfold form. apply sumn_0. intros i Hi. apply sumn_0. intros j Hj. rewrite H by assumption. ring.
Qed.

(** ** Histories *)
Definition hotcall (n0 : node) (newx : bool) (d : list Q) : call :=
  let x := match n_x n0 with Some x => x | None => [] end in
  let du := match n_du n0 with Some du => du | None => [] end in
  let k := length x in
  mkC x newx (n_xl n0) (n_xu n0) (n_gl n0) (n_gu n0) (firstn k du) (firstn k (skipn k du)) (skipn (2 * k) du) d.
Definition solved_ok (P : nlp) (n : node) : Prop :=
  node_ok P n /\ exists x du, n_x n = Some x /\ n_du n = Some du /\ length x = p_n P /\ length du = (2 * p_n P + p_m P)%nat.
Lemma hotcall_ok P n0 newx d : solved_ok P n0 -> length d = p_n P -> call_ok P (hotcall n0 newx d).
Proof.
  intros ((N1 & N2 & N3 & N4) & x & du & Ex & Ed & Lx & Ldu) L. unfold hotcall. rewrite Ex, Ed.
  constructor; cbn [k_x k_xl k_xu k_gl k_gu k_zL k_zU k_lam k_d]; try assumption;
    rewrite ?firstn_length, ?skipn_length; lia.
Qed.
Lemma hotcall_same n0 a b d : same_call (hotcall n0 a d) (hotcall n0 b d).
Proof. unfold same_call, hotcall. cbn. repeat split. Qed.
Lemma steps_ok x : forall xl xu, length xl = length x -> length xu = length x ->
  exists d, steps xl xu x = Ok d /\ length d = length x.
Proof.
  induction x as [|v x IH]; intros xl xu L1 L2; [exists []; auto|].
  destruct xl as [|l xl], xu as [|u xu]; try discriminate. cbn [steps].
  destruct (IH xl xu) as (d & E & L); [now injection L1|now injection L2|]. rewrite E. cbn [bind]. eexists. split; [reflexivity|]. cbn. lia.
Qed.
Lemma steps_inside x : forall xl xu d, Forall2 lo_ok xl x -> Forall2 up_ok xu x -> steps xl xu x = Ok d -> forall i, at_ d i = 0.
Proof.
  induction x as [|v x IH]; intros xl xu d H1 H2 E i.
  - injection E as <-. unfold at_. destruct i; reflexivity.
  - inversion H1 as [|l xl0 v0 x0 A1 B1]; subst. inversion H2 as [|u xu0 v1 x1 A2 B2]; subst. cbn [steps] in E.
    apply bind_ok in E as (r & E & E'). injection E' as <-.
    destruct i as [|i]; [|apply (IH _ _ _ B1 B2 E i)]. unfold at_. cbn [nth]. unfold step1.
    assert (U : match u with Fin b => if Qltb b v then v - b else 0 | _ => 0 end = 0).
    { destruct u as [|b|]; try reflexivity. cbn in A2. destruct (Qltb b v) eqn:Q; [|reflexivity]. apply Qltb_lt in Q. lra. }
    destruct l as [|a|]; try exact U. cbn in A1. destruct (Qltb v a) eqn:Q; [|exact U]. apply Qltb_lt in Q. lra.
Qed.
(** The hot start is marked at [n0]. *)
Record marked (P : nlp) (n0 : node) (w : world) : Prop := {
  mk_n0 : solved_ok P n0;
  mk_node : solved_ok P (w_node w);
  mk_x : n_x (w_node w) = n_x n0; mk_du : n_du (w_node w) = n_du n0;
  mk_est : exists e, c_est (w_csb w) = Some e /\ forall d, ready P (hotcall n0 (c_new (w_csb w)) d) e;
  mk_sol : c_sol (w_csb w) = n_x n0; mk_dual : c_du (w_csb w) = n_du n0; mk_obj : c_obj (w_csb w) = n_obj n0;
  mk_bnd : c_bnd (w_csb w) = Some (n_xl n0, n_xu n0, n_gl n0, n_gu n0);
  mk_bef : w_before w = Some (n_stat n0)
}.
Lemma mark_marked P w : solved_ok P (w_node w) ->
  (forall e, c_est (w_csb w) = Some e -> est_ok P e) -> marked P (w_node w) (markHotStart w).
Proof.
  intros S E. constructor; try reflexivity; try exact S. cbn. eexists. split; [reflexivity|]. intros d. split; [|left; reflexivity].
  destruct (c_est (w_csb w)) as [e|]; [apply E; reflexivity|]. intros C. discriminate C.
Qed.
Lemma curvature_none P ls c e u e' u' : k_newx c = false -> e_init e = true ->
  curvature P false ls c e u = Ok (None, e', u') -> e_hv e' = e_hv e.
Proof.
  intros N I H. unfold curvature in H. apply bind_ok in H as ([e1 u1] & E & H). unfold curv_start in E. rewrite N, I in E. injection E as <- _. unfold curv_rest in H. destruct (e_eq e) as [sv|]; [|discriminate].
  apply bind_ok in H as ([d|] & _ & H); [|congruence].
  apply bind_ok in H as ([f s] & E & H).
  assert (e_hv f = e_hv e) as <-.
  { unfold curv_active in E. repeat (apply bind_ok in E as (? & _ & E)). injection E as <- _. reflexivity. }
  apply bind_ok in H as ([pd|] & _ & H); [|congruence].
  apply bind_ok in H as (t & _ & H). apply bind_ok in H as (w & _ & H).
  destruct (Qltb trash_tol w); [congruence|].
  apply bind_ok in H as ([hv v] & _ & H). cbv zeta in H. apply bind_ok in H as (q & _ & H). discriminate.
Qed.
Lemma hot_ok P ls n0 w : nlp_ok P -> sized ls -> (0 < p_m P)%nat -> marked P n0 w ->
  exists d w1 e u o e' u' x, solveFromHotStart P false ls w = Ok w1 /\ marked P n0 w1 /\
    n_x n0 = Some x /\ steps (n_xl (w_node w)) (n_xu (w_node w)) x = Ok d /\ length d = p_n P /\
    ready P (hotcall n0 (c_new (w_csb w)) d) e /\
    curvature P false ls (hotcall n0 (c_new (w_csb w)) d) e u = Ok (o, e', u') /\
    w_node w1 = match o with
                | None => set_stat computationError (w_node w)
                | Some (_, g, q) => mkN (n_xl (w_node w)) (n_xu (w_node w)) (n_gl (w_node w)) (n_gu (w_node w))
                                        (n_x (w_node w)) (n_du (w_node w)) (n_obj n0 + 1 * g + (1 # 2) * 1 * 1 * q) iterationLimit
                end.
Proof.
  intros OK SZ MP M. pose proof M as [(N0 & x & du & Ex & Ed & Lx & Ldu) (N & x' & du' & Ex' & Ed' & Lx' & Ldu') Mx Md (e & Ee & R) Ms Mdu Mo Mb Mf].
  pose proof (mk_n0 _ _ _ M) as S0.
  unfold solveFromHotStart. rewrite Ee, Ms, Mdu, Ex, Ed, Mb. destruct N as (N1 & N2 & N3 & N4).
  destruct (steps_ok x (n_xl (w_node w)) (n_xu (w_node w))) as (d & Es & Ls); try lia. rewrite Es. cbn [bind].
  specialize (R d).
  assert (HC : mkC x (c_new (w_csb w)) (n_xl n0) (n_xu n0) (n_gl n0) (n_gu n0) (firstn (length x) du)
       (firstn (length x) (skipn (length x) du)) (skipn (2 * length x) du) d = hotcall n0 (c_new (w_csb w)) d).
  { unfold hotcall. rewrite Ex, Ed. reflexivity. }
  cbv zeta. rewrite HC. clear HC.
  assert (CO : call_ok P (hotcall n0 (c_new (w_csb w)) d)) by (apply hotcall_ok; [exact S0|lia]).
  destruct (curvature_ok P ls _ e (w_user w) OK CO SZ MP R) as (o & e' & u' & Ec & W & D).
  rewrite Ec. cbn [bind]. eexists d, _, e, (w_user w), o, e', u', x.
  split; [reflexivity|]. split.
  - destruct o as [[[pd g] q]|].
    + destruct (D pd g q eq_refl) as (_ & Hh & _).
      constructor; cbn; try assumption; try congruence.
      { split; [repeat split; assumption|]. exists x', du'. auto. }
      exists e'. split; [reflexivity|]. intros d'. split; [apply W|]. right. split; [|exact Hh].
      unfold warm in *. cbn in *. exact W.
    + constructor; cbn; try assumption; try congruence.
      { split; [repeat split; assumption|]. exists x', du'. auto. }
      exists e'. split; [reflexivity|]. intros d'. split; [apply W|].
      destruct (c_new (w_csb w)) eqn:CN; [left; reflexivity|].
      destruct R as [_ [R|[RW RH]]]; [discriminate R|].
      right. split; [unfold warm in *; cbn in *; exact W|].
      rewrite (curvature_none P ls (hotcall n0 false d) e (w_user w) e' u' eq_refl (proj1 RW) Ec). exact RH.
  - split; [reflexivity|]. split; [exact Es|]. split; [lia|]. split; [exact R|]. split; [exact Ec|].
    destruct o as [[[pd g] q]|]; [|reflexivity]. rewrite Mo. reflexivity.
Qed.

Definition Inv (P : nlp) (ph : phase) (w : world) : Prop :=
  node_ok P (w_node w) /\ (forall e, c_est (w_csb w) = Some e -> est_ok P e) /\
  match ph with Bare => True | Solved => solved_ok P (w_node w) | Marked => exists n0, marked P n0 w end.
Lemma marked_est P n0 w : marked P n0 w -> forall e, c_est (w_csb w) = Some e -> est_ok P e.
Proof. intros M e E. destruct (mk_est _ _ _ M) as (e' & E' & R). rewrite E in E'. injection E' as <-. apply (R []). Qed.
Lemma marked_bounds P n0 w xl xu : length xl = p_n P -> length xu = p_n P -> marked P n0 w ->
  marked P n0 (mkW (mkN xl xu (n_gl (w_node w)) (n_gu (w_node w)) (n_x (w_node w)) (n_du (w_node w)) (n_obj (w_node w)) (n_stat (w_node w)))
                   (w_csb w) (w_user w) (w_before w)).
Proof.
  intros L1 L2 [A0 ((B1 & B2 & B3 & B4) & x & du & B5) A2 A3 A4 A5 A6 A7 A8 A9]. constructor; cbn; try assumption.
  split; [repeat split; assumption|]. exists x, du. exact B5.
Qed.
Definition after (ph : phase) (o : op) : phase :=
  match o with OBounds _ _ => ph | OSolve _ _ _ _ _ => Solved | OMark => Marked | OHot => Marked | OUnmark => Solved end.
Lemma follows_cons P ph o h : follows P ph (o :: h) -> follows P (after ph o) h.
Proof. destruct o; cbn; intros H; repeat match goal with H : _ /\ _ |- _ => destruct H end; assumption. Qed.
Lemma step_ok P ls ph o h w : nlp_ok P -> sized ls -> ((0 < p_m P)%nat \/ o <> OHot) -> follows P ph (o :: h) -> Inv P ph w ->
  exists w', step P false ls o w = Ok w' /\ Inv P (after ph o) w'.
Proof.
  intros OK SZ MP F (I1 & I2 & I3). destruct o as [xl xu|x du obj st u| | |]; cbn [step follows after] in *.
  - destruct F as (L1 & L2 & _). eexists. split; [reflexivity|]. destruct I1 as (B1 & B2 & B3 & B4).
    split; [repeat split; assumption|]. split; [exact I2|]. destruct ph; [exact Logic.I| |].
    + destruct I3 as (_ & x & du & E). split; [repeat split; assumption|]. exists x, du. exact E.
    + destruct I3 as (n0 & M). exists n0. apply marked_bounds; assumption.
  - destruct F as (_ & L1 & L2 & _). eexists. split; [reflexivity|]. destruct I1 as (B1 & B2 & B3 & B4).
    split; [repeat split; assumption|]. split; [exact I2|]. split; [repeat split; assumption|]. exists x, du. auto.
  - destruct F as (-> & _). eexists. split; [reflexivity|]. pose proof (mark_marked P w I3 I2) as M.
    split; [exact I1|]. split; [exact (marked_est _ _ _ M)|]. exists (w_node w). exact M.
  - destruct F as (-> & _). destruct I3 as (n0 & M). destruct MP as [MP|C]; [|congruence].
    destruct (hot_ok P ls n0 w OK SZ MP M) as (d & w1 & e & u & o & e' & u' & x & E & M1 & _).
    exists w1. split; [exact E|]. split; [apply (mk_node _ _ _ M1)|]. split; [exact (marked_est _ _ _ M1)|]. exists n0. exact M1.
  - destruct F as (-> & _). destruct I3 as (n0 & M). unfold unmarkHotStart. rewrite (mk_bef _ _ _ M).
    eexists. split; [reflexivity|]. split; [exact I1|]. split; [exact I2|]. exact (mk_node _ _ _ M).
Qed.
Lemma run_ok P ls h : nlp_ok P -> sized ls -> ((0 < p_m P)%nat \/ ~ In OHot h) -> forall ph w, follows P ph h -> Inv P ph w ->
  exists w', run P false ls h w = Ok w' /\ Inv P (fold_left after h ph) w'.
Proof.
  intros OK SZ. induction h as [|o h IH]; intros MP ph w F I; [exists w; auto|].
  assert (MP1 : (0 < p_m P)%nat \/ o <> OHot) by (destruct MP as [|N]; [auto|right; intros ->; apply N; left; reflexivity]).
  assert (MP2 : (0 < p_m P)%nat \/ ~ In OHot h) by (destruct MP as [|N]; [auto|right; intros N'; apply N; right; exact N']).
  destruct (step_ok P ls ph o h w OK SZ MP1 F I) as (w1 & E & I1).
  cbn [run]. rewrite E. cbn [bind fold_left]. apply IH; [exact MP2| |exact I1]. apply (follows_cons P ph o h F).
Qed.
Lemma start_Inv P u : nlp_ok P -> Inv P Bare (start P u).
Proof.
  intros OK. split; [|split; [discriminate|exact Logic.I]]. unfold node_ok, start. cbn.
  split; [apply (ok_xl P OK)|]. split; [apply (ok_xu P OK)|]. split; [apply (ok_gl P OK)|apply (ok_gu P OK)].
Qed.
Lemma run_app P kl ls a b w : run P kl ls (a ++ b) w = (do w <- run P kl ls a w; run P kl ls b w).
Proof. revert w. induction a as [|o a IH]; intros w; [reflexivity|]. cbn [app run]. destruct (step P kl ls o w); cbn [bind]; auto. Qed.
Lemma follows_app P a b : forall ph, follows P ph (a ++ b) -> follows P ph a /\ follows P (fold_left after a ph) b.
Proof.
  induction a as [|o a IH]; intros ph F; [split; [exact Logic.I|exact F]|]. cbn [app] in F.
  pose proof (follows_cons P ph o (a ++ b) F) as F'. apply IH in F' as [F1 F2]. split; [|exact F2].
  destruct o; cbn in *; intuition.
Qed.
(** At the mark and between the mark and the trial. *)
Lemma trials_marked P ls n0 h : nlp_ok P -> sized ls -> (0 < p_m P)%nat -> Forall trial h -> forall w w',
  follows P Marked h -> marked P n0 w -> run P false ls h w = Ok w' -> marked P n0 w'.
Proof.
  intros OK SZ MP T. induction T as [|o h T1 T IH]; intros w w' F M E; [injection E as <-; exact M|].
  cbn [run] in E. apply bind_ok in E as (w1 & E1 & E).
  destruct o as [xl xu|? ? ? ? ?| | |]; try contradiction; cbn [step follows] in *.
  - injection E1 as <-. destruct F as (L1 & L2 & F). eapply IH; [exact F| |exact E]. apply marked_bounds; assumption.
  - destruct F as (_ & F). destruct (hot_ok P ls n0 w OK SZ MP M) as (d & v & e & u & o & e' & u' & x & Ev & M1 & _).
    rewrite E1 in Ev. injection Ev as <-. eapply IH; [exact F|exact M1|exact E].
Qed.
Lemma reach_mark P ls u h1 h2 t w0 w : nlp_ok P -> sized ls -> (0 < p_m P)%nat ->
  follows P Bare (h1 ++ OMark :: h2 ++ [t]) -> Forall trial h2 ->
  run P false ls h1 (start P u) = Ok w0 -> run P false ls (h1 ++ OMark :: h2) (start P u) = Ok w ->
  solved_ok P (w_node w0) /\ (forall e, c_est (w_csb w0) = Some e -> est_ok P e) /\ marked P (w_node w0) w.
Proof.
  intros OK SZ MP F T E0 E. pose proof (follows_app _ _ _ _ F) as [F1 F2].
  destruct (run_ok P ls h1 OK SZ (or_introl MP) Bare (start P u) F1 (start_Inv P u OK)) as (w0' & E0' & I).
  rewrite E0 in E0'. injection E0' as <-. rewrite run_app, E0 in E. cbn [bind run step] in E.
  cbn [follows] in F2. destruct F2 as (PH & F2). rewrite PH in I. destruct I as (I1 & I2 & I3).
  split; [exact I3|]. split; [exact I2|].
  apply follows_app in F2 as [F2 _].
  apply (trials_marked P ls (w_node w0) h2 OK SZ MP T (markHotStart w0) w F2); [|exact E].
  apply mark_marked; assumption.
Qed.
