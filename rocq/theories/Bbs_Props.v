(** The set-up of a run: properties. *)
From Coq Require Import Lqa.
From Verif Require Import Base Arr Bbs_Model Bbs_Spec Bbs_Proofs.
#[local] Open Scope Z_scope.

(** ** A set-up for the examples: three columns, the first and the last integer, one SOS constraint *)
Definition p0 : pars := mkP 0 0 0 0 0 0 0 0 0 0 0 0 0.
Definition ecp : gen := mkG 7 1 true false false true true None None.
Definition gmi : gen := mkG 8 (-5) true false false false false None None.
Definition sos1 : sosinfo := mkSos 1 [0%nat; 2%nat] [0%nat; 2%nat] [1] [1%Q; 2%Q] (Some [3]).
Definition u0 : setup :=
  mkU [true; false; true] (Some [5; 6; 7]) (Some [0; 0; 1]) (Some [1%Q; 2%Q; 3%Q]) (Some [4%Q; 5%Q; 6%Q]) (Some sos1) false [Some 4%nat] None false
      [ecp; gmi] [9%nat] 16 (0, 1, 2) 1 20 bestBound DfsDiveFromBest 20 8 100 200 300 (1 # 100) 50 0 0 10 (1 # 1000000) true false true.
(** The same without anything said about integer variables, on the heap, with special option 0. *)
Definition u1 : setup :=
  mkU [true; false; true] None None None None (Some sos1) false [] None false
      [ecp] [9%nat] 0 (0, 1, 2) 1 20 bestGuess HeapOnly 20 8 100 200 300 (1 # 100) 50 0 0 10 (1 # 1000000) false false true.
(** Priorities, no SOS. *)
Definition u2 : setup :=
  mkU [true; false; true] (Some [5; 6; 7]) None None None None false [] None false
      [] [] 0 (0, 1, 2) 1 20 bestBound HeapOnly 20 8 100 200 300 (1 # 100) 50 0 0 10 (1 # 1000000) false false true.
Lemma sos1_ok : sos_ok sos1.
Proof.
  unfold sos_ok. cbn. repeat split; auto.
  - intros [|i] I; cbn; lia.
  - intros [|[|i]] I; cbn; lia.
Qed.
Lemma u0_sized : sized u0.
Proof. repeat split; try apply sos1_ok. constructor; [discriminate|constructor]. Qed.
Lemma u1_sized : sized u1.
Proof. repeat split; try apply sos1_ok. constructor. Qed.
Lemma u2_sized : sized u2.
Proof. repeat split. constructor. Qed.

(** ** C265: objects of the first run *)
Definition u_updown (up down : option (list Q)) : setup :=
  mkU [true] None None up down None false [] None false [] [] 16 (0, 1, 2) 1 20 bestBound HeapOnly 20 8 100 200 300 0 50 0 0 10 0 true false true.
Theorem C265_refuted : ~ C265_full.
Proof.
  intros F. destruct (F p0 (u_updown (Some [1%Q]) None)) as (b & t & X & _); [repeat split; constructor|reflexivity|]. vm_compute in X. discriminate X.
Qed.
Print Assumptions C265_refuted.
Theorem C265_partial p u : sized u -> user_branching u -> (u_up u <> None -> u_down u <> None) ->
  exists b t, prepare u (bab0 p) = Ok (b, t) /\ m_objs (b_model b) = wanted_ints u ++ wanted_sos u ++ wanted_extra u.
Proof.
  intros SZ UB UD. assert (SO : set_objects u (m_objs (b_model (bab0 p))) = Ok (wanted_ints u ++ wanted_sos u ++ wanted_extra u)) by (rewrite objects_ok; auto).
  destruct (prepare_ok u (bab0 p) _ SO eq_refl) as (b & t & X). exists b, t. split; [exact X|]. apply prepare_inv in X. destruct X as (objs & SO' & -> & _). congruence.
Qed.
Print Assumptions C265_partial.
(** The crash: pseudo-costs for the up branches only. *)
Theorem C265_crash_partial p u : sized u -> user_branching u -> u_up u <> None -> u_down u = None -> int_cols u <> [] -> prepare u (bab0 p) = NullDeref.
Proof.
  intros (P & D & U & _) UB UP DN NI. unfold prepare. destruct (if Z.eqb (u_special u) 0 then _ else _) as [sp st]. unfold set_objects. rewrite UB. unfold integers, findIntegers.
  destruct (u_up u) as [a|] eqn:EU; [|congruence]. cbn [given]. rewrite orb_true_r. cbn [bab0 b_model m_objs filter]. rewrite app_nil_r.
  destruct (int_cols u) as [|j t] eqn:E; [congruence|]. assert (J : (j < length (u_cols u))%nat) by (apply int_cols_lt; rewrite E; now left).
  cbn [map mapM give]. rewrite EU, DN.
  assert (E1 : exists p', match u_prio u with Some l => rd j l | None => Ok 1000 end = Ok p') by (destruct (u_prio u) as [l|]; [cbn in P; rewrite (rd_nth j l 0) by lia|]; eauto).
  assert (E2 : exists w', match u_dir u with Some l => rd j l | None => Ok 0 end = Ok w') by (destruct (u_dir u) as [l|]; [cbn in D; rewrite (rd_nth j l 0) by lia|]; eauto).
  destruct E1 as (p' & ->), E2 as (w' & ->). cbn [bind]. rewrite (rd_nth j a 0%Q) by (cbn in U; lia). reflexivity.
Qed.
Print Assumptions C265_crash_partial.
Example C265_ex :
  sized u0 /\ wanted_ints u0 ++ wanted_sos u0 ++ wanted_extra u0 =
    [OInt 0 5 0 (Some (1%Q, 4%Q)); OInt 2 7 1 (Some (3%Q, 6%Q)); OSos [0%nat; 2%nat] [1%Q; 2%Q] 0 1 3; OExtra 4].
Proof. split; [apply u0_sized|reflexivity]. Qed.

(** ** C266: objects made by the branching rule *)
Theorem C266 p u l : u_cobjs u = Some l -> u_choose u = true -> covers u l ->
  exists b t, prepare u (bab0 p) = Ok (b, t) /\ m_objs (b_model b) = l.
Proof.
  intros C CH CV. assert (SO : set_objects u (m_objs (b_model (bab0 p))) = Ok l).
  { unfold set_objects. rewrite C, CH. cbn [bab0 b_model m_objs]. f_equal. unfold addObjects, findIntegers. cbn [filter]. rewrite app_nil_r.
    replace (filter _ _) with (@nil obj); [reflexivity|]. symmetry.
    assert (G : forall js, (forall j, In j js -> nth_error (u_cols u) j = Some true) ->
      filter (fun o => match col_of o with Some j => negb (existsb (same_col j) l) | None => true end) (map (fun j => OInt j 1000 0 None) js) = []).
    { induction js as [|j t IH]; intros B; [reflexivity|]. cbn. destruct (CV j (B j (or_introl eq_refl))) as (o & I & E).
      assert (X : existsb (same_col j) l = true). { apply existsb_exists. exists o. split; [exact I|]. unfold same_col. rewrite E. apply Nat.eqb_refl. }
      rewrite X. cbn. apply IH. intros k K. apply B. now right. }
    apply G. intros j J. unfold int_cols in J. apply filter_In in J. destruct J as (J & N). apply in_seq in J.
    rewrite (nth_error_nth' (u_cols u) false) by lia. now rewrite N. }
  destruct (prepare_ok u (bab0 p) _ SO eq_refl) as (b & t & X). exists b, t. split; [exact X|]. apply prepare_inv in X. destruct X as (objs & SO' & -> & _). congruence.
Qed.
Print Assumptions C266.
Definition u_osi : setup :=
  mkU [true; false; true] None None None None None false [] (Some [OOsi 0 (Some 0%nat); OOsi 1 (Some 2%nat); OOsi 2 None]) true [ecp] [] 0 (0, 1, 2) 1 20 bestBound HeapOnly 20 8 100 200 300 0 50 0 0 10 0 false false true.
Example C266_ex : covers u_osi [OOsi 0 (Some 0%nat); OOsi 1 (Some 2%nat); OOsi 2 None].
Proof. intros [|[|[|[|j]]]] E; try discriminate E; [exists (OOsi 0 (Some 0%nat))|exists (OOsi 1 (Some 2%nat))]; cbn; auto. Qed.

(** ** C267: a second run on the same object *)
Theorem C267_refuted : ~ C267_full.
Proof.
  intros F. destruct (prepares [u1] (bab0 p0)) as [b| | | | | | |] eqn:E; try (vm_compute in E; discriminate E).
  destruct (prepare u1 (bab0 p0)) as [[b1 t]| | | | | | |] eqn:E1; try (vm_compute in E1; discriminate E1).
  destruct (F p0 [u1] u1 b t b1 E u1_sized ltac:(constructor; [apply u1_sized|constructor]) E1) as (b2 & t2 & E2 & G & _).
  vm_compute in E. injection E as <-. vm_compute in E1. injection E1 as <- <-. vm_compute in E2. injection E2 as <- <-. vm_compute in G. discriminate G.
Qed.
Print Assumptions C267_refuted.
(** Everything that was added in earlier runs is still there. *)
Theorem C267_partial p us b : prepares us (bab0 p) = Ok b ->
  gen_calls (b_model b) = flat_map (fun u => map how (u_gens u)) us /\
  m_heus (b_model b) = flat_map (fun u => map HSet (u_heus u) ++ guesses u) us /\
  (Forall sized us -> Forall plain us ->
   m_objs (b_model b) = match rev us with u :: _ => wanted_ints u | [] => [] end ++ flat_map (fun u => wanted_sos u ++ wanted_extra u) us).
Proof.
  intros X. destruct (history_gens p us b X) as (A1 & A2 & _). split; [exact A1|]. split; [exact A2|]. intros SZ PL. rewrite (history_objs p us b SZ PL X).
  f_equal. unfold last_ints, last_such. destruct (rev us) as [|u t]; [reflexivity|]. cbn. reflexivity.
Qed.
Print Assumptions C267_partial.
(** Priorities in a run after one with SOS constraints (or extra objects). *)
Theorem C267_crash_partial p us u b : prepares us (bab0 p) = Ok b -> Forall sized us -> Forall plain us ->
  flat_map (fun v => wanted_sos v ++ wanted_extra v) us <> [] ->
  sized u -> user_branching u -> (u_up u <> None -> u_down u <> None) -> (u_prio u <> None \/ u_dir u <> None) -> prepare u b = OutOfBounds.
Proof.
  intros X SZ PL NE SU UB UD PD. pose proof (history_objs p us b SZ PL X) as MO. unfold prepare. destruct (if Z.eqb (u_special u) 0 then _ else _) as [sp st].
  assert (SO : set_objects u (m_objs (b_model b)) = OutOfBounds).
  { unfold set_objects. rewrite UB, MO. destruct (flat_map (fun v => wanted_sos v ++ wanted_extra v) us) as [|o r] eqn:E; [congruence|].
    assert (I : In o (flat_map (fun v => wanted_sos v ++ wanted_extra v) us)) by (rewrite E; now left).
    apply in_flat_map in I. destruct I as (v & _ & I). apply in_app_or in I.
    rewrite (integers_crash u _ o r); auto.
    - unfold last_ints. destruct (last_such (fun _ => true) us); [rewrite others_wanted|cbn [app]]; rewrite <- E; apply rest_others.
    - destruct I as [I|I]; [apply wanted_sos_no in I|apply wanted_extra_no in I]; tauto.
    - destruct I as [I|I]; [apply wanted_sos_no in I|apply wanted_extra_no in I]; tauto. }
  rewrite SO. reflexivity.
Qed.
Print Assumptions C267_crash_partial.
Example C267_ex :
  match prepares [u1; u1] (bab0 p0) with
  | Ok b => map g_id (m_gens (b_model b)) = [7; 7]%nat /\ length (m_objs (b_model b)) = 4%nat /\ m_heus (b_model b) = [HSet 9; HGuess; HSet 9; HGuess] | _ => False end /\
  prepares [u1; u2] (bab0 p0) = OutOfBounds.
Proof. vm_compute. auto. Qed.

(** ** C268: settings of earlier runs *)
Definition u0' : setup :=   (* u0 without the unsupported object *)
  mkU [true; false; true] None None None None None false [] None false
      [] [] 16 (0, 1, 2) 1 20 bestBound DfsDiveFromBest 20 8 100 200 300 (1 # 100) 50 0 0 10 (1 # 1000000) true false true.
Theorem C268_refuted : ~ C268_full.
Proof.
  intros F. destruct (prepares [u0'] (bab0 p0)) as [b| | | | | | |] eqn:E; try (vm_compute in E; discriminate E).
  destruct (prepare u1 (bab0 p0)) as [[b1 t]| | | | | | |] eqn:E1; try (vm_compute in E1; discriminate E1).
  destruct (prepare u1 b) as [[b2 t2]| | | | | | |] eqn:E2.
  - destruct (F p0 [u0'] u1 b t b1 b2 t2 E E1 E2) as (G & _). vm_compute in E. injection E as <-. vm_compute in E1. injection E1 as <- <-. vm_compute in E2. injection E2 as <- <-. vm_compute in G. discriminate G.
  - vm_compute in E. injection E as <-. vm_compute in E2. discriminate E2.
  - vm_compute in E. injection E as <-. vm_compute in E2. discriminate E2.
  - vm_compute in E. injection E as <-. vm_compute in E2. discriminate E2.
  - vm_compute in E. injection E as <-. vm_compute in E2. discriminate E2.
  - vm_compute in E. injection E as <-. vm_compute in E2. discriminate E2.
  - vm_compute in E. injection E as <-. vm_compute in E2. discriminate E2.
  - vm_compute in E. injection E as <-. vm_compute in E2. discriminate E2.
Qed.
Print Assumptions C268_refuted.
(** The special option, the strategy on failures and the search tree are those of the last run that set them. *)
Theorem C268_partial p us u b : prepares (us ++ [u]) (bab0 p) = Ok b ->
  m_special (b_model b) = special_of (us ++ [u]) /\ m_strat (b_model b) = strategy_of (us ++ [u]) /\ m_tree (b_model b) = search_tree (us ++ [u]) /\
  m_cmp (b_model b) = comparison_meant u /\
  (forall b1 t, prepare u (bab0 p) = Ok (b1, t) -> m_cmp (b_model b) = m_cmp (b_model b1) /\ m_pars (b_model b) = m_pars (b_model b1)).
Proof.
  intros X. destruct (history_gens p _ b X) as (_ & _ & _ & A1 & A2 & A3). repeat (split; [assumption|]).
  split; [apply prepares_snoc in X; destruct X as (b0 & t0 & _ & X); apply prepare_inv in X; destruct X as (o1 & _ & _ & _ & _ & _ & _ & _ & _ & X1 & _);
          rewrite X1; unfold comparison_meant, compare_of; destruct (u_tree u), (u_cmp u); reflexivity|]. intros b1 t Y.
  apply prepares_snoc in X. destruct X as (b0 & t0 & _ & X). apply prepare_inv in X, Y. destruct X as (o1 & _ & _ & _ & _ & _ & _ & _ & _ & X1 & X2 & _), Y as (o2 & _ & _ & _ & _ & _ & _ & _ & _ & Y1 & Y2 & _).
  split; congruence.
Qed.
Print Assumptions C268_partial.
Example C268_ex :
  match prepares [u0'; u1] (bab0 p0) with
  | Ok b => m_special (b_model b) = 16 /\ m_strat (b_model b) = Some (0, 1, 2) /\ m_tree (b_model b) = DfsDiveFromBest | _ => False end.
Proof. vm_compute. auto. Qed.

(** ** C269: limits *)
Theorem C269 p us u b w i r : prepares (us ++ [u]) (bab0 p) = Ok b -> root_phase u w i b = Ok r ->
  let q := m_pars (r_model r) in
  (p_cutoff q == u_cutoff u + 1 / 1000000)%Q /\ p_gap q = u_gap u /\ p_fgap q = u_fgap u /\ p_inttol q = u_inttol u /\
  p_nodes q = u_nodes u /\ p_iters q = u_iters u /\ p_sols q = u_sols u /\ p_strong q = u_strong u /\ p_trust q = u_trust u /\
  p_passes q = u_passes u /\ p_rpasses q = u_rpasses u /\
  p_incr q = (if (u_same u && u_dyn u && negb i)%bool then match w_decr w with Some d => d | None => u_decr u end else u_decr u) /\
  (r_search r = true <-> i = false /\ (w_t1 w - w_t0 w < u_time u)%Q) /\
  (i = false -> p_secs q == u_time u - (w_t1 w - w_t0 w))%Q.
Proof.
  intros X Y. apply prepares_snoc in X. destruct X as (b0 & t0 & _ & X). apply prepare_inv in X. destruct X as (o1 & _ & _ & _ & _ & _ & _ & _ & _ & _ & PR & _).
  unfold root_phase in Y. destruct i.
  - injection Y as <-. cbn [r_model r_search m_pars]. rewrite PR. cbn. repeat (split; [reflexivity|]). rewrite andb_false_r. repeat (split; [reflexivity|]).
    split; [split; [discriminate|intros (E & _); discriminate E]|discriminate].
  - apply bind_ok in Y. destruct Y as (((wr & rows) & m) & Y1 & Y). apply bind_ok in Y. destruct Y as (st & Y2 & Y). injection Y as <-.
    assert (M : m_pars m = with_incr (new_pars u) (if (u_same u && u_dyn u)%bool then match w_decr w with Some d => d | None => u_decr u end else u_decr u)).
    { destruct (u_same u && u_dyn u)%bool.
      - apply bind_ok in Y1. destruct Y1 as ((wr' & rows') & _ & Y1). injection Y1 as _ _ <-. destruct (w_decr w); cbn [with_pars m_pars]; rewrite PR; reflexivity.
      - injection Y1 as _ _ <-. rewrite PR. reflexivity. }
    cbn [r_model r_search m_pars with_pars]. rewrite M. cbn. rewrite andb_true_r. repeat (split; [reflexivity|]).
    split; [|intros _; lra]. rewrite Qltb_lt. split; [intros; split; [reflexivity|lra]|intros (_ & G); lra].
Qed.
Print Assumptions C269.
Example C269_ex :
  match prepares [u1] (bab0 p0) with
  | Ok b => match root_phase u1 (mkW 100 103 true 0 None false None None) false b with Ok r => r_search r = true /\ p_secs (m_pars (r_model r)) = 7%Q | _ => False end | _ => False end.
Proof. vm_compute. auto. Qed.

(** ** C270: solvers that have been deleted *)
Theorem C270_refuted : ~ C270_full.
Proof.
  intros F. destruct (prepares [u1; u1] (bab0 p0)) as [b| | | | | | |] eqn:E; try (vm_compute in E; discriminate E).
  assert (U : Forall unassigned [u1; u1]) by (repeat constructor).
  specialize (F p0 [u1; u1] b (nth 0 (m_gens (b_model b)) ecp) U E). vm_compute in E. injection E as <-. specialize (F (or_introl eq_refl)). vm_compute in F. discriminate F.
Qed.
Print Assumptions C270_refuted.
(** A generator works on the solver of the run in which it was added. *)
Theorem C270_partial p us u b : Forall unassigned (us ++ [u]) -> prepares (us ++ [u]) (bab0 p) = Ok b ->
  exists old new, m_gens (b_model b) = old ++ new /\ length old = length (flat_map u_gens us) /\ map how new = map how (u_gens u) /\
    Forall (fun g => g_lp g = if (g_oa g && g_reassign g)%bool then Some (m_solver (b_model b)) else None) new /\
    Forall (fun g => if (g_oa g && g_reassign g)%bool then exists k, g_lp g = Some k /\ (k < m_solver (b_model b))%nat else g_lp g = None) old.
Proof.
  intros UN X. pose proof (history_gens p _ b X) as (GC & _ & SV & _). pose proof (history_lps p _ b X) as LP. rewrite lps_snoc in LP. cbn [Nat.add lps] in LP. rewrite app_nil_r in LP.
  rewrite flat_map_app in GC. cbn [flat_map] in GC. rewrite app_nil_r in GC. apply Forall_app in UN. destruct UN as (UN & UU). inversion UU as [|? ? U0 _]; subst.
  rewrite app_length in SV. cbn in SV.
  assert (LE : length (lps 0 us) = length (flat_map u_gens us)).
  { generalize 0%nat. clear. induction us as [|v t IH]; intros k; [reflexivity|]. cbn [lps flat_map]. rewrite !app_length, map_length, (IH (S k)). reflexivity. }
  assert (LN : (length (m_gens (b_model b)) = length (flat_map u_gens us) + length (u_gens u))%nat) by (apply (f_equal (@length _)) in LP; rewrite map_length, app_length, map_length, LE in LP; exact LP).
  set (n := length (flat_map u_gens us)) in *. exists (firstn n (m_gens (b_model b))), (skipn n (m_gens (b_model b))).
  split; [symmetry; apply firstn_skipn|]. split; [rewrite firstn_length; lia|].
  assert (LH : length (flat_map (fun v => map how (u_gens v)) us) = n).
  { unfold n. clear. induction us as [|v t IH]; [reflexivity|]. cbn [flat_map]. now rewrite !app_length, map_length, IH. }
  split; [|split].
  - unfold gen_calls in GC. apply (f_equal (skipn n)) in GC. rewrite skipn_map, skipn_app, LH, Nat.sub_diag, skipn_O, (skipn_all2 (flat_map _ us)) in GC by (rewrite LH; lia). exact GC.
  - apply (f_equal (skipn n)) in LP. rewrite skipn_map, skipn_app, LE, Nat.sub_diag, skipn_O, (skipn_all2 (lps 0 us)) in LP by (rewrite LE; lia). cbn [app] in LP.
    assert (G : forall gs hs, map (fun g => (g_oa g, g_reassign g, g_lp g)) gs = map (fun g => (g_oa g, g_reassign g, if (g_oa g && g_reassign g)%bool then Some (S (length us)) else g_lp g)) hs ->
               Forall (fun g => g_lp g = None) hs -> Forall (fun g => g_lp g = if (g_oa g && g_reassign g)%bool then Some (m_solver (b_model b)) else None) gs).
    { rewrite SV. replace (length us + 1)%nat with (S (length us)) by lia. clear. induction gs as [|g t IH]; intros [|h hs] E N; try discriminate E; [constructor|]. injection E as E1 E2 E3 E. inversion N as [|? ? N1 N2]; subst.
      constructor; [|eapply IH; eassumption]. rewrite E3, E1, E2, N1. reflexivity. }
    eapply G; [exact LP|exact U0].
  - apply (f_equal (firstn n)) in LP. rewrite firstn_map, firstn_app, LE, Nat.sub_diag, firstn_O, app_nil_r, (firstn_all2 (lps 0 us)) in LP by (rewrite LE; lia).
    assert (K : Forall (fun t => if (fst (fst t) && snd (fst t))%bool then exists k, snd t = Some k /\ (k < m_solver (b_model b))%nat else snd t = None) (lps 0 us)).
    { assert (K : forall k vs, Forall unassigned vs -> Forall (fun t => if (fst (fst t) && snd (fst t))%bool then exists j, snd t = Some j /\ (j <= k + length vs)%nat else snd t = None) (lps k vs)).
      { clear. intros k vs. revert k. induction vs as [|v t IH]; intros k UV; [constructor|]. inversion UV as [|? ? U1 U2]; subst. cbn [lps]. apply Forall_app. split.
        - apply Forall_forall. intros x I. apply in_map_iff in I. destruct I as (g & <- & I). cbn [fst snd]. destruct (g_oa g && g_reassign g)%bool; [exists (S k); split; [reflexivity|cbn; lia]|].
          unfold unassigned in U1. rewrite Forall_forall in U1. auto.
        - eapply Forall_impl; [|exact (IH (S k) U2)]. intros x. cbn beta. destruct (fst (fst x) && snd (fst x))%bool; [|auto]. intros (j & E & L). exists j. split; [exact E|]. cbn [length]. lia. }
      eapply Forall_impl; [|exact (K 0%nat us UN)]. intros x. cbn beta. destruct (fst (fst x) && snd (fst x))%bool; [|auto]. intros (j & E & L). exists j. split; [exact E|lia]. }
    rewrite <- LP in K. apply Forall_map in K. exact K.
Qed.
Print Assumptions C270_partial.
Example C270_ex :
  match prepares [u1; u1] (bab0 p0) with Ok b => map g_lp (m_gens (b_model b)) = [Some 1%nat; Some 2%nat] /\ m_solver (b_model b) = 2%nat | _ => False end.
Proof. vm_compute. auto. Qed.

(** ** C271: pointers to objects *)
Definition u_ext : setup :=
  mkU [true] None None None None None false [Some 4%nat] None false [] [] 0 (0, 1, 2) 1 20 bestBound HeapOnly 20 8 100 200 300 0 50 0 0 10 0 false false true.
Theorem C271_refuted : ~ C271_full.
Proof.
  intros F. destruct (prepares [u_ext] (bab0 p0)) as [b| | | | | | |] eqn:E; try (vm_compute in E; discriminate E).
  assert (SZ : Forall sized [u_ext]) by (constructor; [repeat split; constructor; [discriminate|constructor]|constructor]).
  destruct (F p0 [u_ext] b u1 SZ E) as (G & _). vm_compute in E. injection E as <-. apply G. vm_compute. reflexivity.
Qed.
Print Assumptions C271_refuted.
(** Destroying a Bab fails exactly if the last run that copied objects was left by an exception. *)
Theorem C271_partial p us u b b' t : prepares us (bab0 p) = Ok b -> prepare u b = Ok (b', t) ->
  (t = true <-> u_special u <> 16 /\ exists k, In (OExtra k) (m_objs (b_model b'))) /\
  (destroy b' = Uninit <-> t = true \/ t = false /\ (m_objs (b_model b') = [] \/ u_special u = 16) /\ destroy b = Uninit).
Proof.
  intros _ Y. apply prepare_inv in Y. destruct Y as (objs & _ & MO & _ & _ & _ & _ & _ & _ & _ & _ & D). rewrite MO.
  assert (FS : forallb supported objs = false <-> exists k, In (OExtra k) objs).
  { clear. induction objs as [|o r IH]; cbn; [split; [discriminate|intros (k & [])]|]. destruct o; cbn; rewrite ?IH; try (split; [intros (n & N); eauto|intros (n & [N|N]); [discriminate N|eauto]]).
    split; [eauto|reflexivity]. }
  unfold destroy. destruct D as [(A & -> & ->)|(A & B & DL & -> & -> & _)].
  - split; [|split; [auto|intros [X|(_ & _ & X)]; [discriminate X|exact X]]]. split; [discriminate|]. intros (NS & k & I). destruct A as [-> |A]; [destruct I|congruence].
  - split; [rewrite negb_true_iff, FS; tauto|]. destruct (forallb supported objs) eqn:F.
    + rewrite copied_all by exact F. cbn. split; [discriminate|]. intros [X|(_ & [X|X] & _)]; congruence.
    + rewrite copied_some by exact F. cbn. tauto.
Qed.
Print Assumptions C271_partial.
Theorem C271_safe_partial p us b u : Forall sized us -> Forall plain us -> Forall (fun v => u_extra v = []) us -> prepares us (bab0 p) = Ok b -> destroy b = Ok tt /\ prepare u b <> Uninit.
Proof.
  intros SZ PL EX X. assert (D : destroy b = Ok tt).
  { revert b X. induction us as [|v us IH] using rev_ind; intros b X; [injection X as <-; reflexivity|].
    pose proof (history_objs p _ b SZ PL X) as MO.
    assert (NE : forall k, ~ In (OExtra k) (m_objs (b_model b))).
    { intros k I. rewrite MO in I. apply in_app_or in I. destruct I as [I|I].
      - unfold last_ints in I. destruct (last_such _ _) as [z|]; [|destruct I]. rewrite wanted_ints_eq in I. apply in_map_iff in I. destruct I as (j & E & _). discriminate E.
      - apply in_flat_map in I. destruct I as (z & Z & I). apply in_app_or in I. destruct I as [I|I]; [apply wanted_sos_no in I; destruct I as (_ & _ & I & _); discriminate I|].
        rewrite Forall_forall in EX. unfold wanted_extra in I. rewrite (EX z Z) in I. destruct I. }
    apply prepares_snoc in X. destruct X as (b1 & t & X & Y). apply Forall_app in SZ, PL, EX. destruct (C271_partial p us v b1 b t X Y) as (A & B).
    specialize (IH (proj1 SZ) (proj1 PL) (proj1 EX) b1 X). destruct (destroy b) as [[]| | | | | | |] eqn:DE; unfold destroy, delete_objs in DE; destruct (b_objs b) as [l|]; try (destruct (existsb _ l)); try discriminate DE; try reflexivity.
    exfalso. destruct (proj1 B) as [T|(_ & _ & T)]; [reflexivity| |congruence]. apply A in T. destruct T as (_ & k & K). exact (NE k K). }
  split; [exact D|]. unfold prepare. destruct (if Z.eqb (u_special u) 0 then _ else _) as [sp st].
  assert (NU : forall (A : Type) (f : list obj -> outcome A), (forall o, f o <> Uninit) -> (do objs <- set_objects u (m_objs (b_model b)); f objs) <> Uninit).
  { intros A f NF. destruct (set_objects u (m_objs (b_model b))) eqn:E; cbn; try discriminate; [apply NF|]. exfalso. clear -E. revert E.
    assert (RD : forall (T : Type) i (l : list T), rd i l <> Uninit) by (intros; unfold rd; destruct (nth_error _ _); discriminate).
    assert (BN : forall (T V : Type) (a : outcome T) (f : T -> outcome V), a <> Uninit -> (forall x, f x <> Uninit) -> bind a f <> Uninit) by (intros ? ? [] ? ? ?; cbn; try discriminate; auto; congruence).
    assert (MM : forall (T V : Type) (f : T -> outcome V) l, (forall x, f x <> Uninit) -> mapM f l <> Uninit).
    { intros T V f l NF. induction l as [|x t IH]; cbn; [discriminate|]. apply BN; [auto|]. intros y. apply BN; [exact IH|]. discriminate. }
    assert (NZ : forall k l, nonzero k l <> Uninit) by (induction k; intros [|z t]; cbn; try discriminate; destruct (Z.eqb z 0); [auto|discriminate]).
    unfold set_objects. destruct (u_cobjs u); [destruct (u_choose u); discriminate|]. apply BN; [|intros a; apply BN; [|intros c]].
    - unfold integers. destruct (_ || _)%bool; [|discriminate]. apply MM. intros [j pr wy ps|? ? ? ? ?|?|? ?]; cbn; try discriminate; try (destruct (_ || _)%bool; [discriminate|]; destruct (given _); discriminate).
      apply BN; [destruct (u_prio u); [apply RD|discriminate]|]. intros. apply BN; [destruct (u_dir u); [apply RD|discriminate]|]. intros. apply BN; [|discriminate].
      destruct (u_up u); [|discriminate]. destruct ps; [|discriminate]. apply BN; [apply RD|]. intros. destruct (u_down u); [|discriminate]. apply BN; [apply RD|discriminate].
    - unfold sos_objects. destruct (u_sos u) as [q|]; [|discriminate]. destruct (_ || _)%bool; [discriminate|]. apply BN; [destruct (u_prio u); [apply NZ|discriminate]|]. intros.
      apply BN; [destruct (so_prio q); [apply NZ|discriminate]|]. intros. apply BN; [|discriminate]. apply MM. intros i. unfold one_sos. apply BN; [apply RD|]. intros. apply BN; [apply RD|]. intros.
      destruct (_ || _)%bool; [discriminate|]. apply BN; [apply RD|]. intros. apply BN; [|discriminate]. destruct (_ || _)%bool; [|discriminate]. destruct (so_prio q); [|discriminate]. apply BN; [apply RD|discriminate].
    - unfold extra_objects. apply BN; [|discriminate]. apply MM. intros [k|]; discriminate. }
  apply NU. intros objs. destruct objs as [|o r]; [discriminate|]. destruct (Z.eqb (u_special u) 16); [discriminate|]. unfold destroy in D. rewrite D. cbn. destruct (_ && _)%bool; discriminate.
Qed.
Print Assumptions C271_safe_partial.
Example C271_ex : match prepares [u1; u1] (bab0 p0) with Ok b => destroy b = Ok tt | _ => False end /\ match prepare u_ext (bab0 p0) with Ok (b, t) => t = true /\ destroy b = Uninit | _ => False end.
Proof. vm_compute. auto. Qed.

(** ** C272: the root with enable_dynamic_nlp *)
Definition u_dn (lin : bool) : setup :=
  mkU [true] None None None None None false [] None false [] [] 16 (0, 1, 2) 1 20 bestBound HeapOnly 20 8 100 200 300 0 50 0 0 10 0 true true lin.
Theorem C272_refuted : ~ C272_full.
Proof. intros F. destruct (F (u_dn true) (mkW 0 1 false 3 None false None None) (bab0 p0) (or_intror eq_refl)) as (r & X). vm_compute in X. discriminate X. Qed.
Print Assumptions C272_refuted.
Theorem C272_partial u w b : u_special u <> 16 \/ u_same u = true ->
  (root_phase u w false b = NullDeref <-> u_same u = true /\ u_dyn u = true /\ w_opt w = false /\ u_linobj u = true) /\
  (root_phase u w false b = OutOfBounds <-> u_same u = true /\ u_dyn u = true /\ w_opt w = true /\ w_ncuts w = 0%nat) /\
  (forall r, root_phase u w false b = Ok r ->
     if (u_same u && u_dyn u)%bool
     then if w_opt w then r_wrapped r = negb (u_linobj u) /\ r_rows r = w_ncuts w
          else u_linobj u = false /\ r_wrapped r = false /\ r_rows r = 0%nat      (* the problem as the user gave it *)
     else r_rows r = 0%nat).
Proof.
  intros C. unfold root_phase.
  assert (ST : exists st, (if Z.eqb (u_special u) 16 then if u_same u then Ok (if w_started w then (None, None) else (w_x w, w_y w)) else NullDeref else Ok (None, None)) = Ok st).
  { destruct (Z.eqb_spec (u_special u) 16) as [E|N]; [|eauto]. destruct C as [C|C]; [congruence|]. rewrite C. eauto. }
  destruct ST as (st & ->). unfold wrapped. destruct (u_same u), (u_dyn u); cbn [andb bind].
  - destruct (w_opt w); cbn [bind].
    + destruct (w_ncuts w) as [|n]; cbn [bind]; repeat split; try discriminate; try tauto; try (intros; intuition discriminate).
      all: injection H as <-; reflexivity.
    + destruct (u_linobj u); cbn [negb andb bind]; repeat split; try discriminate; try tauto; try (intros; intuition discriminate); injection H as <-; reflexivity.
  - repeat split; try discriminate; try (intros; intuition discriminate). intros r X. injection X as <-. reflexivity.
  - repeat split; try discriminate; try (intros; intuition discriminate). intros r X. injection X as <-. reflexivity.
  - repeat split; try discriminate; try (intros; intuition discriminate). intros r X. injection X as <-. reflexivity.
Qed.
Print Assumptions C272_partial.
Example C272_ex :
  match root_phase (u_dn false) (mkW 0 1 false 3 None false None None) false (bab0 p0) with Ok r => r_wrapped r = false | _ => False end /\
  match root_phase (u_dn true) (mkW 0 1 true 3 None false None None) false (bab0 p0) with Ok r => r_rows r = 3%nat | _ => False end.
Proof. vm_compute. auto. Qed.

(** ** C273: the starting point of NLP-based branch-and-bound *)
Theorem C273 u w b r : root_phase u w false b = Ok r ->
  (u_special u = 16 -> u_same u = true) /\
  r_start r = (if (Z.eqb (u_special u) 16 && negb (w_started w))%bool then (w_x w, w_y w) else (None, None)).
Proof.
  unfold root_phase. intros X. apply bind_ok in X. destruct X as (((wr & rows) & m) & _ & X). apply bind_ok in X. destruct X as (st & S1 & X). injection X as <-. cbn [r_start].
  destruct (Z.eqb_spec (u_special u) 16) as [E|N].
  - destruct (u_same u); [|discriminate]. split; [reflexivity|]. injection S1 as <-. destruct (w_started w); reflexivity.
  - injection S1 as <-. split; [congruence|reflexivity].
Qed.
Print Assumptions C273.
Example C273_ex :
  match root_phase u0' (mkW 0 1 true 3 None false (Some [1%Q]) (Some [2%Q])) false (bab0 p0) with Ok r => r_start r = (Some [1%Q], Some [2%Q]) | _ => False end.
Proof. vm_compute. auto. Qed.

(** ** C274, C275: interruptions *)
Theorem C274_refuted : ~ C274_full.
Proof. intros F. apply (F [Make 1; Run 1; Kill 1] (mkPr [] true (Some 1%nat) false) [ENone; ESearch 1; ENone] eq_refl). reflexivity. Qed.
Print Assumptions C274_refuted.
(** The Bab that ran last. *)
Definition last_run (l : list act) : option nat := match last_such (fun a => match a with Run _ => true | _ => false end) l with Some (Run i) => Some i | _ => None end.
Lemma acts_snoc l a : forall p q es, acts p (l ++ [a]) = Ok (q, es) -> exists p1 e1 e, acts p l = Ok (p1, e1) /\ act_step p1 a = Ok (q, e) /\ es = e1 ++ [e].
Proof.
  induction l as [|x t IH]; intros p q es X; cbn [acts app] in X.
  - apply bind_ok in X. destruct X as ((p1 & e) & X1 & X). injection X as <- <-. exists p, [], e. auto.
  - apply bind_ok in X. destruct X as ((p1 & e) & X1 & X). apply bind_ok in X. destruct X as ((p2 & es2) & X2 & X). injection X as <- <-.
    apply IH in X2. destruct X2 as (p3 & e3 & e4 & A & B & ->). exists p3, (e :: e3), e4. cbn [acts]. rewrite X1. cbn [bind]. rewrite A. auto.
Qed.
Lemma proc_inv l : forall p es, acts proc0 l = Ok (p, es) ->
  pr_current p = last_run l /\ (pr_handler p = true <-> last_run l <> None) /\ (pr_once p = true <-> exists j, In (EStop j) es).
Proof.
  induction l as [|a l IH] using rev_ind; intros p es X.
  - injection X as <- <-. split; [reflexivity|]. split; [split; [discriminate|intros N; destruct (N eq_refl)]|]. split; [discriminate|intros (j & [])].
  - apply acts_snoc in X. destruct X as (p1 & e1 & e & X & Y & ->). destruct (IH p1 e1 X) as (A & B & C). unfold last_run in *. rewrite last_such_snoc.
    assert (IS : (exists j, In (EStop j) (e1 ++ [e])) <-> (exists j, In (EStop j) e1) \/ exists j, e = EStop j).
    { split; [intros (j & J); apply in_app_or in J; destruct J as [J|[J|[]]]; eauto|]. intros [(j & J)|(j & ->)]; exists j; apply in_or_app; cbn; auto. }
    rewrite IS, <- C. clear IS C. destruct a as [i|i|i|]; cbn [act_step] in Y.
    + injection Y as <- <-. cbn. split; [exact A|]. split; [exact B|]. split; [auto|intros [?|(j & J)]; [assumption|discriminate J]].
    + destruct (existsb _ _); [|discriminate]. injection Y as <- <-. cbn. split; [reflexivity|]. split; [split; [discriminate|reflexivity]|]. split; [auto|]. intros [?|(j & J)]; [assumption|]. destruct (pr_once p1); discriminate J.
    + injection Y as <- <-. cbn. split; [exact A|]. split; [exact B|]. split; [auto|intros [?|(j & J)]; [assumption|discriminate J]].
    + destruct (pr_handler p1) eqn:HD; cbn [negb] in Y.
      * destruct (pr_once p1) eqn:ON; [injection Y as <- <-; split; [exact A|]; split; [rewrite HD; exact B|]; split; [auto|intros [?|(j & J)]; [assumption|discriminate J]]|].
        destruct (pr_current p1) as [i|] eqn:CU.
        -- destruct (existsb _ _); [|discriminate]. injection Y as <- <-. cbn. split; [exact A|]. split; [exact B|]. split; [eauto|reflexivity].
        -- injection Y as <- <-. cbn. split; [exact A|]. split; [exact B|]. split; [eauto|reflexivity].
      * injection Y as <- <-. split; [exact A|]. split; [rewrite HD; exact B|]. split; [auto|intros [?|(j & J)]; [assumption|discriminate J]].
Qed.
Theorem C274_partial l p es : acts proc0 l = Ok (p, es) ->
  (act_step p Interrupt = Dangling <-> (forall j, ~ In (EStop j) es) /\ exists i, last_run l = Some i /\ ~ In i (pr_live p)).
Proof.
  intros X. destruct (proc_inv l p es X) as (A & B & C). cbn [act_step]. rewrite A.
  assert (EB : forall i, existsb (Nat.eqb i) (pr_live p) = false <-> ~ In i (pr_live p)).
  { intros i. split; [intros E I; assert (Y : existsb (Nat.eqb i) (pr_live p) = true) by (apply existsb_exists; exists i; split; [exact I|apply Nat.eqb_refl]); congruence|].
    intros N. destruct (existsb _ _) eqn:E; [|reflexivity]. apply existsb_exists in E. destruct E as (k & K & E). apply Nat.eqb_eq in E. subst k. contradiction. }
  destruct (last_run l) as [i|] eqn:LR.
  - rewrite (proj2 B) by discriminate. cbn [negb]. destruct (pr_once p) eqn:ON.
    + split; [discriminate|]. intros (N & _). destruct (proj1 C eq_refl) as (j & J). destruct (N j J).
    + destruct (existsb _ _) eqn:E.
      * split; [discriminate|]. intros (_ & k & K & N). injection K as <-. apply EB in N. congruence.
      * split; [|reflexivity]. intros _. split; [intros j J; assert (false = true) by (apply C; eauto); discriminate|]. exists i. split; [reflexivity|now apply EB].
  - destruct (pr_handler p) eqn:HD; [exfalso; apply (proj1 B); reflexivity|]. cbn. split; [discriminate|]. intros (_ & k & K & _). discriminate K.
Qed.
Print Assumptions C274_partial.
Theorem C275_refuted : ~ C275_full.
Proof.
  intros F. destruct (F [Make 1; Run 1; Interrupt; Make 2] (mkPr [2%nat; 1%nat] true (Some 1%nat) true) [ENone; ESearch 1; EStop (Some 1%nat); ENone] 2%nat eq_refl) as (q & X); [intros [X|[X|[X|[X|[]]]]]; discriminate X|reflexivity|].
  vm_compute in X. discriminate X.
Qed.
Print Assumptions C275_refuted.
(** A run searches if and only if there has been no interruption in the process. *)
Theorem C275_partial l p es i q e : acts proc0 l = Ok (p, es) -> act_step p (Run i) = Ok (q, e) ->
  (e = ESearch i <-> forall j, ~ In (EStop j) es) /\ (e = ESearch i \/ e = ENoSearch i).
Proof.
  intros X Y. destruct (proc_inv l p es X) as (_ & _ & C). cbn [act_step] in Y. destruct (existsb _ _); [|discriminate]. injection Y as _ <-. destruct (pr_once p) eqn:ON.
  - split; [|auto]. split; [discriminate|]. intros N. destruct (proj1 C eq_refl) as (j & J). destruct (N j J).
  - split; [|auto]. split; [|reflexivity]. intros _ j J. assert (false = true) by (apply C; eauto). discriminate.
Qed.
Print Assumptions C275_partial.
Example C275_ex :
  acts proc0 [Make 1; Run 1; Kill 1; Make 2; Run 2; Interrupt; Run 2; Interrupt] = Ok (mkPr [2%nat] true (Some 2%nat) true, [ENone; ESearch 1; ENone; ENone; ESearch 2; EStop (Some 2%nat); ENoSearch 2; EExit]).
Proof. reflexivity. Qed.

(** ** C276: objects known to the outer approximation *)
Theorem C276 u b b' t : prepare u b = Ok (b', t) -> u_special u <> 16 -> m_objs (b_model b') <> [] ->
  (t = false <-> forall k, ~ In (OExtra k) (m_objs (b_model b'))) /\
  (t = false -> Forall (fun g => g_oa g = true -> g_objs g = Some (m_objs (b_model b'))) (m_gens (b_model b'))).
Proof.
  intros Y NS NE. apply prepare_inv in Y. destruct Y as (objs & _ & MO & _ & _ & _ & _ & _ & _ & _ & _ & D). rewrite MO in *.
  destruct D as [([A|A] & _)|(_ & _ & _ & _ & T & G)]; [congruence|congruence|]. split; [|intros X; apply Forall_forall; intros g I OA; exact (G X g I OA)].
  rewrite T, negb_false_iff, forallb_forall. split.
  - intros F k I. discriminate (F _ I).
  - intros N o I. destruct o; try reflexivity. destruct (N _ I).
Qed.
Print Assumptions C276.
Example C276_ex :
  match prepares [u1] (bab0 p0) with Ok b => map g_objs (m_gens (b_model b)) = [Some (m_objs (b_model b))] /\ length (m_objs (b_model b)) = 3%nat | _ => False end.
Proof. vm_compute. auto. Qed.
