(** Theorems about copies of generators, heuristics and rules. *)
From Verif Require Import Base Cpy_Model Cpy_Spec Cpy_Proofs.
#[local] Open Scope Q_scope.

(** ** C347 *)
(** The settings of every generator are those given when the one it comes from was built. *)
Theorem C347_settings : forall h w, run h world0 = Ok w -> map settings_of (w_gens w) = given [] h.
Proof. intros h w R. exact (run_given h world0 w [] R eq_refl). Qed.
Print Assumptions C347_settings.
(** A copy makes the cuts the generator it is made of would make: the checker goes on with the count. *)
Theorem C347_checker : forall h w i w1 n rs cs wa wb, run h world0 = Ok w -> step (Copy i) w = Ok w1 ->
  step (Gen i n true rs cs) w1 = Ok wa -> step (Gen (List.length (w_gens w)) n true rs cs) w1 = Ok wb ->
  kinds (w_log wa) = kinds (w_log wb).
Proof.
  intros h w i w1 n rs cs wa wb _ C A B. cbn [step] in C. destruct (nth_error (w_gens w) i) as [g|] eqn:G; [|discriminate C].
  injection C as <-. apply gen_spec in A. apply gen_spec in B.
  destruct A as (ga & ha & aa & ea & GA & -> & _ & _ & _ & QA & _ & KA). destruct B as (gb & hb & ab & eb & GB & -> & _ & _ & _ & QB & _ & KB).
  cbn [w_gens w_log] in *. rewrite nth_last in GB. injection GB as <-.
  rewrite (nth_keep _ _ _ _ _ G) in GA. injection GA as <-. subst aa ab. cbn [app].
  unfold kinds in *. rewrite !flat_map_app, (KA eq_refl), (KB eq_refl).
  cbn [gen_copy g_kind g_cuts]. rewrite kind_copy_id. reflexivity.
Qed.
Print Assumptions C347_checker.
(** A check at an integer point makes outer approximation cuts while the cuts made by the checker, and before it was copied
    by those it comes from, are no more than allowed. *)
Theorem C347_kinds : forall h i n rs cs w, run (h ++ [Gen i n true rs cs]) world0 = Ok w ->
  exists v p k lv ra c, run h world0 = Ok v /\ nth_error (given [] h) i = Some (p, k, lv, ra) /\
    nth_error (counts [] h) i = Some (checker k, c) /\
    kinds (w_log w) = kinds (w_log v) ++ match k with KFeas _ oa m => passes oa m c cs | _ => [] end.
Proof.
  intros h i n rs cs w R. apply run_app in R. destruct R as (v & R & E). cbn [run] in E. apply bind_ok in E. destruct E as (w1 & E & X).
  injection X as ->. pose proof (run_given h world0 v [] R eq_refl) as GV. pose proof (counts_run h world0 v [] R eq_refl) as CV.
  apply gen_spec in E. destruct E as (g & h1 & a & e & G & -> & _ & _ & _ & QA & _ & KS).
  exists v, (g_par g), (g_kind g), (g_leave g), (g_reassign g), (g_cuts g). split; [exact R|].
  split; [rewrite <- GV, nth_error_map, G; reflexivity|]. split; [rewrite <- CV, nth_error_map, G; reflexivity|].
  cbn [w_log]. rewrite QA. cbn [app]. unfold kinds in *. rewrite flat_map_app, (KS eq_refl). reflexivity.
Qed.
Print Assumptions C347_kinds.
Definition pr (t : Q) : pars := mkPars true false (1 # 1000000) (1 # 100000) (1 # 100000) 5 t 0 5 10 None.
Definition sb : sub := mkSub true 0 None 1.
Example C347_ex :
  let h := [New (pr 1) (KFeas 2 true 3) false true; Gen 0 0 true [] [2%nat; 2%nat]; Copy 0; Gen 1 0 true [] [2%nat]] in
  exists w, run h world0 = Ok w /\ map settings_of (w_gens w) = given [] h /\
    kinds (w_log w) = [(true, 2%nat); (true, 2%nat); (false, 2%nat)].
Proof. eexists. split; [vm_compute; reflexivity|]. split; vm_compute; reflexivity. Qed.

(** ** C348 *)
Theorem C348_refuted : ~ C348_full.
Proof.
  intro H. pose (h := [New (pr 1) (KOa sb) true false; Tick 2; Copy 0; Gen 1 0 false [] []]).
  assert (R : exists w, run h world0 = Ok w /\ In (Asked 2 1 true) (w_log w)).
  { eexists. split; [vm_compute; reflexivity|]. vm_compute. left. reflexivity. }
  destruct R as (w & R & L).
  specialize (H h w 2 1%nat (pr 1) (KOa sb) true false 0 R L eq_refl eq_refl). vm_compute in H. discriminate H.
Qed.
Print Assumptions C348_refuted.
(** Exactly when a local search begins at a fractional point: within the time limit since this generator was made, by its
    constructor or as a copy, while it has itself solved fewer sub-MIPs than allowed, and fewer solutions than allowed are known. *)
Theorem C348_partial : forall h i n rs cs w, run (h ++ [Gen i n false rs cs]) world0 = Ok w ->
  exists v p k lv ra b a e, run h world0 = Ok v /\
    nth_error (given [] h) i = Some (p, k, lv, ra) /\ nth_error (births 0 h) i = Some b /\
    w_log w = w_log v ++ Asked (clock 0 h) i a :: e /\ (a = false -> e = []) /\
    (a = true <-> searching k /\ clock 0 h - b < p_maxT p /\ (n < p_maxSols p)%nat /\ (solves i (w_log v) < p_maxLS p)%nat).
Proof.
  intros h i n rs cs w R. apply run_app in R. destruct R as (v & R & E). cbn [run] in E. apply bind_ok in E. destruct E as (w1 & E & X).
  injection X as ->. pose proof (run_given h world0 v [] R eq_refl) as GV. destruct (inv_run h world0 v [] R inv0) as [(L & H & Z) C].
  cbn [app world0 w_now] in *. apply gen_spec in E. destruct E as (g & h1 & a & e & G & -> & _ & _ & _ & QA & QF & _).
  destruct (H i g G) as [HB HN].
  set (q := ask _ _) in *. exists v, (g_par g), (g_kind g), (g_leave g), (g_reassign g), (g_begin g), q, e.
  split; [exact R|]. split; [rewrite <- GV, nth_error_map, G; reflexivity|]. split; [exact HB|].
  split; [cbn [w_log]; rewrite QA, C; reflexivity|]. split; [exact (QF eq_refl)|].
  unfold q, ask. cbn [g_kind g_nLS g_par g_sols g_begin]. rewrite HN, C.
  assert (IFF : ((solves i (w_log v) <? p_maxLS (g_par g))%nat && (n <? p_maxSols (g_par g))%nat && Qltb (clock 0 h - g_begin g) (p_maxT (g_par g)) = true) <->
    (clock 0 h - g_begin g < p_maxT (g_par g) /\ (n < p_maxSols (g_par g))%nat /\ (solves i (w_log v) < p_maxLS (g_par g))%nat)).
  { rewrite !andb_true_iff, !Nat.ltb_lt, Qltb_lt. tauto. }
  destruct (g_kind g); cbn [searching]; rewrite ?IFF; try tauto; split; [intro X; discriminate X | intros [[] _] | intro X; discriminate X | intros [[] _]].
Qed.
Print Assumptions C348_partial.
(** A call solves no more sub-MIPs than are left to this copy, one at least; and none once the solutions known and those it
    finds reach the limit of solutions. *)
Theorem C348_limits : forall h i n int rs cs w v p k lv ra, run h world0 = Ok v -> step (Gen i n int rs cs) v = Ok w ->
  nth_error (given [] h) i = Some (p, k, lv, ra) ->
  (solves i (w_log w) <= Nat.max (solves i (w_log v) + 1) (p_maxLS p))%nat /\
  (forall r s, rs = r ++ s -> r <> [] -> (p_maxSols p <= n + found r)%nat -> (solves i (w_log w) <= solves i (w_log v) + List.length r)%nat).
Proof.
  intros h i n int rs cs w v p k lv ra R E GI. pose proof (run_given h world0 v [] R eq_refl) as GV.
  destruct (inv_run h world0 v [] R inv0) as [(L & H & Z) C]. rewrite <- GV, nth_error_map in GI.
  cbn [step] in E. destruct (nth_error (w_gens v) i) as [g|] eqn:G; [|discriminate GI]. cbn in GI. injection GI as <- <- <- <-.
  destruct (H i g G) as [_ HN]. cbn [g_par g_kind g_leave g_reassign g_nLS g_begin g_cuts] in E.
  set (g1 := mkGen (g_par g) (g_kind g) (g_leave g) (g_reassign g) (g_nLS g) n (g_begin g) (g_cuts g)) in *.
  set (l := if int then w_log v else _) in E.
  assert (SL : solves i l = solves i (w_log v)).
  { unfold l. destruct int; [reflexivity|]. rewrite solves_app. cbn. lia. }
  destruct (int || _); [|injection E as <-; cbn [w_log]; split; [lia|intros; lia]].
  destruct (perform i rs cs g1 l) as [h1 m] eqn:P. injection E as <-. cbn [w_log].
  assert (ONE : solves i [Solved i] = 1%nat) by (unfold solves; cbn; rewrite Nat.eqb_refl; reflexivity).
  unfold perform in P.
  assert (RB : forall kk, rounds i rs (mkGen (g_par g1) kk (g_leave g1) (g_reassign g1) (S (g_nLS g1)) (g_sols g1) (g_begin g1) (g_cuts g1)) (l ++ [Solved i]) = (h1, m) ->
    (solves i m <= Nat.max (solves i (w_log v) + 1) (p_maxLS (g_par g)))%nat /\
    (forall r s, rs = r ++ s -> r <> [] -> (p_maxSols (g_par g) <= n + found r)%nat -> (solves i m <= solves i (w_log v) + List.length r)%nat)).
  { intros kk PP. match type of PP with rounds i rs ?gg ?ll = _ => destruct (rounds_bound rs i gg ll) as [A B] end.
    rewrite PP in A, B. cbn [snd g_par g_nLS g_sols g1] in A, B. rewrite solves_app, ONE, SL in A, B. split; [lia|].
    intros r s ER NE HH. specialize (B r s ER NE HH). destruct r; [congruence|]. cbn [List.length] in *. lia. }
  destruct (g_kind g1) eqn:KK.
  - exact (RB _ P).
  - exact (RB _ P).
  - apply checks_spec in P. destruct P as (_ & _ & e & -> & S0 & _). rewrite solves_app, S0, SL. split; [lia|intros; lia].
  - injection P as <- <-. rewrite SL. split; [lia|intros; lia].
Qed.
Print Assumptions C348_limits.
Example C348_ex : exists w,
  run ([New (pr 3) (KPump sb true) true false; Tick 2; Copy 0; Gen 1 0 false [true; false] []; Tick 2] ++ [Gen 1 1 false [] []]) world0 = Ok w /\
  map (fun e => match e with Asked _ _ b => b | _ => false end) (w_log w) = [true; false; false; false; true; false] /\ solves 1 (w_log w) = 4%nat.
Proof. eexists. split; [vm_compute; reflexivity|]. split; vm_compute; reflexivity. Qed.

(** ** C349 *)
Definition two (s : nat) : option sub := match s with O => Some sb | _ => None end.
Theorem C349_refuted : ~ C349_full.
Proof.
  intro H. specialize (H two 100%Z [HNew 0; HInit 0 1; HDel 0]). destruct H as (w & R & _).
  - vm_compute. repeat split; auto.
  - vm_compute in R. discriminate R.
Qed.
Print Assumptions C349_refuted.
(** Safe, without leaks and sharing, and each heuristic has the frequency and the sub-MIP the history gives it, if no
    initialisation of an existing heuristic throws. *)
Theorem C349_partial : forall of_setup often h, alive (can of_setup) 0 [] h -> inits_succeed (can of_setup) h ->
  exists w, hrun of_setup often h hworld0 = Ok w /\ sound w /\ map (does w) (hw_obj w) = plan of_setup often [] h.
Proof.
  intros f z h A I. destruct (hrun_safe f z h hworld0 0 [] A I K0 D0) as (w & R & KW & P).
  exists w. split; [exact R|]. split; [exact (K_sound w KW)|exact P].
Qed.
Print Assumptions C349_partial.
Example C349_ex : let h := [HNew 0; HNew 1; HCopy 0; HOften 1 7; HAssign 0 1; HInit 1 0; HDel 1; HAssign 0 0; HCopy 0] in
  alive (can two) 0 [] h /\ inits_succeed (can two) h /\ plan two 100 [] h = [Some (7%Z, sb); None; Some (7%Z, sb)].
Proof.
  cbv zeta. split; [|split; [|reflexivity]].
  - cbn. repeat split; lia.
  - intros i s H. cbn in H. repeat (destruct H as [H|H]; [try discriminate H; injection H as <- <-; reflexivity|]). destruct H.
Qed.

(** ** C350 *)
Definition ro : ropts := mkRo 1 (1 # 2) (7 # 10) (1 # 10) true 0 0 5 0 0 false 20.
Theorem C350_refuted : ~ C350_full.
Proof.
  intro H. destruct (H [RNew ro 10 []; RNew ro 20 []] _ eq_refl) as [_ A].
  destruct (A 0%nat 1%nat _ _ eq_refl eq_refl) as (c & C & _ & L & _). vm_compute in C. injection C as <-. discriminate L.
Qed.
Print Assumptions C350_refuted.
(** Options and pseudo-costs follow copies and assignments; the time limit, and the time from which it counts, those of the
    construction or copy only. *)
Theorem C350_partial : forall h w, rrun h rworld0 = Ok w ->
  map (fun r => (r_opt r, r_pc r)) (rw_rules w) = learnt [] h /\ map (fun r => (r_lim r, r_start r)) (rw_rules w) = limits 0 [] h /\
  (forall t i r, nth_error (rw_rules w) i = Some r ->
     exists l s, nth_error (limits 0 [] h) i = Some (l, s) /\ (hit t r = true <-> t - s > l)).
Proof.
  intros h w R. split; [exact (rrun_learnt h rworld0 w [] R eq_refl)|].
  pose proof (rrun_limits h rworld0 w [] R eq_refl) as L. cbn [rworld0 rw_now] in L. split; [exact L|].
  intros t i r G. exists (r_lim r), (r_start r). split; [rewrite <- L, nth_error_map, G; reflexivity|].
  unfold hit. rewrite Qltb_lt. reflexivity.
Qed.
Print Assumptions C350_partial.
Theorem C350_copy : forall h w i r w', rrun h rworld0 = Ok w -> nth_error (rw_rules w) i = Some r -> rstep (RCopy i) w = Ok w' ->
  exists c, nth_error (rw_rules w') (List.length (rw_rules w)) = Some c /\ like c r.
Proof.
  intros h w i r w' _ G E. cbn [rstep] in E. rewrite G in E. injection E as <-. cbn [rw_rules]. rewrite nth_last.
  eexists. split; [reflexivity|]. unfold like. cbn. rewrite ropts_copy_id. repeat split.
Qed.
Print Assumptions C350_copy.
Example C350_ex : exists w,
  rrun [RNew ro 10 []; RTick 3; RCopy 0; RLearn 0 [1]; RNew ro 20 []; RAssign 2 0] rworld0 = Ok w /\
  map (fun r => (r_lim r, r_pc r)) (rw_rules w) = [(10, [1]); (10, []); (20, [1])] /\ map (hit 12) (rw_rules w) = [true; false; false].
Proof. eexists. split; [vm_compute; reflexivity|]. split; vm_compute; reflexivity. Qed.
