(** Theorems about the parallel branch-and-bound driver (experimental/Bcp). *)
From Coq Require Import String Sorted.
From Verif Require Import Base Arr Bcp_Model Bcp_Spec Bcp_Proofs Bcp_Proofs2 Bcp_Proofs3 Bcp_Proofs4.
#[local] Open Scope Q_scope.

(** ** A concrete node, for the examples *)
Fixpoint ins (d : bool) (e : Q * nat) (l : list (Q * nat)) : list (Q * nat) :=
  match l with
  | [] => [e]
  | a :: r => if (if d then Qle_bool (fst a) (fst e) else Qle_bool (fst e) (fst a)) then e :: a :: r else a :: ins d e r
  end.
Definition isort (d : bool) (l : list (Q * nat)) : list (Q * nat) := fold_right (ins d) [] l.
Lemma ins_perm d e l : Permutation (e :: l) (ins d e l).
Proof.
  induction l as [|a l IH]; cbn [ins]; [reflexivity|]. destruct (if d then _ else _); [reflexivity|].
  rewrite perm_swap. apply perm_skip, IH.
Qed.
Lemma ins_sorted d e l : StronglySorted (at_least d) l -> StronglySorted (at_least d) (ins d e l).
Proof.
  induction 1 as [|a l St IH F]; cbn [ins]; [constructor; constructor|].
  destruct (if d then Qle_bool (fst a) (fst e) else Qle_bool (fst e) (fst a)) eqn:E.
  - constructor; [constructor; assumption|]. constructor.
    + unfold at_least. destruct d; apply Qle_bool_iff, E.
    + eapply Forall_impl; [|exact F]. intros x. unfold at_least. destruct d; apply Qle_bool_iff in E; intros; lra.
  - constructor; [exact IH|]. rewrite Forall_forall. intros x I. apply (Permutation_in _ (Permutation_sym (ins_perm d e l))) in I.
    destruct I as [<-|I]; [unfold at_least; destruct d; apply Qleb_gt in E; lra|rewrite Forall_forall in F; apply F, I].
Qed.
Lemma isort_ok : sorter isort.
Proof.
  intros d l. split.
  - induction l as [|a l IH]; cbn; [reflexivity|]. rewrite IH at 1. apply ins_perm.
  - induction l as [|a l IH]; cbn; [constructor|]. apply ins_sorted, IH.
Qed.
Definition good : status := {| ab := false; opt := true; pinf := false |}.
Definition lost : status := {| ab := true; opt := false; pinf := false |}.
Definition empty : status := {| ab := false; opt := false; pinf := true |}.
Definition quiet : status := {| ab := false; opt := false; pinf := false |}.
Definition params (root tree lev : Z) : ints :=
  fun k => match k with SBNumBranchesInRoot => Some root | SBNumBranchesInTree => Some tree | SBMaxLevel => Some lev | _ => default_entries k end.
(** Variables in columns 0, 1, ... *)
Definition node (prios : list Z) (sol lo up : list Q) (solve : list Q -> list Q -> ans) (ndebug : bool) (par : ints) (index : Z)
    (pids : nat) (old : option side) (net : list (nat * list ans) -> list (nat * list ans)) : site :=
  let objs := map (fun e => {| o_col := fst e; o_prio := snd e |}) (combine (seq 0 (List.length prios)) prios) in
  {| x_objs := objs; x_order := seq 0 (List.length prios); x_sol := sol; x_lo := lo; x_up := up; x_tol := 1 # 1000000;
     x_srt := isort; x_useful := fun _ v => v; x_disr := false; x_pseudo := false; x_decr := true; x_solve := solve;
     x_ndebug := ndebug; x_net := net; x_over := fun v => Qle_bool 10 v; x_maxmin := 1 # 2; x_val := 0;
     x_pref := fun _ => None; x_high := true; x_par := par; x_index := index; x_pids := pids;
     x_tab := map (fun o => {| r_col := o_col o; r_e0 := true; r_e1 := true; r_d0 := old; r_d1 := old |}) objs |}.
Ltac upto := intros [|[|[|[|i]]]] Li; cbn in Li; try (exfalso; lia).
Ltac node_wf :=
  constructor;
  [ apply Permutation_refl
  | repeat first [apply SSorted_nil | apply SSorted_cons | apply Forall_nil | apply Forall_cons]; vm_compute; congruence
  | discriminate
  | repeat first [apply NoDup_nil | apply NoDup_cons; [cbn; intuition discriminate|]]
  | repeat first [apply Forall_nil | apply Forall_cons; [vm_compute; lia|]]
  | reflexivity
  | exact isort_ok
  | intros l; first [apply Permutation_rev|apply Permutation_refl]
  | split; vm_compute; congruence
  | upto; split; first [exists 0%Z; reflexivity | exists 1%Z; reflexivity | exists 3%Z; reflexivity]
  | upto; repeat split; vm_compute; congruence
  | reflexivity
  | intros c H; vm_compute in H; injection H as <-; vm_compute; reflexivity ].
Definition easy (l u : list Q) : ans := (good, 1 + nth 0 l 0 + (3 - nth 0 u 0)).
(** Three variables, the second one fixed at an integral value within wide
    bounds; two other processes. *)
Definition node1 : site := node [1; 1; 2]%Z [1 # 2; 2; 7 # 4] [0; 0; 0] [3; 3; 3] easy true (params 4 4 10) 0 2 None (fun l => rev l).
Lemma node1_wf : well_formed node1. Proof. node_wf. Qed.

(** ** C218 *)
Theorem C218_lists : forall s, well_formed s -> exists c, candidates s = Ok c /\ the_lists s c.
Proof.
  intros s W. destruct (candidates_eq s W) as (i0 & r & t & _ & _ & _ & E). eexists. split; [exact E|]. apply lists_ok; assumption.
Qed.
Print Assumptions C218_lists.
Example C218_lists_ex : exists c, candidates node1 = Ok c /\ c_inf c = [0; 2]%nat /\ c_feas c = [1]%nat /\ c_num c = 6%Z.
Proof. eexists. vm_compute. repeat split. Qed.
(** A feasible candidate enters a level before an infeasible one. *)
Definition node2 : site := node [1; 2; 2]%Z [1 # 5; 2; 7 # 4] [0; 0; 0] [3; 3; 3] easy true (params 4 4 10) 0 0 None (fun l => rev l).
Lemma node2_wf : well_formed node2. Proof. node_wf. Qed.
Theorem C218_refuted : ~ C218_full.
Proof.
  intros H. destruct (H node2 node2_wf eq_refl) as (c & E & _ & S & _).
  assert (E' : exists c', candidates node2 = Ok c' /\ c_inf c' = [2; 0]%nat) by (eexists; split; vm_compute; reflexivity).
  destruct E' as (c' & E' & I). rewrite E in E'. injection E' as <-. rewrite I in S. inversion S as [|? ? _ F]; subst.
  inversion F as [|? ? [G|[G _]] _]; subst; vm_compute in G; discriminate.
Qed.
Print Assumptions C218_refuted.
(** The infeasible candidates are in the order of priorities, then usefulness,
    when no level is entered by a feasible one. *)
Theorem C218_partial : forall s c, well_formed s -> x_disr s = false ->
  (forall i0, hd_error (x_order s) = Some i0 -> never_first s (prio s i0) (x_order s)) ->
  candidates s = Ok c -> StronglySorted (by_prio s (inf_use s)) (c_inf c).
Proof. intros s c W D N E. apply inf_sorted; assumption. Qed.
Print Assumptions C218_partial.
Example C218_partial_ex : (forall i0, hd_error (x_order node1) = Some i0 -> never_first node1 (prio node1 i0) (x_order node1)) /\
  exists c, candidates node1 = Ok c /\ StronglySorted (by_prio node1 (inf_use node1)) (c_inf c).
Proof.
  assert (N : forall i0, hd_error (x_order node1) = Some i0 -> never_first node1 (prio node1 i0) (x_order node1)).
  { intros i0 E. injection E as <-. cbn [x_order node1 node seq List.length never_first].
    assert (F0 : fractional node1 0) by reflexivity. assert (F1 : ~ fractional node1 1) by (intros G; vm_compute in G; discriminate).
    assert (F2 : fractional node1 2) by reflexivity.
    split; [intros _|intros G; contradiction]. split; [intros G; contradiction|intros _]. split; [intros _; vm_compute; congruence|].
    split; [intros _; exact Logic.I|intros G; contradiction]. }
  split; [exact N|]. destruct (C218_lists node1 node1_wf) as (c & E & _). exists c. split; [exact E|].
  apply (C218_partial node1 c node1_wf eq_refl N E).
Qed.
(** The feasible ones are in the order of usefulness alone, whatever the priorities. *)
Theorem C218_feasible_partial : forall s c, well_formed s -> candidates s = Ok c ->
  StronglySorted (by_use (x_decr s) (feas_use s)) (c_feas c).
Proof. intros s c W E. apply feas_sorted; assumption. Qed.
Print Assumptions C218_feasible_partial.
(** And so are the infeasible ones when the priorities are to be left out of account. *)
Theorem C218_disregarded_partial : forall s c, well_formed s -> x_disr s = true -> candidates s = Ok c ->
  StronglySorted (by_use (x_decr s) (inf_use s)) (c_inf c).
Proof. intros s c W D E. apply inf_sorted_disr; assumption. Qed.
Print Assumptions C218_disregarded_partial.

(** ** C219 *)
Theorem C219_branches : forall s c, well_formed s -> candidates s = Ok c -> C219_spec s c.
Proof. intros s c W E. apply C219_ok; assumption. Qed.
Print Assumptions C219_branches.
(** The array of branches is filled to its end. *)
Theorem C219_filled : forall s c n, well_formed s -> candidates s = Ok c -> (n <= Z.to_nat (c_num c))%nat ->
  collect (x_objs s) (x_sol s) (x_lo s) (x_up s) n (c_inf c) (c_feas c) = map Some (firstn n (branches s c)) /\
  List.length (firstn n (branches s c)) = n.
Proof.
  intros s c n W E L. rewrite <- (num_len s W c E) in L. split; [apply collect_full; assumption|]. rewrite firstn_length. lia.
Qed.
Print Assumptions C219_filled.
Example C219_ex : exists c, candidates node1 = Ok c /\
  map (fun b => (b_obj b, b_up b, Qred (b_bd b))) (branches node1 c) =
  [(0%nat, false, 0); (0%nat, true, 1); (2%nat, false, 1); (2%nat, true, 2); (1%nat, false, 1); (1%nat, true, 3)].
Proof. eexists. split; vm_compute; reflexivity. Qed.

(** ** C220 *)
Theorem C220_solved : forall solve l u bs, solve_branches solve l u bs = (map (answer solve l u) bs, (l, u)).
Proof. exact solve_branches_eq. Qed.
Print Assumptions C220_solved.
Example C220_ex : solve_branches easy [0; 0] [3; 3]
    [{| b_up := true; b_obj := 0; b_col := 0; b_val := 1 # 2; b_bd := 1 |}; {| b_up := false; b_obj := 1; b_col := 1; b_val := 1 # 2; b_bd := 0 |}]
  = ([(good, 2); (good, 1)], ([0; 0], [3; 3])).
Proof. vm_compute. reflexivity. Qed.

(** ** C221 *)
Definition node3 : site := node [1]%Z [1 # 2] [0] [1] easy false (params 4 4 10) 0 1 None (fun l => rev l).
Lemma node3_wf : well_formed node3. Proof. node_wf. Qed.
Theorem C221_refuted : ~ C221_full.
Proof.
  intros H. assert (E : exists c, candidates node3 = Ok c /\ c_num c = 2%Z /\ evaluate node3 2 (c_inf c) (c_feas c) = AssertFail)
    by (eexists; split; [|split]; vm_compute; reflexivity).
  destruct E as (c & E & N & A). destruct (H node3 c 2%nat node3_wf E) as (un & G); [rewrite N; cbn; lia|]. rewrite A in G. discriminate.
Qed.
Print Assumptions C221_refuted.
(** Exactly when: assertions are on, others help, and there are as many branches
    as processes.  Otherwise the results are those of one process, in whatever
    order the replies arrive. *)
Theorem C221_partial : forall s c n, well_formed s -> candidates s = Ok c -> (0 < n <= Z.to_nat (c_num c))%nat ->
  (x_ndebug s = false /\ (0 < x_pids s)%nat /\ (x_pids s + 1 <= n)%nat /\ evaluate s n (c_inf c) (c_feas c) = AssertFail) \/
  ((x_ndebug s = true \/ x_pids s = 0%nat \/ (n < x_pids s + 1)%nat) /\
   exists un, evaluate s n (c_inf c) (c_feas c) = Ok (one_process s n c, un)).
Proof.
  intros s c n W E L. destruct (evaluate_eq s W c E n L) as [G|(G & un & A & _)]; [left; exact G|right]. split; [exact G|exists un; exact A].
Qed.
Print Assumptions C221_partial.
Example C221_partial_ex : exists c, candidates node1 = Ok c /\ x_pids node1 = 2%nat /\
  evaluate node1 4 (c_inf c) (c_feas c) = Ok (one_process node1 4 c, []) /\
  map (fun r => (r_e0 r, r_e1 r)) (one_process node1 4 c) = [(true, true); (false, false); (true, true)].
Proof. eexists. split; [|split; [|split]]; vm_compute; reflexivity. Qed.
(** What the table holds. *)
Theorem C221_table_partial : forall s c n tab un, well_formed s -> candidates s = Ok c -> (0 < n <= Z.to_nat (c_num c))%nat ->
  evaluate s n (c_inf c) (c_feas c) = Ok (tab, un) -> table_of s (firstn n (branches s c)) tab.
Proof.
  intros s c n tab un W E L H. destruct (evaluate_eq s W c E n L) as [(_ & _ & _ & G)|(_ & un' & G & _)]; rewrite G in H; [discriminate|].
  injection H as <- _. split.
  - intros b I. pose proof (one_set s W c E n b I) as K.
    assert (V : b_val b = value s (b_obj b)).
    { assert (J : In b (branches s c)) by (rewrite <- (firstn_skipn n (branches s c)); apply in_app_iff; left; exact I).
      apply in_branches in J. destruct J as [(i & _ & J)|(i & _ & J)].
      - apply ibr_in in J. destruct J as (-> & _ & -> & _). reflexivity.
      - apply fbr_in in J. destruct J as (-> & _ & -> & _). reflexivity. }
    cbn zeta. unfold result_of. rewrite <- V. destruct (b_up b); cbn [gs] in K; injection K as K1 K2; (split; [exact K1|exact K2]).
  - intros i Li. split; intros K.
    + destruct (one_get s W c E n i false Li K) as (b & I & A & B & _). exists b. auto.
    + destruct (one_get s W c E n i true Li K) as (b & I & A & B & _). exists b. auto.
Qed.
Print Assumptions C221_table_partial.
(** The shares of the other processes differ by one at most, and none is left to
    the process that asks. *)
Theorem C221_shares_partial : forall p n, (0 < p)%nat -> exists ns, chunks p n = (ns, 0%nat) /\ List.length ns = p /\
  fold_right Nat.add 0%nat ns = n /\ Forall (fun m => m = (n / p)%nat \/ m = S (n / p)) ns.
Proof.
  intros p n L. destruct (chunks_all p n L) as (ns & A & T & Ln & F & _). exists ns. split; [exact A|]. split; [exact Ln|]. split; [|exact F].
  rewrite <- T. clear. induction ns as [|x r IH]; [reflexivity|]. cbn [fold_right total]. rewrite IH. reflexivity.
Qed.
Print Assumptions C221_shares_partial.
Example C221_shares_ex : chunks 3 8 = ([3; 3; 2]%nat, 0%nat). Proof. reflexivity. Qed.

(** ** C222 *)
Definition node4 : site := node [1; 1]%Z [1 # 2; 5 # 2] [0; 0] [3; 3] easy false (params 2 2 10) 0 3 None (fun l => l).
Lemma node4_wf : well_formed node4. Proof. node_wf. Qed.
Theorem C222_refuted : ~ C222_full.
Proof.
  intros H. assert (E : exists c tab, candidates node4 = Ok c /\ c_num c = 4%Z /\ evaluate node4 2 (c_inf c) (c_feas c) = Ok (tab, [(2%nat, [])]))
    by (eexists; eexists; split; [|split]; vm_compute; reflexivity).
  destruct E as (c & tab & E & N & A). assert (G : [(2%nat, @nil ans)] = []) by (apply (H node4 c 2%nat tab _ node4_wf E); [rewrite N; cbn; lia|exact A]).
  discriminate.
Qed.
Print Assumptions C222_refuted.
(** With at least one branch for each process nothing is left; otherwise only
    replies without a result. *)
Theorem C222_partial : forall s c n tab un, well_formed s -> candidates s = Ok c -> (0 < n <= Z.to_nat (c_num c))%nat ->
  evaluate s n (c_inf c) (c_feas c) = Ok (tab, un) -> ((x_pids s <= n)%nat -> un = []) /\ Forall (fun m => snd m = []) un.
Proof.
  intros s c n tab un W E L H. destruct (evaluate_eq s W c E n L) as [(_ & _ & _ & G)|(_ & un' & G & A)]; rewrite G in H; [discriminate|].
  injection H as <- <-. exact A.
Qed.
Print Assumptions C222_partial.
Example C222_partial_ex : exists c tab, candidates node1 = Ok c /\ (x_pids node1 <= 4)%nat /\ evaluate node1 4 (c_inf c) (c_feas c) = Ok (tab, []).
Proof. eexists. eexists. split; [vm_compute; reflexivity|split; [vm_compute; lia|vm_compute; reflexivity]]. Qed.

(** ** C223 *)
(** One variable at 1/2; its up side is said to be infeasible by an earlier node. *)
Definition node5 (ndebug : bool) : site := node [1]%Z [1 # 2] [0] [1] (fun _ _ => (good, 0)) ndebug (params 1 1 10) 3 0
  (Some {| d_st := empty; d_val := 0; d_chg := 1 |}) (fun l => l).
Lemma node5_wf b : well_formed (node5 b). Proof. destruct b; node_wf. Qed.
Theorem C223_refuted : ~ C223_full.
Proof.
  intros H.
  assert (T : truthful (node5 true) (fun x => x = [1]) (fun _ => 6)).
  { constructor.
    - intros l u st v E. injection E as <- <-. discriminate.
    - intros l u st v E _ x _ _. injection E as <- <-. vm_compute. congruence.
    - intros [|i] x Li Fx; [|cbn in Li; lia]. rewrite Fx. exists 1%Z. reflexivity.
    - intros a b L A. apply Qle_bool_iff in A. apply Qle_bool_iff. lra. }
  assert (E : branch_at_node (node5 true) = Ok (BResolve [0] [0])) by (vm_compute; reflexivity).
  specialize (H _ _ _ _ (node5_wf true) T E [1] eq_refl). cbn [nothing_lost] in H.
  destruct H as [_ H]; [|reflexivity|].
  - split; [reflexivity|]. intros [|c] L; [split; vm_compute; congruence|cbn in L; lia].
  - destruct (H 0%nat) as [_ G]; [cbn; lia|]. vm_compute in G. congruence.
Qed.
Print Assumptions C223_refuted.
(** No better solution is lost when assertions are on, or when no candidate is
    evaluated on one side only. *)
Theorem C223_partial : forall s F f t, well_formed s -> truthful s F f ->
  (x_ndebug s = false \/ forall c n, candidates s = Ok c -> asked s (c_num c) = Ok n -> (0 < n)%Z -> paired c (Z.to_nat n)) ->
  branch_at_node s = Ok t -> nothing_lost s F f t.
Proof. intros s F f t W. apply node_sound. exact W. Qed.
Print Assumptions C223_partial.
(** The up side of the second of two variables is infeasible: solved again with a smaller box. *)
Definition hard (l u : list Q) : ans := if Qle_bool 3 (nth 1 l 0) then (empty, 0) else (good, 1).
Definition node6 : site := node [1; 1]%Z [1 # 2; 5 # 2] [0; 0] [3; 3] hard false (params 4 4 10) 0 0 None (fun l => l).
Lemma node6_wf : well_formed node6. Proof. node_wf. Qed.
Definition feas6 (x : list Q) : Prop := x = [0; 2] \/ x = [1; 1].
Lemma node6_truthful : truthful node6 feas6 (fun _ => 6).
Proof.
  constructor.
  - intros l u st v E P x [-> | ->] [Lx Bx]; cbn in E; unfold hard in E; destruct (Qle_bool 3 (nth 1 l 0)) eqn:G; injection E as <- <-; try discriminate;
      apply Qle_bool_iff in G; cbn [List.length] in Lx; specialize (Bx 1%nat ltac:(lia)); cbn [nth] in Bx; lra.
  - intros l u st v E P x Fx _. cbn in E. unfold hard in E. destruct (Qle_bool 3 (nth 1 l 0)); injection E as <- <-; vm_compute; congruence.
  - intros [|[|i]] x Li [-> | ->]; try (cbn in Li; lia); [exists 0%Z|exists 1%Z|exists 2%Z|exists 1%Z]; reflexivity.
  - intros a b L A. apply Qle_bool_iff in A. apply Qle_bool_iff. lra.
Qed.
Example C223_partial_ex : branch_at_node node6 = Ok (BResolve [0; 0] [3; 2]) /\ nothing_lost node6 feas6 (fun _ => 6) (BResolve [0; 0] [3; 2]).
Proof.
  assert (E : branch_at_node node6 = Ok (BResolve [0; 0] [3; 2])) by (vm_compute; reflexivity). split; [exact E|].
  apply (C223_partial node6 feas6 (fun _ => 6) _ node6_wf node6_truthful (or_introl eq_refl) E).
Qed.

(** ** C224 *)
Theorem C224_refuted : ~ C224_full.
Proof.
  intros H. destruct (H (node5 false) (node5_wf false) eq_refl) as (t & E); [cbn; discriminate|cbn; discriminate|cbn; discriminate| |].
  - eexists. split; [vm_compute; reflexivity|]. vm_compute. discriminate.
  - assert (G : branch_at_node (node5 false) = AssertFail) by (vm_compute; reflexivity). rewrite G in E. discriminate.
Qed.
Print Assumptions C224_refuted.
Theorem C224_partial : forall s c n, well_formed s -> candidates s = Ok c -> c_inf c <> [] -> asked s (c_num c) = Ok n ->
  (x_ndebug s = true \/ x_pids s = 0%nat \/ (Z.to_nat n < x_pids s + 1)%nat) -> paired c (Z.to_nat n) ->
  (never_abandons s \/ (2 * List.length (c_inf c) <= Z.to_nat n)%nat) -> exists t, branch_at_node s = Ok t.
Proof. intros s c n W. apply node_runs. exact W. Qed.
Print Assumptions C224_partial.
Example C224_partial_ex : exists c, candidates node6 = Ok c /\ c_inf c <> [] /\ asked node6 (c_num c) = Ok 4%Z /\ x_pids node6 = 0%nat /\
  paired c 4 /\ (2 * List.length (c_inf c) <= 4)%nat.
Proof. eexists. split; [vm_compute; reflexivity|]. split; [vm_compute; discriminate|]. split; [vm_compute; reflexivity|]. split; [reflexivity|]. split; [left; reflexivity|vm_compute; lia]. Qed.

(** ** C225 *)
Theorem C225_refuted : ~ C225_full.
Proof. intros H. destruct (H SBMaxLevel) as [_ G]. apply G. reflexivity. Qed.
Print Assumptions C225_refuted.
(** The three parameters without which no branching is possible are never written. *)
Theorem C225_missing_partial : forall file k, In k [SBNumBranchesInRoot; SBNumBranchesInTree; SBMaxLevel] ->
  entry (read_par file default_entries) k = Uninit.
Proof.
  assert (G : forall file P k, In k [SBNumBranchesInRoot; SBNumBranchesInTree; SBMaxLevel] -> P k = None -> read_par file P k = None).
  { induction file as [|[w v] file IH]; intros P k I N; [exact N|]. cbn [read_par]. apply IH; [exact I|].
    destruct (find _ keywords) as [[w' k']|] eqn:F; [|exact N]. apply find_some in F. destruct F as [F _]. unfold set_entry.
    destruct (ipar_eqb k k') eqn:Ek; [|exact N]. exfalso.
    destruct I as [<-|[<-|[<-|[]]]]; destruct F as [F|[F|[F|[F|[]]]]]; injection F as <- <-; discriminate. }
  intros file k I. unfold entry. rewrite G; [reflexivity|exact I|]. destruct I as [<-|[<-|[<-|[]]]]; reflexivity.
Qed.
Print Assumptions C225_missing_partial.
(** So with the parameters of a run branching never comes to an end. *)
Theorem C225_no_branching_partial : forall s file c, well_formed s -> x_par s = read_par file default_entries -> candidates s = Ok c -> c_inf c <> [] ->
  branch_at_node s = Uninit.
Proof.
  intros s file c W E C N. unfold branch_at_node, bbBranch, try_to_branch. fold (candidates s). rewrite C. cbn [bind].
  destruct (c_inf c) as [|i0 r0]; [congruence|]. unfold how_many. rewrite E.
  destruct (Z.eqb _ _); rewrite C225_missing_partial; cbn; auto.
Qed.
Print Assumptions C225_no_branching_partial.
Theorem C225_partial : forall k, In k [UsePseudoCosts; DecreasingSort; PreferHigh; NumNlpFailureMax] -> settable k /\ default_entries k <> None.
Proof.
  intros k [<-|[<-|[<-|[<-|[]]]]]; (split; [|discriminate]).
  - exists "BM_UsePseudoCosts"%string. reflexivity.
  - exists "BM_DecreasingSortInSetupList"%string. reflexivity.
  - exists "BM_PreferHighCombinationInBranching"%string. reflexivity.
  - exists "BM_NumNlpFailureMax"%string. reflexivity.
Qed.
Print Assumptions C225_partial.

(** ** C226 *)
Theorem C226_decision : forall sol ndebug over maxmin nodeval pref high inf feas tab l u d lu, inf <> [] ->
  process_SB_results sol ndebug over maxmin nodeval pref high inf feas tab l u = Ok (d, lu) ->
  C226_spec over maxmin nodeval pref high tab inf d.
Proof. intros. eapply decision_ok; eassumption. Qed.
Print Assumptions C226_decision.
Definition mk (a b : Q) : sbres := {| r_col := 0; r_e0 := true; r_e1 := true; r_d0 := Some {| d_st := good; d_val := a; d_chg := 1 |}; r_d1 := Some {| d_st := good; d_val := b; d_chg := 1 |} |}.
Example C226_ex : process_SB_results [1 # 2] false (fun v => Qle_bool 10 v) (1 # 2) 0 (fun _ => None) true [0; 1; 2]%nat [] [mk 1 2; mk 2 3; mk 4 1] [0] [1]
  = Ok (DBranch 1 false false, ([0], [1])).
Proof. vm_compute. reflexivity. Qed.

(** ** C227 *)
Definition node7 : site := node [1; 1]%Z [1 # 2; 5 # 4] [0; 0] [3; 3] (fun _ _ => (lost, 0)) false (params 2 2 10) 3 0
  (Some {| d_st := good; d_val := 77; d_chg := 1 |}) (fun l => l).
Lemma node7_wf : well_formed node7. Proof. node_wf. Qed.
Theorem C227_refuted : ~ C227_full.
Proof.
  intros H. assert (E : branch_at_node node7 = Ok (BBranch 1 true [0; 0] [3; 3] [(good, 77); (good, 77)])) by (vm_compute; reflexivity).
  destruct (H _ _ node7_wf eq_refl E) as (p & q & Ep & A & _). injection Ep as <- <-. vm_compute in A. discriminate.
Qed.
Print Assumptions C227_refuted.
Theorem C227_partial : forall s t, well_formed s -> x_ndebug s = false -> never_abandons s -> branch_at_node s = Ok t ->
  match t with
  | BBranch i w _ _ pre => exists p q, pre = [p; q] /\ of_this_node s i w p /\ of_this_node s i (negb w) q
  | _ => True
  end.
Proof. intros s t W. apply node_values. exact W. Qed.
Print Assumptions C227_partial.
Definition node8 : site := node [1; 1]%Z [1 # 2; 5 # 2] [0; 0] [3; 3] easy false (params 2 2 10) 3 0 None (fun l => l).
Lemma node8_wf : well_formed node8. Proof. node_wf. Qed.
Example C227_partial_ex : never_abandons node8 /\ exists l u p q, branch_at_node node8 = Ok (BBranch 0 true l u [p; q]) /\ of_this_node node8 0 true p /\ of_this_node node8 0 false q.
Proof.
  assert (N : never_abandons node8) by (intros l u; reflexivity). split; [exact N|].
  assert (E : exists l u p q, branch_at_node node8 = Ok (BBranch 0 true l u [p; q])) by (do 4 eexists; vm_compute; reflexivity).
  destruct E as (l & u & p & q & E). exists l, u, p, q. split; [exact E|].
  destruct (C227_partial node8 _ node8_wf eq_refl N E) as (p' & q' & Ep & A & B). injection Ep as -> ->. split; assumption.
Qed.

(** ** C228 *)
Theorem C228_failures : forall max procs es, (0 < max)%Z -> C228_spec max (reach max procs es).
Proof. exact reach_ok. Qed.
Print Assumptions C228_failures.
Example C228_ex : reach 2 2 [Grab 0 0; Solved 0 true; Split 0; Grab 1 0; Solved 1 true; Grab 0 0; Solved 0 false] =
  {| w_open := []; w_busy := [Some (0%Z, [false; true]); None]; w_gone := [[true; true]] |}.
Proof. vm_compute. reflexivity. Qed.

(** ** C229 *)
Lemma quiet_none cutoff nodeval d w : worth cutoff nodeval (Some d) true w -> ab (d_st d) = false -> opt (d_st d) = false -> pinf (d_st d) = false ->
  w = None.
Proof. intros H A B C. inversion H; congruence. Qed.
Theorem C229_refuted : ~ C229_full.
Proof.
  intros H. set (tab := [{| r_col := 0; r_e0 := true; r_e1 := false; r_d0 := Some {| d_st := quiet; d_val := 0; d_chg := 1 |}; r_d1 := None |}]).
  set (p := {| up_tot := [0]; up_num := [0%Z]; down_tot := [0]; down_num := [0%Z] |}).
  destruct (H 10 1 tab p) as (m & p' & E1 & E2 & _ & A).
  - constructor; [|constructor]. split; [intros _; eexists; split; [reflexivity|reflexivity]|discriminate].
  - repeat split.
  - constructor; [|constructor]. intros d [G|G]; [injection G as <-; repeat split|discriminate].
  - assert (G : exists m', send_pseudo_cost_update 10 1 tab = Ok m' /\ exists p'', tm_process_message m' p = Ok p'' /\ nth 0 (down_num p'') 0%Z = 1%Z).
    { eexists. split; [vm_compute; reflexivity|]. eexists. split; vm_compute; reflexivity. }
    destruct G as (m' & G1 & p'' & G2 & G3). rewrite E1 in G1. injection G1 as <-. rewrite E2 in G2. injection G2 as <-.
    destruct (A 0%nat ltac:(cbn; lia)) as [(w & Wo & Mv) _]. rewrite G3 in Mv. apply quiet_none in Wo; [|reflexivity|reflexivity|reflexivity].
    rewrite Wo in Mv. destruct Mv as [_ Mv]. discriminate Mv.
Qed.
Print Assumptions C229_refuted.
Theorem C229_partial : forall cutoff nodeval tab p, stored tab -> same_size (List.length tab) p ->
  Forall (fun r => forall d, r_d0 r = Some d \/ r_d1 r = Some d -> one_bit (d_st d)) tab -> decided tab ->
  exists m p', send_pseudo_cost_update cutoff nodeval tab = Ok m /\ tm_process_message m p = Ok p' /\ accounted cutoff nodeval tab p p'.
Proof.
  intros cutoff nodeval tab p St SS OB De. destruct (transfer_ok cutoff nodeval tab p St SS) as (m & p' & E1 & E2 & SS' & Mv).
  exists m, p'. split; [exact E1|]. split; [exact E2|]. split; [exact SS'|]. intros i L. cbn zeta.
  assert (I : In (nth i tab dres) tab) by (apply nth_In; exact L). unfold stored, decided in *. rewrite Forall_forall in St, OB, De.
  destruct (St _ I) as [S0 S1]. specialize (OB _ I). destruct (De _ I) as [D0 D1]. destruct (Mv i L) as [M0 M1].
  split; eexists; (split; [|eassumption]); apply sent_worth; auto.
Qed.
Print Assumptions C229_partial.
Example C229_partial_ex : exists m p', send_pseudo_cost_update 10 1 [mk 3 5] = Ok m /\
  tm_process_message m {| up_tot := [1]; up_num := [1%Z]; down_tot := [0]; down_num := [0%Z] |} = Ok p' /\
  down_num p' = [1%Z] /\ up_num p' = [2%Z] /\ map Qred (down_tot p') = [2] /\ map Qred (up_tot p') = [5].
Proof. eexists. eexists. split; [vm_compute; reflexivity|]. split; [vm_compute; reflexivity|]. vm_compute. repeat split. Qed.

(** ** C230 *)
Theorem C230_node_data : forall p q n rest k, same_size k p -> same_size k q ->
  unpack_user_data (Some p) true (pack_user_data (Some q) n ++ rest) = Ok (n, Some q, rest) /\
  unpack_user_data None true (pack_user_data None n ++ rest) = Ok (n, None, rest).
Proof.
  intros p q n rest k (P1 & P2 & P3 & P4) (Q1 & Q2 & Q3 & Q4). split; [|reflexivity].
  cbn [pack_user_data app unpack_user_data]. rewrite !into_same by congruence. cbn [bind]. destruct q; reflexivity.
Qed.
Print Assumptions C230_node_data.
Example C230_ex : exists p q, same_size 2 p /\ same_size 2 q /\ p <> q /\
  unpack_user_data (Some p) true (pack_user_data (Some q) 3) = Ok (3%Z, Some q, []).
Proof.
  exists {| up_tot := [0; 0]; up_num := [0; 0]%Z; down_tot := [0; 0]; down_num := [0; 0]%Z |},
         {| up_tot := [1; 2]; up_num := [1; 1]%Z; down_tot := [3; 0]; down_num := [1; 0]%Z |}.
  repeat split. discriminate.
Qed.
(** Without a BonChooseVariable a process cannot read what the tree manager sends. *)
Theorem C230_no_chooser : forall p q n rest, unpack_user_data (Some p) false (pack_user_data (Some q) n ++ rest) = NullDeref.
Proof. reflexivity. Qed.
Print Assumptions C230_no_chooser.

(** ** C231 *)
Theorem C231_refuted : ~ C231_full.
Proof.
  intros H. specialize (H (fun _ => false) (1 # 10) [-(3)] 0%nat). assert (G : Qabs (0 - -(3)) <= 1 # 10); [|vm_compute in G; congruence].
  apply H; [split; reflexivity|cbn; lia|intros j E; discriminate].
Qed.
Print Assumptions C231_refuted.
Theorem C231_partial : forall isint tol x i, 0 < tol < 1 # 2 -> (i < List.length x)%nat ->
  (isint i = true -> exists k, integral k /\ Qabs (nth i x 0 - k) <= tol) -> - tol <= nth i x 0 ->
  Qabs (nth i (written isint (List.length x) (hybrid_entries tol x)) 0 - nth i x 0) <= tol.
Proof. exact written_ok. Qed.
Print Assumptions C231_partial.
Example C231_partial_ex : map Qred (written (fun i => Nat.eqb i 0) 3 (hybrid_entries (1 # 1000) [2999999 # 1000000; 1 # 2; 1 # 10000])) = [3; 1 # 2; 0].
Proof. vm_compute. reflexivity. Qed.

(** ** C232 *)
Theorem C232_refuted : ~ C232_full.
Proof.
  intros [_ H]. specialize (H ((3 # 2) * gap, 3%Z) ((3 # 4) * gap, 2%Z) (0, 1%Z) eq_refl eq_refl). vm_compute in H. discriminate.
Qed.
Print Assumptions C232_refuted.
Theorem C232_partial :
  (forall x, before x x = false) /\ (forall x y, before x y = true -> before y x = false) /\
  (forall x y, fst x < fst y - gap -> before x y = true) /\
  (forall x y, fst y - gap <= fst x <= fst y + gap -> before x y = Z.ltb (snd y) (snd x)) /\
  (forall x y z, snd x = snd y -> snd y = snd z -> before x y = true -> before y z = true -> before x z = true).
Proof.
  assert (G0 : 0 < gap) by reflexivity. split; [|split; [|split; [|split]]].
  - intros x. destruct (before x x) eqn:E; [|reflexivity]. apply before_iff in E. destruct E as [E|[_ E]]; [lra|lia].
  - intros x y E. destruct (before y x) eqn:G; [|reflexivity]. apply before_iff in E. apply before_iff in G.
    destruct E as [E|[E1 E2]], G as [G|[G1 G2]]; try lra. lia.
  - intros x y E. apply before_iff. left. exact E.
  - intros x y [E1 E2]. unfold before. assert (Qltb (fst x) (fst y - gap) = false) as -> by (apply Qltb_ge; exact E1).
    assert (Qle_bool (fst x) (fst y + gap) = true) as -> by (apply Qle_bool_iff; exact E2). reflexivity.
  - intros x y z E1 E2 A B. apply before_iff in A. apply before_iff in B. apply before_iff. left. destruct A as [A|[_ A]], B as [B|[_ B]]; [lra|lia|lia|lia].
Qed.
Print Assumptions C232_partial.
Example C232_partial_ex : before (1, 2%Z) (2, 3%Z) = true /\ before (1, 4%Z) (1, 3%Z) = true. Proof. split; reflexivity. Qed.

(** ** C233 *)
Theorem C233_refuted : ~ C233_full.
Proof. intros H. destruct (H false 0 0) as (b & E & _). discriminate. Qed.
Print Assumptions C233_refuted.
Theorem C233_partial : forall objval old, exists b, compute_lower_bound true objval old = Ok b /\ old <= b /\ objval <= b /\ (b = old \/ b = objval).
Proof.
  intros objval old. exists (qmax objval old). split; [reflexivity|]. unfold qmax. destruct (Qltb objval old) eqn:E.
  - apply Qltb_lt in E. split; [lra|]. split; [lra|auto].
  - apply Qltb_ge in E. split; [lra|]. split; [lra|auto].
Qed.
Print Assumptions C233_partial.
Example C233_partial_ex : compute_lower_bound true 2 5 = Ok 5. Proof. reflexivity. Qed.

(** ** C234 *)
Theorem C234_smaller : forall s l u, well_formed s -> branch_at_node s = Ok (BResolve l u) -> smaller s l u.
Proof. intros s l u W. apply node_resolves. exact W. Qed.
Print Assumptions C234_smaller.
Example C234_ex : branch_at_node node6 = Ok (BResolve [0; 0] [3; 2]) /\ smaller node6 [0; 0] [3; 2].
Proof.
  assert (E : branch_at_node node6 = Ok (BResolve [0; 0] [3; 2])) by (vm_compute; reflexivity). split; [exact E|].
  apply (C234_smaller _ _ _ node6_wf E).
Qed.
