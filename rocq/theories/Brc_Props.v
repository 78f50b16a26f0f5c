(** Property theorems for branching: C36-C39, C45, C76-C81. *)
From Verif Require Import Base Arr Itf_Model Oad_Model Brc_Model Brc_Spec Brc_Proofs Brc_Proofs2 Brc_Proofs3 Brc_Proofs4.
#[local] Open Scope Q_scope.

(** ** C36 *)
Definition ex_obj (f : Q) (p : Z) : bobj := {| o_inf := f; o_prio := p; o_up := f; o_dn := f |}.
Definition ex_opts (c : crit) (k : nat) (f : Q) : sopts := {| s_crit := c; s_W := 1 # 2; s_trust := 8; s_strong := k; s_root := k; s_frac := f |}.
Definition ex_pc : pcosts := {| p_ut := [100; 1; 1]; p_un := [1%nat; 1%nat; 1%nat]; p_dt := [100; 1; 1]; p_dn := [1%nat; 1%nat; 1%nat] |}.
Lemma ex_pre q os : os <> [] -> length os = 3%nat -> 0 <= s_frac q <= 1 -> Forall (fun o => 0 <= o_inf o) os -> Forall (fun o => (o_prio o <= 2147483647)%Z) os ->
  setup_pre inssort q 3 ex_pc os.
Proof. intros N L F I P. constructor; try assumption; [exact inssort_ok|lia|]. repeat split. Qed.
Ltac objs := repeat (constructor; [cbn; first [lia|lra|discriminate]|]); constructor.
Lemma not_hopeless os : Forall (fun o => o_inf o < inject_Z (10 ^ 50)) os -> ~ hopeless os.
Proof. intros H (o & I & G). rewrite Forall_forall in H. specialize (H o I). cbn beta in H. lra. Qed.
(** With two unsatisfied objects and room for one candidate, the object with the larger infeasibility
    is forced on the list twice and the other one is lost. *)
Theorem C36_refuted : ~ C36_full.
Proof.
  intros H. set (os := [ex_obj (1 # 4) 0; ex_obj (1 # 2) 0; ex_obj 0 0]). set (q := ex_opts DecrPs 1 1).
  destruct (H inssort q 3%nat ex_pc os) as (r & pc' & E & _ & P).
  { apply ex_pre; [discriminate|reflexivity|cbn; lra|objs|objs]. }
  destruct P as (l & F & Pm & _).
  { apply not_hopeless. repeat constructor; reflexivity. }
  assert (R : exists rv, setupList inssort q true 3 ex_pc os = Ok (rv, ex_pc) /\ firstn 2 (r_list rv) = [Some 1%nat; Some 1%nat]).
  { eexists. split; [vm_compute; reflexivity|reflexivity]. }
  destruct R as (rv & E2 & Ev). assert (r = rv) by congruence. subst rv. clear E E2.
  pose proof (Permutation_length Pm) as Ln. change (length (unsat_from 0 os)) with 2%nat in Ln. rewrite Ln, Ev in F.
  destruct l as [|a [|b [|c l]]]; try discriminate. injection F as <- <-.
  assert (I : In 0%nat [1%nat; 1%nat]) by (apply (Permutation_in _ (Permutation_sym Pm)); left; reflexivity).
  destruct I as [I|[I|[]]]; discriminate.
Qed.
Print Assumptions C36_refuted.
(** The others of the list are not ordered by priority. *)
Theorem C36_order_refuted : ~ C36_order_full.
Proof.
  intros H. set (os := [ex_obj (1 # 2) 1; ex_obj (1 # 2) 1; ex_obj (1 # 2) 2]). set (q := ex_opts DecrInfeas 1 0).
  destruct (H inssort q 3%nat ex_pc os) as (r & pc' & l & E & Ln & F & By).
  { apply ex_pre; [discriminate|reflexivity|cbn; lra|objs|objs]. }
  { apply not_hopeless. repeat constructor; reflexivity. } { reflexivity. } { cbn. lia. }
  assert (R : exists rv, setupList inssort q true 3 ex_pc os = Ok (rv, ex_pc) /\ firstn 3 (r_list rv) = [Some 0%nat; Some 2%nat; Some 1%nat]).
  { eexists. split; [vm_compute; reflexivity|reflexivity]. }
  destruct R as (rv & E2 & Ev). assert (r = rv) by congruence. subst rv. clear E E2.
  change (length (unsat_from 0 os)) with 3%nat in Ln. rewrite Ln, Ev in F.
  destruct l as [|a [|b [|c [|d l]]]]; try discriminate. injection F as <- <- <-.
  destruct By as (_ & By & _). inversion By as [|? ? X _]; subst. vm_compute in X. congruence.
Qed.
Print Assumptions C36_order_refuted.
(** What holds: the code never fails, the infeasibility report is exact, the number of unsatisfied
    objects is right, all cells of the list are unsatisfied objects, the candidates have the best
    priority, and the list is a permutation of the unsatisfied objects when no pseudo-cost fraction is
    set, or there is room left, or all objects of the best priority are candidates.  Without strong
    branching only the first cell is meaningful. *)
Theorem C36_partial : forall S q cap pc os, setup_pre S q cap pc os ->
  exists r pc', setupList S q true cap pc os = Ok (r, pc') /\ (r_uns r = (-1)%Z <-> hopeless os) /\
    (~ hopeless os -> r_uns r = Z.of_nat (length (unsat_from 0 os)) /\
      (Nat.max (s_strong q) (s_root q) <> O ->
         exists l, length l = length (unsat_from 0 os) /\ firstn (length l) (r_list r) = map Some l /\ Forall (unsat os) l /\
           Forall (best os) (firstn (r_nol r) l) /\ (unsat_from 0 os <> [] -> (0 < r_nol r)%nat) /\ (r_nol r <= ms_of q os)%nat /\
           (s_frac q == 0 \/ (r_nol r < ms_of q os /\ length l < length os)%nat \/ r_nol r = number_best os -> Permutation l (unsat_from 0 os))) /\
      (Nat.max (s_strong q) (s_root q) = O -> r_nol r = O /\ (unsat_from 0 os <> [] -> exists x, nth_error (r_list r) 0 = Some (Some x) /\ best os x))).
Proof. exact list_ok. Qed.
Print Assumptions C36_partial.
(** The arrays are allocated for the objects known at construction; re-use without initialisation throws. *)
Theorem C36_failures : forall S q cap pc os, os <> [] ->
  ((cap < length os)%nat -> setupList S q true cap pc os = OutOfBounds) /\ setupList S q false cap pc os = Thrown.
Proof.
  intros S q cap pc os N. split; [|reflexivity]. intros L. unfold setupList. cbn [negb]. destruct os; [congruence|]. cbn [length Nat.eqb negb chk bind].
  apply Nat.ltb_lt in L. cbn [length] in L. rewrite L. reflexivity.
Qed.
Print Assumptions C36_failures.
Example C36_ex :
  setup_pre inssort (ex_opts DecrInfeas 2 0) 3 ex_pc [ex_obj (1 # 4) 2; ex_obj (1 # 2) 1; ex_obj (1 # 3) 1] /\
  (do ' (r, _) <- setupList inssort (ex_opts DecrInfeas 2 0) true 3 ex_pc [ex_obj (1 # 4) 2; ex_obj (1 # 2) 1; ex_obj (1 # 3) 1];
   Ok (r_list r, r_nol r, r_uns r)) = Ok ([Some 1%nat; Some 2%nat; Some 0%nat], 2%nat, 3%Z) /\
  (do ' (r, _) <- setupList inssort (ex_opts DecrPs 1 1) true 3 ex_pc [ex_obj (1 # 4) 0; ex_obj (1 # 2) 0; ex_obj 0 0];
   Ok (firstn 2 (r_list r), r_nol r, r_uns r)) = Ok ([Some 1%nat; Some 1%nat], 1%nat, 2%Z).
Proof. split; [apply ex_pre; [discriminate|reflexivity|cbn; lra|objs|objs]|]. split; vm_compute; reflexivity. Qed.

(** ** C76 *)
(** The list for "least fractional" keeps the most fractional objects. *)
Theorem C76_refuted : ~ C76_full.
Proof.
  intros H. set (os := [ex_obj (1 # 2) 0; ex_obj (1 # 10) 0; ex_obj 0 0]). set (q := ex_opts IncrInfeas 1 0).
  destruct (H inssort q 3%nat ex_pc os) as (r & pc' & E & _ & P).
  { apply ex_pre; [discriminate|reflexivity|cbn; lra|objs|objs]. }
  { apply not_hopeless. repeat constructor; reflexivity. } { reflexivity. } { cbn. lia. }
  destruct (P eq_refl) as (l & F & Ln & _ & _ & _ & K & _).
  assert (R : exists rv, setupList inssort q true 3 ex_pc os = Ok (rv, ex_pc) /\ r_nol rv = 1%nat /\ firstn 1 (r_list rv) = [Some 0%nat]).
  { eexists. split; [vm_compute; reflexivity|split; reflexivity]. }
  destruct R as (rv & E2 & Nv & Ev). assert (r = rv) by congruence. subst rv. clear E E2. rewrite Nv, Ev in F. destruct l as [|a [|b l]]; try discriminate. injection F as <-.
  assert (X : Qge' (infeas os 1) (infeas os 0)).
  { apply K; [left; reflexivity| |intros [X|[]]; discriminate]. split; [eexists; split; [reflexivity|reflexivity]|].
    intros j (o & Nj & _). assert (J : (j < 3)%nat) by (change 3%nat with (length os); apply nth_error_Some; congruence).
    destruct j as [|[|[|j]]]; cbn; try lia. }
  unfold Qge', infeas in X. cbn in X. lra.
Qed.
Print Assumptions C76_refuted.
(** In both cases the most fractional objects of the best priority are kept; "least fractional" only
    reverses the order of those kept. *)
Theorem C76_partial : forall S q cap pc os, setup_pre S q cap pc os -> ~ hopeless os ->
  s_frac q == 0 -> (0 < Nat.max (s_strong q) (s_root q))%nat ->
  (s_crit q = DecrInfeas -> exists r pc', setupList S q true cap pc os = Ok (r, pc') /\ list_holds os Qle Qle (Nat.max (s_strong q) (s_root q)) r) /\
  (s_crit q = IncrInfeas -> exists r pc', setupList S q true cap pc os = Ok (r, pc') /\ list_holds os Qle Qge' (Nat.max (s_strong q) (s_root q)) r).
Proof.
  intros S q cap pc os HP NH F K. split; intros C.
  - destruct (by_infeas S q cap pc os HP NH F K) as (r & pc' & E & H); [rewrite C; reflexivity|]. rewrite C in H. exists r, pc'. split; [exact E|exact H].
  - destruct (by_infeas S q cap pc os HP NH F K) as (r & pc' & E & H); [rewrite C; reflexivity|]. rewrite C in H. exists r, pc'. split; [exact E|exact H].
Qed.
Print Assumptions C76_partial.
Example C76_ex :
  (do ' (r, _) <- setupList inssort (ex_opts DecrInfeas 2 0) true 3 ex_pc [ex_obj (1 # 4) 1; ex_obj (1 # 2) 1; ex_obj (1 # 3) 1]; Ok (firstn (r_nol r) (r_list r)))
    = Ok [Some 1%nat; Some 2%nat] /\
  (do ' (r, _) <- setupList inssort (ex_opts IncrInfeas 2 0) true 3 ex_pc [ex_obj (1 # 4) 1; ex_obj (1 # 2) 1; ex_obj (1 # 3) 1]; Ok (firstn (r_nol r) (r_list r)))
    = Ok [Some 2%nat; Some 1%nat].
Proof. split; vm_compute; reflexivity. Qed.

(** ** C37 *)
(** Priorities 1, 3, 2: after the object of priority 3 the one of priority 2 looks better than all. *)
Theorem C37_refuted : ~ C37_full.
Proof.
  intros H. set (o := fun p => {| ro_inf := Some (1 # 2); ro_prio := p |}).
  destruct (H [o 1%Z; o 3%Z; o 2%Z] 0) as (r & E & _ & B); [discriminate|objs|lra|reflexivity|].
  assert (X : r = Some 2%nat) by (vm_compute in E; congruence).
  destruct (B 2%nat X) as (_ & M). specialize (M 0%nat). cbn in M. assert (2 <= 1)%Z; [|lia]. apply M. eexists. split; [reflexivity|reflexivity].
Qed.
Print Assumptions C37_refuted.
(** What holds: an unsatisfied object is chosen from the final run along which priorities do not improve,
    among the objects before the first one that cannot be repaired; none exactly when there is none
    there; it has the best priority when no object is beyond repair and priorities never get worse
    along the unsatisfied objects (so when they are all equal). *)
Theorem C37_partial : forall os d, os <> [] -> Forall (fun o => (ro_prio o <= 2147483647)%Z) os -> 0 <= d -> d < 1 ->
  exists r L, choose_random os d = Ok r /\ final_run (rprio os) (runsat_from 0 (reach os)) L /\
    (r = None <-> runsat_from 0 (reach os) = []) /\ (forall i, r = Some i -> In i L /\ runsat os i) /\
    (Forall (fun o => ro_inf o <> None) os ->
     (forall i j, (i < j)%nat -> runsat os i -> runsat os j -> (rprio os j <= rprio os i)%Z) -> forall i, r = Some i -> rbest os i).
Proof. exact random_ok. Qed.
Print Assumptions C37_partial.
Example C37_ex :
  choose_random [{| ro_inf := Some (1 # 2); ro_prio := 3 |}; {| ro_inf := Some 0; ro_prio := 1 |}; {| ro_inf := Some (1 # 2); ro_prio := 2 |}; {| ro_inf := Some (1 # 4); ro_prio := 2 |}] (1 # 2) = Ok (Some 3%nat) /\
  choose_random [{| ro_inf := Some (1 # 2); ro_prio := 1 |}; {| ro_inf := Some (1 # 2); ro_prio := 3 |}; {| ro_inf := Some (1 # 2); ro_prio := 2 |}] 0 = Ok (Some 2%nat) /\
  choose_random [{| ro_inf := None; ro_prio := 1 |}; {| ro_inf := Some (1 # 2); ro_prio := 1 |}] 0 = Ok None.
Proof. repeat split; vm_compute; reflexivity. Qed.

(** ** C38, C81 *)
Definition ex_cand (o : nat) : cand :=
  {| d_obj := o; d_up := 1 # 2; d_dn := 1 # 2; d_bound := true;
     d_do := fun up b => match nth_error b o with
                         | Some (l, u) => firstn o b ++ (if up then (1, u) else (l, 0)) :: skipn (S o) b
                         | None => b end |}.
Lemma ex_cand_len o up b : length (d_do (ex_cand o) up b) = length b.
Proof.
  cbn [ex_cand d_do]. destruct (nth_error b o) as [[l u]|] eqn:E; [|reflexivity]. assert (o < length b)%nat by (apply nth_error_Some; congruence).
  rewrite app_length, firstn_length. cbn [length]. pose proof (skipn_length (S o) b) as K. cbn [skipn] in *. rewrite K. lia.
Qed.
Definition ex_q (root : bool) (look : nat) : sbopts :=
  {| q_trustPc := true; q_trustBound := true; q_trustSol := true; q_look := look; q_isroot := root; q_weight := 1 # 2; q_orig := 0; q_dbg := false |}.
Definition fine : child := {| h_opt := true; h_inf := false; h_lim := false; h_obj := 1; h_feas := false |}.
Definition dead : child := {| h_opt := false; h_inf := true; h_lim := false; h_obj := 1; h_feas := false |}.
Definition ex_s (n : nat) : sb := {| v_b := repeat (0, 1) n; v_cut := PInf; v_good := PInf; v_pc := pc_init n; v_done := 0; v_fix := 0 |}.
Lemma ex_sb root look n cs : Forall (fun o => (o < n)%nat) cs -> sb_pre (ex_q root look) n (map ex_cand cs) (ex_s n).
Proof.
  intros H. constructor; [|apply pc_init_ok|reflexivity]. apply Forall_forall. intros c Ic. apply in_map_iff in Ic. destruct Ic as (o & <- & Io).
  rewrite Forall_forall in H. split; [exact (H o Io)|]. split; [reflexivity|]. split; [reflexivity|]. apply ex_cand_len.
Qed.
(** Both children of the first object infeasible, one of the second: the code is 1, not -1. *)
Theorem C38_refuted : ~ C38_full.
Proof.
  intros H. set (solve := fun (i : nat) (up : bool) (b : bounds) => match i, up with O, _ => dead | _, false => dead | _, true => fine end).
  destruct (H (ex_q true 0) 2%nat solve (fun _ => false) (map ex_cand [0%nat; 1%nat]) (ex_s 2)) as (rc & rs & s' & E & _ & I).
  { apply ex_sb. repeat constructor. }
  assert (R : exists r1 r2 s2, doStrongBranching (ex_q true 0) 2 solve (fun _ => false) (map ex_cand [0%nat; 1%nat]) (ex_s 2) = Ok (1%Z, [r1; r2], s2) /\ both_inf r1).
  { eexists _, _, _. split; [vm_compute; reflexivity|split; reflexivity]. }
  destruct R as (r1 & r2 & s2 & E2 & B). assert (rc = 1%Z) by congruence. assert (rs = [r1; r2]) by congruence. subst.
  assert (X : 1%Z = (-1)%Z) by (apply I; exists r1; split; [left; reflexivity|exact B]). discriminate X.
Qed.
Print Assumptions C38_refuted.
(** What holds, with the look-ahead off or at the root: all bounds are those before the call; the
    candidates are tried in order, all of them unless time runs out (code 3, after the candidate at
    which it does); otherwise the last tried candidate with an infeasible child decides: code -1 when
    both its children are infeasible, 1 when one is, 0 when there is no such candidate; a status
    "infeasible" means that the child was proved infeasible, or optimal not below the cutoff. *)
Theorem C38_partial : forall q n solve late cs s, sb_pre q n cs s -> q_isroot q = true \/ q_look q = O ->
  exists rc rs s', doStrongBranching q n solve late cs s = Ok (rc, rs, s') /\ same_bounds (v_b s') (v_b s) /\
    map g_obj rs = map d_obj (firstn (length rs) cs) /\ (length rs <= length cs)%nat /\
    (forall k r c, nth_error rs k = Some r -> nth_error cs k = Some c -> status_means q solve (v_b s) (v_cut s) k c r) /\
    (forall k, (k < length rs)%nat -> late k = true -> S k = length rs) /\
    (if match rs with [] => false | _ => late (length rs - 1)%nat end then rc = 3%Z
     else length rs = length cs /\ (rc = (-1)%Z <-> exists r, last_inf rs r /\ both_inf r) /\ (rc = 1%Z <-> exists r, last_inf rs r /\ ~ both_inf r) /\
          (rc = 0%Z <-> Forall (fun r => ~ some_inf r) rs)).
Proof.
  intros q n solve late cs s [H1 H2 H3] M. unfold doStrongBranching.
  destruct (strong_ok q n solve late (v_b s) (v_cut s) H3 cs 0 0%Z MInf 0 [] s H1 H2 (same_refl _) (or_introl eq_refl)) as
    [(_ & X1 & X2 & _)|(rc & rs & s' & E & A1 & A2 & A3 & A4 & A5 & A6 & A7 & A8 & A9 & _)]; [exfalso; destruct M as [M|M]; [congruence|lia]|].
  exists rc, rs, s'. split; [exact E|]. split; [exact A1|]. split; [exact A4|]. split; [exact A5|]. split; [exact A7|]. split; [exact A8|].
  cbn [plus] in A9. destruct (match rs with [] => false | _ => late (length rs - 1)%nat end); [exact A9|].
  destruct A9 as (B1 & B2 & _). split; [exact (B2 M)|]. rewrite B1. apply code_minus.
Qed.
Print Assumptions C38_partial.
Example C38_ex :
  let solve := fun (i : nat) (up : bool) (b : bounds) => match i with O => fine | _ => dead end in
  sb_pre (ex_q true 0) 2 (map ex_cand [0%nat; 1%nat]) (ex_s 2) /\
  (do ' (rc, rs, s') <- doStrongBranching (ex_q true 0) 2 solve (fun _ => false) (map ex_cand [0%nat; 1%nat]) (ex_s 2); Ok (rc, map g_dst rs, v_b s')) = Ok ((-1)%Z, [0%Z; 1%Z], [(0, 1); (0, 1)]) /\
  (do ' (rc, rs, s') <- doStrongBranching (ex_q true 0) 2 solve (fun i => Nat.eqb i 0) (map ex_cand [0%nat; 1%nat]) (ex_s 2); Ok (rc, map g_dst rs)) = Ok (3%Z, [0%Z]).
Proof. intros solve. split; [apply ex_sb; repeat constructor|]. split; vm_compute; reflexivity. Qed.

(** A child which is infeasible stops the run when the look-ahead limit is on below the root. *)
Theorem C81_refuted : ~ C81_full.
Proof.
  intros H. destruct (H (ex_q false 2) 1%nat (fun _ _ _ => dead) (fun _ => false) (map ex_cand [0%nat]) (ex_s 1)) as (rc & rs & s' & E); [apply ex_sb; repeat constructor|].
  vm_compute in E. discriminate E.
Qed.
Print Assumptions C81_refuted.
(** What holds: at the root or with the limit off strong branching always returns; otherwise it may
    stop with the assertion, certainly when the first candidate tried has a child that is not solved
    to optimality below the cutoff; when it returns, all candidates tried but the one at which time ran
    out have two children solved to optimality, and the code is 0 or 3. *)
Theorem C81_partial : forall q n solve late cs s, sb_pre q n cs s ->
  (q_isroot q = true \/ q_look q = O -> exists rc rs s', doStrongBranching q n solve late cs s = Ok (rc, rs, s')) /\
  (q_isroot q = false -> (0 < q_look q)%nat ->
     (doStrongBranching q n solve late cs s = AssertFail \/
      exists rc rs s', doStrongBranching q n solve late cs s = Ok (rc, rs, s') /\ same_bounds (v_b s') (v_b s) /\ (rc = 0%Z \/ rc = 3%Z) /\
        forall k r, nth_error rs k = Some r -> late k = false -> g_dst r = 0%Z /\ g_ust r = 0%Z) /\
     (forall c cs', cs = c :: cs' -> late 0%nat = false -> h_opt (solve 0%nat false (d_do c false (v_b s))) = false -> doStrongBranching q n solve late cs s = AssertFail)).
Proof.
  intros q n solve late cs s [H1 H2 H3]. unfold doStrongBranching.
  pose proof (strong_ok q n solve late (v_b s) (v_cut s) H3 cs 0 0%Z MInf 0 [] s H1 H2 (same_refl _) (or_introl eq_refl)) as St. split.
  - intros M. destruct St as [(_ & X1 & X2 & _)|(rc & rs & s' & E & _)]; [exfalso; destruct M as [M|M]; [congruence|lia]|]. eauto.
  - intros M1 M2. split.
    + destruct St as [(E & _)|(rc & rs & s' & E & A1 & A2 & A3 & A4 & A5 & A6 & A7 & A8 & A9 & A10 & A11)]; [left; exact E|].
      right. exists rc, rs, s'. split; [exact E|]. split; [exact A1|]. cbn [plus] in A9.
      destruct (match rs with [] => false | _ => late (length rs - 1)%nat end) eqn:La.
      * split; [auto|]. intros k r Nr Lk. assert (K : (k < length rs)%nat) by (apply nth_error_Some; congruence).
        destruct (Nat.eq_dec (S k) (length rs)) as [D|D]; [|apply (A11 M1 M2 k r Nr); lia].
        exfalso. destruct rs; [discriminate La|]. cbn [length] in *. replace (S (length rs) - 1)%nat with k in La by lia. congruence.
      * destruct A9 as (B1 & _ & B3). specialize (B3 M1 M2). split.
        -- left. rewrite B1. apply (code_minus rs). eapply Forall_impl; [|exact B3]. intros r (C1 & C2) [X|X]; congruence.
        -- intros k r Nr _. rewrite Forall_forall in B3. exact (B3 r (nth_error_In _ _ Nr)).
    + intros c cs' -> Li O. inversion H1 as [|? ? C1 _]; subst x l. cbn [strong].
      destruct (one_side_ok q n false (solve 0%nat false) c s C1 H2 H3) as (d0 & ch0 & s1 & E1 & _ & P1 & _). 
      assert (Nz : d0 <> 0%Z).
      { unfold one_side in E1. set (h := solve 0%nat false (d_do c false (v_b s))) in *. unfold update_info in E1. rewrite O in E1.
        destruct (h_lim h) eqn:Lm; cbn [Z.eqb] in E1; rewrite ?andb_false_r in E1; cbn [andb] in E1;
          destruct (update_hot _ _ _ _ _ _ _ _) as [pcv| | | | | | |]; try discriminate E1; cbn [bind] in E1;
          destruct (negb (h_inf h) && negb false)%bool eqn:Y1; [| |destruct (h_inf h && Qltb (Qabs (h_obj h)) (1 # 1000000))%bool eqn:Y2|destruct (h_inf h && Qltb (Qabs (h_obj h)) (1 # 1000000))%bool eqn:Y2];
          cbn [bind Z.eqb Pos.eqb andb] in E1; rewrite H3 in E1; cbn [andb] in E1; intros ->; try discriminate E1; try (destruct (h_inf h && Qltb (Qabs (h_obj h)) (1 # 1000000))%bool; cbn [bind Z.eqb Pos.eqb andb] in E1; rewrite ?H3 in E1; discriminate E1). }
      rewrite E1. cbn [bind]. destruct (one_side_ok q n true (solve 0%nat true) c s1 C1 P1 H3) as (d1 & ch1 & s2 & E2 & _). rewrite E2. cbn [bind].
      rewrite Li, M1. apply Nat.ltb_lt in M2. rewrite M2. cbn [negb andb]. replace (Z.eqb d0 0) with false by (symmetry; apply Z.eqb_neq, Nz). reflexivity.
Qed.
Print Assumptions C81_partial.
Example C81_ex :
  (do ' (rc, rs, _) <- doStrongBranching (ex_q false 1) 3 (fun _ _ _ => fine) (fun _ => false) (map ex_cand [0%nat; 1%nat; 2%nat]) (ex_s 3); Ok (rc, map g_obj rs)) = Ok (0%Z, [0%nat; 1%nat]) /\
  doStrongBranching (ex_q false 2) 1 (fun _ _ _ => dead) (fun _ => false) (map ex_cand [0%nat]) (ex_s 1) = AssertFail.
Proof. split; vm_compute; reflexivity. Qed.

(** ** C80 *)
(** A child solve that ended neither optimal nor infeasible, and not by a limit either (an error, for
    example), is booked in the pseudo-costs as an infeasible child. *)
Theorem C80_refuted : ~ C80_full.
Proof.
  intros H. set (h := {| h_opt := false; h_inf := false; h_lim := false; h_obj := 1; h_feas := false |}).
  assert (R : exists ret st ch good pc', update_info (ex_q true 0) 1 PInf PInf false h (ex_cand 0) (pc_init 1) = Ok (ret, st, ch, good, pc') /\ p_dn pc' = [1%nat]).
  { eexists _, _, _, _, _. split; [vm_compute; reflexivity|reflexivity]. }
  destruct R as (ret & st & ch & good & pc' & E & X). destruct (H _ _ _ _ _ _ _ _ _ _ _ _ _ (pc_init_ok 1) E) as [[Y|Y]|Y]; [discriminate|discriminate|].
  rewrite Y in X. discriminate X.
Qed.
Print Assumptions C80_refuted.
(** It holds for children with a limit flag; and only the tried side of the object changes. *)
Theorem C80_partial : forall q n cut good up h c pc ret st ch good' pc',
  pc_ok n pc -> (d_obj c < n)%nat -> update_info q n cut good up h c pc = Ok (ret, st, ch, good', pc') ->
  (h_opt h = false -> h_lim h = true -> pc' = pc) /\ (q_trustPc q = false -> pc' = pc) /\
  (forall up' j, (up' <> up \/ j <> d_obj c) -> total up' j pc' = total up' j pc /\ number up' j pc' = number up' j pc) /\
  (number up (d_obj c) pc' = number up (d_obj c) pc \/ number up (d_obj c) pc' = S (number up (d_obj c) pc)).
Proof.
  intros q n cut good up h c pc ret st ch good' pc' P Hc E. unfold update_info in E.
  match type of E with bind (update_hot _ _ _ _ ?st0 ?ch0 _ _) _ = _ => set (st1 := st0) in *; set (ch1 := ch0) in * end.
  destruct (update_hot q n cut up st1 ch1 c pc) as [pcv| | | | | | |] eqn:U; try discriminate E. cbn [bind] in E.
  assert (pcv = pc') by (destruct (negb (h_inf h) && negb (h_opt h))%bool; [congruence|]; destruct (h_inf h && _)%bool; congruence). subst pcv. clear E.
  unfold update_hot in U. destruct (q_trustPc q) eqn:T; cbn [negb] in U; [|assert (pc' = pc) by congruence; subst; repeat split; auto].
  destruct (chk (Nat.ltb (d_obj c) n)); try discriminate U. cbn [bind] in U. destruct (chk _) in U; try discriminate U. cbn [bind] in U.
  assert (Put : forall d, put_cost up (d_obj c) d pc = Ok pc' -> (forall up' j, (up' <> up \/ j <> d_obj c) -> total up' j pc' = total up' j pc /\ number up' j pc' = number up' j pc) /\
     number up (d_obj c) pc' = S (number up (d_obj c) pc)).
  { intros d Ed. destruct (put_cost_ok n up (d_obj c) d pc P Hc) as (pc2 & E2 & _ & T2 & N2). assert (pc2 = pc') by congruence. subst pc2. split.
    - intros up' j D. rewrite T2, N2. replace (Bool.eqb up' up && Nat.eqb j (d_obj c))%bool with false; [auto|]. symmetry. apply andb_false_iff.
      destruct D as [D|D]; [left; destruct up', up; try reflexivity; congruence|right; apply Nat.eqb_neq, D].
    - rewrite N2. rewrite Bool.eqb_reflx, Nat.eqb_refl. reflexivity. }
  assert (Lim : h_opt h = false -> h_lim h = true -> st1 = 2%Z).
  { intros O Lm. unfold st1. rewrite O, Lm. cbn [Z.eqb]. rewrite andb_false_r. reflexivity. }
  split; [intros O Lm; rewrite (Lim O Lm) in U; cbn [Z.eqb Pos.eqb] in U; congruence|]. split; [discriminate|].
  destruct (Z.eqb st1 0); [destruct (Put _ U); split; [assumption|right; assumption]|]. destruct (Z.eqb st1 1); [destruct (Put _ U); split; [assumption|right; assumption]|].
  assert (pc' = pc) by congruence. subst. split; [auto|left; reflexivity].
Qed.
Print Assumptions C80_partial.
Example C80_ex :
  (do ' (_, st, _, _, pc') <- update_info (ex_q true 0) 1 PInf PInf false {| h_opt := false; h_inf := false; h_lim := true; h_obj := 1; h_feas := false |} (ex_cand 0) (pc_init 1); Ok (st, p_dn pc')) = Ok (2%Z, [0%nat]) /\
  (do ' (_, st, _, _, pc') <- update_info (ex_q true 0) 1 PInf PInf false fine (ex_cand 0) (pc_init 1); Ok (st, p_dn pc')) = Ok (0%Z, [1%nat]).
Proof. split; vm_compute; reflexivity. Qed.

(** ** C78, C79 *)
(** With all candidates tried and not proved infeasible, the chosen object has the highest value: its
    score when tried, else its estimate; no tried candidate has a higher score and no object that was
    trusted a higher estimate; it is an object of the list. *)
Theorem C78 : forall q w n mk pref fixv solve late uns L s, choose_pre q n mk uns L s -> uns <> 0%Z -> q_isroot q = true \/ q_look q = O ->
  exists x, chooseVariable q w n mk pref fixv solve late uns L s = Ok x /\
    (forall o, x_best x = Some o -> nth_error L 0 = Some (Some o) \/ exists j, (j < Z.to_nat uns)%nat /\ nth_error L j = Some (Some o)) /\
    ((forall k, late k = false) -> x_rs x <> [] -> x_rc x <> (-1)%Z ->
      exists cut o v, cut_from solve (v_cut s) cut /\ x_best x = Some o /\
        ((exists r, In r (x_rs x) /\ g_obj r = o /\ v == tried_score (q_weight q) cut (q_orig q) r) \/ (exists v', estimate q (v_pc s) (mk o) o = Some v' /\ v == v')) /\
        (forall r, In r (x_rs x) -> tried_score (q_weight q) cut (q_orig q) r <= v) /\
        (forall j o', (j < looked q w uns (v_done s))%nat -> nth_error L j = Some (Some o') -> ~ In o' (map g_obj (x_rs x)) ->
           forall v', estimate q (v_pc s) (mk o') o' = Some v' -> v' <= v)).
Proof.
  intros q w n mk pref fixv solve late uns L s HP U M.
  destruct (choose_ok q w n mk pref fixv solve late uns L s HP U) as [(_ & X1 & X2)|(x & E & A1 & A2 & A3 & A4 & A5 & A6 & A7)]; [exfalso; destruct M as [M|M]; [congruence|lia]|].
  exists x. split; [exact E|]. split; [exact A1|]. intros Lt. exact (A6 Lt M).
Qed.
Print Assumptions C78.
(** Conclusions drawn from strong branching are sound, for any candidates, outcomes, time limits and
    options: code -1 only when both children of some tried object are infeasible; a forced way only
    away from an infeasible child; bounds change only by branching away from infeasible children, and
    not at all without fixing; each infeasible status is backed by the solve of that child. *)
Theorem C79 : forall q w n mk pref fixv solve late uns L s x, choose_pre q n mk uns L s ->
  chooseVariable q w n mk pref fixv solve late uns L s = Ok x ->
    (x_rc x = (-1)%Z -> exists r, In r (x_rs x) /\ both_inf r) /\
    forced_ok (x_rs x) (x_forced x) /\
    (exists b0, same_bounds b0 (v_b s) /\ justified mk (x_rs x) b0 (x_b x) /\ (fixv = false -> x_b x = b0)) /\
    (forall k r, nth_error (x_rs x) k = Some r -> status_means q solve (v_b s) (v_cut s) k (mk (g_obj r)) r) /\
    (Forall (fun r => ~ some_inf r) (x_rs x) -> x_forced x = None /\ same_bounds (x_b x) (v_b s)).
Proof.
  intros q w n mk pref fixv solve late uns L s x HP E. destruct (Z.eq_dec uns 0) as [U|U].
  - unfold chooseVariable in E. rewrite U in E. cbn [Z.eqb] in E. assert (X : x = {| x_rc := 1; x_best := None; x_way := -1; x_forced := None; x_b := v_b s; x_pc := v_pc s; x_rs := [] |}) by congruence.
    rewrite X. cbn [x_rc x_rs x_forced x_b]. split; [discriminate|]. split; [intros o way Y; discriminate|]. split; [exists (v_b s); split; [apply same_refl|]; split; [constructor|reflexivity]|].
    split; [intros [|k] r Y; discriminate|]. intros _. split; [reflexivity|apply same_refl].
  - destruct (choose_ok q w n mk pref fixv solve late uns L s HP U) as [(X & _)|(x' & E' & A1 & A2 & A3 & A4 & A5 & A6 & A7)]; [congruence|].
    assert (x' = x) by congruence. subst x'. auto 10.
Qed.
Print Assumptions C79.
Definition ex_w : copts := {| w_strong := 5; w_root := 5; w_trusted := 8; w_min := 0; w_only := false; w_nnt := 0 |}.
Example C78_C79_ex :
  let solve := fun (i : nat) (up : bool) (b : bounds) => match i, up with O, true => dead | S O, true => {| h_opt := true; h_inf := false; h_lim := false; h_obj := 9; h_feas := false |} | _, _ => fine end in
  choose_pre (ex_q true 0) 3 ex_cand 3 [Some 2%nat; Some 0%nat; Some 1%nat] (ex_s 3) /\
  (do x <- chooseVariable (ex_q true 0) ex_w 3 ex_cand (fun _ => None) true solve (fun _ => false) 3 [Some 2%nat; Some 0%nat; Some 1%nat] (ex_s 3);
   Ok (x_rc x, x_best x, x_forced x, x_b x)) = Ok (2%Z, Some 0%nat, Some (2%nat, 0%Z), [(0, 1); (0, 1); (0, 0)]).
Proof.
  intros solve. split; [|vm_compute; reflexivity]. constructor; [|discriminate|apply pc_init_ok|reflexivity]. split; [cbn; lia|]. split.
  - intros i Hi. change (Z.to_nat 3) with 3%nat in Hi. destruct i as [|[|[|i]]]; cbn; try lia; eexists; (split; [reflexivity|lia]).
  - intros o _. split; [reflexivity|]. split; [reflexivity|]. split; [reflexivity|]. apply ex_cand_len.
Qed.

(** ** C39, C77 *)
(** Parent [0,2], child [0,1], the LP needs x >= 1/2: reported infeasible although it is feasible. *)
Theorem C39_refuted : ~ C39_full.
Proof.
  intros H. set (solve := fun b : bounds => {| j_inf := existsb (fun p => Qltb (snd p) (1 # 2)) b; j_lim := false; j_obj := 0; j_sol := [] |}).
  assert (V : by_value solve).
  { intros b b' S. unfold solve. f_equal. induction S as [|[l u] [l' u'] b b' (_ & E2) _ IH]; [reflexivity|]. cbn [existsb snd] in *. f_equal; [|exact IH].
    destruct (Qltb u (1 # 2)) eqn:X, (Qltb u' (1 # 2)) eqn:Y; try reflexivity; [apply Qltb_lt in X; apply Qltb_ge in Y|apply Qltb_ge in X; apply Qltb_lt in Y]; lra. }
  destruct (H true solve [(0, 1)] {| u_bounds := [(0, 2)]; u_sol := [] |} V) as (st & f & x & l' & E & _ & _ & I).
  { constructor; [|constructor]. cbn. repeat split; discriminate. }
  vm_compute in E. assert (X : st = provenInfeasible) by congruence. apply I in X. vm_compute in X. discriminate X.
Qed.
Print Assumptions C39_refuted.
(** What holds, for both warm-start modes: the parent's bounds are back afterwards; the LP is given
    the child's lower bounds, and upper bounds not above the child's; they are the child's bounds exactly
    when each column's upper bound is unchanged or equal to its lower bound, and then the answer is
    that for the child. *)
Theorem C39_partial : forall basis solve chd l, tighter chd (u_bounds l) ->
  exists st f x l', lp_hot basis 0 solve chd l = Ok (st, f, x, l') /\ u_bounds l' = u_bounds l /\
    Forall2 (fun b c => fst b == fst c /\ snd b <= snd c) (lp_bounds (u_bounds l) chd) chd /\
    (same_bounds (lp_bounds (u_bounds l) chd) chd <-> Forall2 (fun c o => snd c == snd o \/ snd c == fst c) chd (u_bounds l)) /\
    (by_value solve -> Forall2 (fun c o => snd c == snd o \/ snd c == fst c) chd (u_bounds l) ->
       f = j_obj (solve chd) /\ (st = provenInfeasible <-> j_inf (solve chd) = true)).
Proof.
  intros basis solve chd l T. destruct (lp_hot_ok basis solve chd l T) as (x & l' & E & U & _). eexists _, _, x, l'. split; [exact E|]. split; [exact U|].
  split; [apply lp_inside, T|]. split; [apply lp_same, T|]. intros V S. apply lp_same in S; [|exact T]. rewrite (V _ _ S). split; [reflexivity|].
  destruct (j_inf (solve chd)); [tauto|]. destruct (j_lim (solve chd)); split; discriminate.
Qed.
Print Assumptions C39_partial.
Example C39_ex :
  tighter [(0, 0); (1, 2)] [(0, 1); (0, 2)] /\ lp_bounds [(0, 1); (0, 2)] [(0, 0); (1, 2)] = [(0, 0); (1, 2)] /\ lp_bounds [(0, 2)] [(0, 1)] = [(0, 0)].
Proof. split; [repeat constructor; cbn; discriminate|]. split; vm_compute; reflexivity. Qed.

Theorem C77_refuted : ~ C77_full.
Proof.
  intros H. destruct (H false 0%nat {| j_inf := false; j_lim := false; j_obj := 0; j_sol := [1] |} [(0, 1)] {| u_bounds := [(0, 1)]; u_sol := [0] |}) as (st & f & x & l' & E & _ & _ & X).
  vm_compute in E. assert (Y : x = [0]) by congruence. rewrite Y in X. discriminate X.
Qed.
Print Assumptions C77_refuted.
(** Status and objective are always right without cut rounds; the solution only when the LP itself is
    re-solved from its basis: with a clone it is the parent's.  With cut rounds the missing cut generator is
    used, unless the LP is infeasible or stopped. *)
Theorem C77_partial : forall basis (r : lpres) chd l, tighter chd (u_bounds l) ->
  (exists st f x l', lp_hot basis 0 (fun _ => r) chd l = Ok (st, f, x, l') /\
    (st = provenInfeasible <-> j_inf r = true) /\ f = j_obj r /\ (basis = true -> x = j_sol r) /\ (basis = false -> x = u_sol l)) /\
  (forall rounds, j_inf r = false -> j_lim r = false -> lp_hot basis (S rounds) (fun _ => r) chd l = NullDeref).
Proof.
  intros basis r chd l T. split.
  - destruct (lp_hot_ok basis (fun _ => r) chd l T) as (x & l' & E & U & X). eexists _, _, x, l'. split; [exact E|]. split; [destruct (j_inf r); [tauto|]; destruct (j_lim r); split; discriminate|].
    split; [reflexivity|]. split; intros ->; exact X.
  - intros rounds I Lm. unfold lp_hot. rewrite I, Lm. reflexivity.
Qed.
Print Assumptions C77_partial.
Example C77_ex :
  lp_hot true 0 (fun _ => {| j_inf := false; j_lim := false; j_obj := 3; j_sol := [1] |}) [(0, 0)] {| u_bounds := [(0, 1)]; u_sol := [0] |}
    = Ok (solvedOptimal, 3, [1], {| u_bounds := [(0, 1)]; u_sol := [1] |}).
Proof. vm_compute. reflexivity. Qed.

(** ** C45 *)
(** A worsening recorded as an improvement: the objective change is booked with its sign, and the change
    of the variable too; moves below 1e-6 are not counted. *)
Theorem C45_refuted : ~ C45_full.
Proof.
  intros H. destruct (H 1%nat [{| b_index := 0; b_branch := 0; b_dobj := -1; b_dval := 1; b_status := 0; b_cut := PInf; b_cur := 0 |}]) as (pc & E & R).
  { repeat constructor; cbn; lia. }
  vm_compute in E. destruct (R false 0%nat) as (_ & _ & P); [lia|]. assert (X : pc = {| p_ut := [0]; p_un := [0%nat]; p_dt := [-1]; p_dn := [1%nat] |}) by congruence.
  rewrite X in P. vm_compute in P. congruence.
Qed.
Print Assumptions C45_refuted.
(** Totals and counts are those of the observations in which the variable moved by at least 1e-6, for each
    object and direction; the totals are not negative when the contributions are not.  Without a search
    nothing changes. *)
Theorem C45_partial : forall n bs, Forall (obs_ok n) bs ->
  (exists pc, updates true n bs (pc_init n) = Ok pc /\
    forall up i, (i < n)%nat ->
      number up i pc = length (filter (fun b => about up i b && counted b)%bool bs) /\
      total up i pc == qsum (map contribution (filter (fun b => about up i b && counted b)%bool bs)) /\
      (Forall (fun b => 0 <= contribution b) bs -> 0 <= total up i pc)) /\
  (forall pc, updates false n bs pc = Ok pc).
Proof.
  intros n bs H. split.
  - destruct (updates_ok n bs (pc_init n) H (pc_init_ok n)) as (pc & E & _ & R). exists pc. split; [exact E|]. intros up i Hi.
    destruct (R up i Hi) as (R1 & R2). destruct (pc_init_zero n up i) as (Z1 & Z2). rewrite Z2 in R1. rewrite Z1 in R2.
    split; [exact R1|]. split; [rewrite R2; lra|]. intros P. rewrite R2.
    assert (X : 0 <= qsum (map contribution (filter (fun b => about up i b && counted b)%bool bs))); [|lra]. apply qsum_nonneg.
    apply Forall_forall. intros v Iv. apply in_map_iff in Iv. destruct Iv as (b & <- & Ib). apply filter_In in Ib. rewrite Forall_forall in P. apply P, Ib.
  - intros pc. induction bs as [|b bs IH]; [reflexivity|]. cbn [updates update_branch negb bind]. apply IH. inversion H; assumption.
Qed.
Print Assumptions C45_partial.
Example C45_ex :
  let b i br d v st := {| b_index := i; b_branch := br; b_dobj := d; b_dval := v; b_status := st; b_cut := Fin 10; b_cur := 4 |} in
  Forall (obs_ok 2) [b 0%nat 0%Z 3 (1 # 2) 0%Z; b 1%nat 1%Z 3 1 1%Z; b 0%nat 0%Z 1 1 0%Z; b 0%nat 0%Z 7 0 0%Z] /\
  updates true 2 [b 0%nat 0%Z 3 (1 # 2) 0%Z; b 1%nat 1%Z 3 1 1%Z; b 0%nat 0%Z 1 1 0%Z; b 0%nat 0%Z 7 0 0%Z] (pc_init 2)
    = Ok {| p_ut := [0; 12]; p_un := [0%nat; 1%nat]; p_dt := [7; 0]; p_dn := [2%nat; 0%nat] |}.
Proof. split; [repeat constructor; cbn; lia|vm_compute; reflexivity]. Qed.
